(** A coroutine as the language defines it (C++20 [dcl.fct.def.coroutine], [expr.await]), driven by
    the labels of Ctx_Model.v. *)
From Coq Require Import List Bool Arith.
From Verif Require Import Ctx_Model.
Import ListNotations.

Section Spec.
Context {V X : Type}.
Notation label := (label V X).
Notation event := (event V X).
Notation outcome := (outcome V X).

Inductive cstate := CNone | CRun | CSusp (p : point) | CGone.
(** Calls in progress: the call that resumed (or started) the coroutine; await_suspend
    (fresh: it has neither resumed nor destroyed the coroutine yet); a coroutine resumed in
    the place of this one. *)
Inductive cframe := KResume | KSusp (p : point) (fresh : bool) | KOther.
Record cstate_ := mkC { co : cstate; stk : list cframe }.
Definition cinit : cstate_ := mkC CNone [].

(** The rest of the program runs (possibly inside await_suspend), not the body. *)
Definition env_turn (st : list cframe) : bool := match st with KResume :: _ => false | _ => true end.
Definition touched (st : list cframe) : list cframe := match st with KSusp p _ :: t => KSusp p false :: t | _ => st end.

Definition continues (p : point) (o : outcome) : list event := match p with PInit => [EBegin] | _ => [EGot p o] end.

(** The body has ended: final_suspend; if that does not suspend, the coroutine is destroyed. *)
Definition ended (cf : cfg) (t : list cframe) (e : list event) : cstate_ * list event :=
  if never cf then (mkC CGone t, e ++ [EFin; EFlow; EPromise; EFree; EBack])
  else (mkC (CSusp PFinal) (KSusp PFinal true :: KResume :: t), e ++ [EFin; ESusp PFinal]).

Definition cstep (cf : cfg) (s : cstate_) (l : label) : option (cstate_ * list event) :=
  match l, co s, stk s with
  | LStart ready, CNone, [] =>
      if lazy cf then Some (mkC (CSusp PInit) [], [EBack])
      else if ready then Some (mkC CRun [KResume], [EBegin])
      else Some (mkC (CSusp PInit) [KSusp PInit true; KResume], [ESusp PInit])
  | LAwait k y (Some o), CRun, KResume :: _ => Some (s, [EReady k; EGot (PAt k y) o])
  | LAwait k y None, CRun, KResume :: t =>
      Some (mkC (CSusp (PAt k y)) (KSusp (PAt k y) true :: KResume :: t), [EReady k; ESusp (PAt k y)])
  | LReturn v, CRun, KResume :: t => Some (ended cf t [ERet v; ELocals])
  | LThrow x, CRun, KResume :: t =>
      if rethrow cf then Some (mkC (CSusp PFinal) t, [ELocals; EUnh x; EThrown x])
      else Some (ended cf t [ELocals; EUnh x])
  | LEnds RetVoid _, _, KSusp _ _ :: KResume :: t => Some (mkC (co s) t, [EBack])
  | LEnds RetHandle _, _, KSusp _ _ :: KResume :: t => Some (mkC (co s) (KOther :: t), [])
  | LEnds RetFalse o, CSusp _, KSusp p true :: KResume :: t =>
      match p with
      | PFinal => Some (mkC CGone t, [EFlow; EPromise; EFree; EBack])
      | _ => Some (mkC CRun (KResume :: t), continues p o)
      end
  | LEnds (RetThrow x) _, CSusp _, KSusp p true :: KResume :: t =>
      match p with
      | PInit => Some (mkC CGone t, [ESuspThrew x; EPromise; EFree; EThrown x])
      | PAt k y => Some (mkC CRun (KResume :: t), [ESuspThrew x; EGot p (Exc x)])
      | PFinal => None                                (* must not throw *)
      end
  | LOther, _, KOther :: t => Some (mkC (co s) t, [EBack])
  | LResume o, CSusp PFinal, _ => None
  | LResume o, CSusp p, st =>
      if env_turn st then Some (mkC CRun (KResume :: touched st), continues p o) else None
  | LDestroy, CSusp p, st =>
      if env_turn st then
        Some (mkC CGone (touched st), match p with PAt _ _ => [ELocals] | _ => [] end ++ [EPromise; EFree])
      else None
  | LDone, CSusp p, st =>
      if env_turn st then Some (s, [EDone (match p with PFinal => true | _ => false end)]) else None
  | _, _, _ => None
  end.

Fixpoint crun (cf : cfg) (s : cstate_) (ls : list label) : option (cstate_ * list event) :=
  match ls with
  | [] => Some (s, [])
  | l :: t =>
      match cstep cf s l with
      | None => None
      | Some (s1, e1) => match crun cf s1 t with None => None | Some (s2, e2) => Some (s2, e1 ++ e2) end
      end
  end.

(** What happened, leaving out when local variables are destroyed. *)
Definition visible (tr : list event) : list event :=
  filter (fun e => match e with ELocals => false | _ => true end) tr.

(** Events of a coroutine in whose presence a context is expected to do the same: no
    await_suspend throws, no exception leaves the call that resumed it, it never goes on behind its
    final suspend, done() is not asked at the final suspend, co_yield gives no value back. *)
Definition ordinary (e : event) : Prop :=
  match e with
  | EFlow | ESuspThrew _ | EThrown _ | EDone true | EGot (PAt _ true) (Val (Some _)) => False
  | _ => True
  end.

(** How often something happened. *)
Definition times (f : event -> bool) (tr : list event) : nat := length (filter f tr).
Definition is_free (e : event) : bool := match e with EFree => true | _ => false end.
Definition is_promise (e : event) : bool := match e with EPromise => true | _ => false end.
Definition is_locals (e : event) : bool := match e with ELocals => true | _ => false end.
Definition is_begin (e : event) : bool := match e with EBegin => true | _ => false end.
End Spec.
