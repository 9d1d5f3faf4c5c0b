(** * Specification vocabulary for with() *)
From Coq Require Import List Bool Arith.
From Verif Require Import With_Model.
Import ListNotations.

Section Spec.
Context {V E : Type}.
Notation event := (event V E).
Notation label := (label V E).

(** the exception func raised, if any *)
Definition error_of (o : outcome V E) : option E := match o with Val _ => None | Exn e => Some e end.

(** what with() is to give: func's exception first, then teardown's, then func's value *)
Definition expected (o : outcome V E) (x : option E) : outcome V E :=
  match o, x with
  | Exn e, _ => Exn e
  | Val _, Some e => Exn e
  | Val v, None => Val v
  end.

(** Nobody destroys a coroutine that is suspended. *)
Definition calm (l : label) : Prop := match l with LKillAwaiter | LKill => False | _ => True end.

(** Moving the value does not throw. *)
Definition nothrow_move (l : label) : Prop :=
  match l with LTear _ m1 m2 => m1 = None /\ m2 = None | _ => True end.

(** The awaiting coroutine has an executor, or the thread has. *)
Definition has_executor (l : label) : Prop := match l with LAwait (Some _) => False | _ => True end.

(** [a] is a prefix of [b]. *)
Definition prefix (a b : list event) : Prop := exists r, b = a ++ r.

Definition tears (tr : list event) : list (option E) :=
  flat_map (fun e => match e with ETear x => [x] | _ => [] end) tr.
Definition results (tr : list event) : list (outcome V E) :=
  flat_map (fun e => match e with EResult x => [x] | _ => [] end) tr.
Definition frees (tr : list event) : nat :=
  length (flat_map (fun e => match e with EFree => [tt] | _ => [] end) tr).
End Spec.
