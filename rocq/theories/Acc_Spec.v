(** * What users of io::acceptor rely on *)
From Coq Require Import List Bool Arith Lia.
From Verif Require Import Acc_Model.
Import ListNotations.

(** The connections that peers made, in order *)
Fixpoint arrived (ls : list label) : list nat :=
  match ls with [] => [] | LArrive c :: r => c :: arrived r | _ :: r => arrived r end.
(** The operations that coroutines started, in order *)
Fixpoint asked (ls : list label) : list nat :=
  match ls with [] => [] | LAccept i _ :: r => i :: asked r | _ :: r => asked r end.

(** The connections that left the acceptor, in order *)
Definition conn_of (e : event) : list nat :=
  match e with EResult _ (OSock c) | EHeld _ c | EClosed c => [c] | _ => [] end.
(** The operations that ended, in order *)
Definition ended (e : event) : list nat := match e with EResult i _ | EDiscard i => [i] | _ => [] end.
(** The operations whose coroutine got a connection, in order *)
Definition served (e : event) : list nat := match e with EResult i (OSock _) => [i] | _ => [] end.

(** The connections of posted completions; operations with a posted completion *)
Definition on_the_way (p : list (nat * kind * res)) : list nat :=
  flat_map (fun x => match snd x with RConn c => [c] | _ => [] end) p.
Definition waiting (s : state) : list nat := map fst (queue s).
Definition completing (s : state) : list nat := map (fun x => fst (fst x)) (posted s).

Inductive subseq {A} : list A -> list A -> Prop :=
| ss_nil : forall l, subseq [] l
| ss_skip : forall x a b, subseq a b -> subseq a (x :: b)
| ss_take : forall x a b, subseq a b -> subseq (x :: a) (x :: b).

(** No operation into socket [x] is under way *)
Definition free_for (x : nat) (s : state) : Prop :=
  (forall i, ~ In (i, KInto x) (queue s)) /\ (forall i r, ~ In (i, KInto x, r) (posted s)).

(** The user accepts into one socket at a time only, and races no accept() *)
Definition careful_at (s : state) (l : label) : Prop :=
  match l with
  | LAccept _ (KInto x) => free_for x s
  | LLose i => (forall k, In (i, k) (queue s) -> k <> KNew) /\ (forall r, ~ In (i, KNew, r) (posted s))
  | _ => True
  end.
Fixpoint careful (s : state) (ls : list label) : Prop :=
  match ls with
  | [] => True
  | l :: r => careful_at s l /\ match step s l with Some (s1, _) => careful s1 r | None => True end
  end.
