(** * What is said about networks (for C83) *)
From Coq Require Import List Bool Arith.
From Verif Require Import Channel_Model Kpn_Model.
Import ListNotations.

Section Spec.
Context {V S : Type}.
Variable next : nat -> S -> act V S.

(** Every channel has one coroutine that reads from it and one that writes to it; only the one that writes
    may close it, and only if it is not a channel<void>. *)
Definition point_to_point (void : nat -> bool) (reader writer : nat -> nat) : Prop :=
  forall p x, match next p x with
              | Done => True
              | Rd c _ => reader c = p
              | Wr c _ _ => writer c = p
              | Cl c _ => writer c = p /\ void c = false
              end.

Definition who (e : event V) : nat :=
  match e with BeginR p _ | BeginW p _ _ | Closes p _ | EndR p _ _ | EndW p _ _ _ => p end.
(** What coroutine [p] did and saw, in order. *)
Definition of_proc (p : nat) (tr : list (event V)) : list (event V) := filter (fun e => who e =? p) tr.

(** Was channel [c] closed? *)
Definition shut (c : nat) : list (event V) -> bool := existsb (fun e => match e with Closes _ d => d =? c | _ => false end).
(** Values that were given to write on channel [c] before it was closed, and values that reads of [c] gave. *)
Fixpoint puts (c : nat) (tr : list (event V)) : list V :=
  match tr with
  | [] => []
  | BeginW _ d v :: t => (if d =? c then [v] else []) ++ puts c t
  | Closes _ d :: t => if d =? c then [] else puts c t
  | _ :: t => puts c t
  end.
Definition gets (c : nat) : list (event V) -> list V := flat_map (fun e => match e with EndR _ d (RVal v) => if d =? c then [v] else [] | _ => [] end).

Definition prefix {A} (a b : list A) : Prop := exists t, b = a ++ t.

(** Nothing can happen any more: the executor has nothing to do, and every coroutine has ended or waits in an operation. *)
Definition at_rest (s : state V S) : Prop :=
  (forall c, posted (chans s c) = []) /\ forall p, busy s p = true \/ next p (loc s p) = Done.
End Spec.
