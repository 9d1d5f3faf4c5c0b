(** * Specification: what a stackful coroutine relies on when it awaits (C77) *)
From Coq Require Import List Bool Arith.
From Verif Require Import Yld_Model.
Import ListNotations.

Section Spec.
Context {V : Type}.
Notation label := (label V).
Notation event := (event V).

Definition times (f : event -> bool) (tr : list event) : nat := length (filter f tr).
Definition is_bad (e : event) : bool := match e with EBad _ => true | _ => false end.
Definition is_destroy (e : event) : bool := match e with EDestroy => true | _ => false end.
Definition is_drop (e : event) : bool := match e with EDrop _ => true | _ => false end.
Definition is_return (e : event) : bool := match e with EReturn => true | _ => false end.
Definition starts (n : nat) (e : event) : bool := match e with EAwait m => Nat.eqb m n | _ => false end.
(** Await [n] returns or throws, or the coroutine is unwound out of it. *)
Definition ends (n : nat) (e : event) : bool :=
  match e with EGot m _ | EAbort m _ | EUnwound m => Nat.eqb m n | _ => false end.

(** No awaitable refuses to be waited for (await_suspend returning false) or throws. *)
Definition patient (l : label) : Prop :=
  match l with LAwait (Refuses _) | LAwait Throws => False | _ => True end.
(** experimental::await was not called by a cancelled coroutine. *)
Definition unbroken (e : event) : Prop := match e with EAbort _ true => False | _ => True end.

Definition orderly (ls : list label) (tr : list event) : Prop := Forall patient ls /\ Forall unbroken tr.

(** Labels by which the coroutine does not wait any more. *)
Definition no_more_waits (l : label) : Prop :=
  match l with LAwait (Ready _) | LReturn | LPosted | LCancel _ => True | _ => False end.

(** The coroutine and everything it awaits has come to an end. *)
Definition over (s : state) : Prop := pl s <> Runs /\ (forall n, held s n = false) /\ posted s = 0.

(** What an await gives is what the awaitable says, or what it is resumed with. *)
Definition says (n : nat) (v : V) (l : label) : Prop :=
  match l with
  | LAwait (Ready w) | LAwait (Refuses w) | LAwait (Hands w) => w = v
  | LResume m w => m = n /\ w = v
  | _ => False
  end.
End Spec.
