(** * Vocabulary for the destruction of a channel *)
From Coq Require Import List Bool Arith Lia.
From Verif Require Import Channel_Model Chd_Model.
Import ListNotations.

Section Spec.
Context {V : Type}.

(** A channel that is being used, without undefined behaviour so far. *)
Definition in_use (void : bool) (lim : nat) (d : dst V) : Prop :=
  exists ls evs, run (init void lim) ls = (ch d, evs) /\ bad (ch d) = None.

(** The coroutines waiting in the channel. *)
Definition waits (s : state V) (o : opid) : Prop :=
  match o with R i => In i (rq s) | W j => In j (wq s) end.

(** The destructor returns, leaving [d']. *)
Definition returns (d d' : dst V) (evs : list dev) : Prop :=
  exists n, rounds n d = (d', evs) /\ forall o, ~ waits (ch d') o.

(** The coroutine awaiting [o] is the only one that is in the way: it is no
    helper, or the last one of its combinator. *)
Definition goes_away (d : dst V) (o : opid) : Prop :=
  handle o (ch d) = true /\
  match who d o with Plain => True | Fork g => outst d g = 1 end.

Definition completes (o : opid) (ev : event V) : Prop :=
  match o, ev with
  | R i, ERead i' _ => i = i'
  | W j, EWrite j' _ _ => j = j'
  | _, _ => False
  end.

(** The program has stopped using the channel: it makes no operation, awaits
    none it made before, and does not close it. *)
Definition hands_off (l : label V) : bool :=
  match l with
  | MkRead _ | MkWrite _ _ | AwRead _ _ | AwWrite _ _ | Close => false
  | _ => true
  end.
End Spec.
