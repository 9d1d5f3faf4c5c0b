(** * Which operations a cancellation of a coroutine should reach *)
From Coq Require Import List Bool Arith Lia.
From Verif Require Import Cfw_Model.
Import ListNotations.

(** What happens to a signal of type [t] in coroutine [n] itself: only
    coroutines with a cancellation state filter it. *)
Definition through (s : state) (n : nat) (t : ctype) : ctype :=
  match knd s n with KCo _ => filt s n t | _ => t end.

(** [through_comp]: whether operations inside composed operations count.
    [covers s n t o t']: coroutine [n] waits, directly or through other
    coroutines, for operation [o], and a signal of type [t] sent to [n] becomes
    [t'] on the way through the filters, without being filtered out. *)
Inductive covers (through_comp : bool) (s : state) : nat -> ctype -> nat -> ctype -> Prop :=
| cv_op n t o : st s n = Waiting (TOp o) \/ st s n = Waiting (TChan o) -> through s n t <> 0 ->
    covers through_comp s n t o (through s n t)
| cv_co n t d o t' : st s n = Waiting (TCo d) -> through s n t <> 0 ->
    covers through_comp s d (through s n t) o t' -> covers through_comp s n t o t'
| cv_with n t d o t' : st s n = Waiting (TWith d) -> through s n t <> 0 ->
    covers through_comp s d (through s n t) o t' -> covers through_comp s n t o t'
| cv_comb n t g fs f o t' : st s n = Waiting (TComb g fs) -> In f fs -> through s n t <> 0 ->
    covers through_comp s f (through s n t) o t' -> covers through_comp s n t o t'
| cv_comp n t d o t' : through_comp = true -> st s n = Waiting (TComp d) -> through s n t <> 0 ->
    covers through_comp s d (through s n t) o t' -> covers through_comp s n t o t'.

(** Every coroutine that [n] waits for, and [n] itself, waits for something
    that takes cancellations; combinators' helpers may have ended. *)
Inductive settled (s : state) : nat -> Prop :=
| se_op n o : st s n = Waiting (TOp o) \/ st s n = Waiting (TChan o) -> settled s n
| se_co n d : st s n = Waiting (TCo d) -> settled s d -> settled s n
| se_with n d : st s n = Waiting (TWith d) -> settled s d -> settled s n
| se_comb n g fs : st s n = Waiting (TComb g fs) ->
    (forall f, In f fs -> st s f = Ended \/ settled s f) -> settled s n.

(** A coroutine to which a signal can be sent and that has not ended. *)
Definition cancellable (s : state) (n : nat) : Prop :=
  (knd s n = KCo true \/ knd s n = KFork) /\ st s n <> Fresh /\ st s n <> Ended.
