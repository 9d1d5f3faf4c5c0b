(** * C46: each library error is reported as itself *)
From Coq Require Import List ZArith String.
From Verif Require Import Err_Model.
Import ListNotations.
Local Open Scope Z_scope.

(** Different errors have different codes and different messages, none of them the
    message for unknown codes, which is that of every other code. *)
Theorem C46_distinct : forall e f, (code e = code f \/ message (code e) = message (code f) -> e = f) /\
  message (code e) <> "unknown cobalt error"%string.
Proof. intros [] []; split; try (intros [H|H]); try reflexivity; discriminate. Qed.
Print Assumptions C46_distinct.

Theorem C46_unknown : forall ev, (forall e, code e <> ev) -> message ev = "unknown cobalt error"%string.
Proof.
  intros ev H.
  pose proof (H moved_from); pose proof (H detached); pose proof (H completed_unexpected);
  pose proof (H wait_not_ready); pose proof (H already_awaited); pose proof (H allocation_failed).
  cbn in *. destruct ev as [|[[[|?|]|[|?|]|]|[[|?|]|[|?|]|]|]|]; try reflexivity; congruence.
Qed.
Print Assumptions C46_unknown.

(** The exception for a condition carries the condition's code; missing: allocation_failed. *)
Theorem C46_exceptions_partial : forall e, e <> allocation_failed -> exception_of e = code e.
Proof. intros [] H; try reflexivity. congruence. Qed.
Print Assumptions C46_exceptions_partial.

(** A failed allocation is reported as "already awaited". *)
Theorem C46_allocation_refuted : exception_of allocation_failed = exception_of already_awaited /\
  message (exception_of allocation_failed) = "already awaited"%string.
Proof. split; reflexivity. Qed.
Print Assumptions C46_allocation_refuted.

(** The code of moved_from is zero: it does not count as a failure. *)
Theorem C46_failed : forall ev, failed ev = false <-> ev = 0.
Proof. intros ev. unfold failed. rewrite Bool.negb_false_iff. apply Z.eqb_eq. Qed.
Print Assumptions C46_failed.
Theorem C46_moved_from_refuted : forall e, failed (code e) = false <-> e = moved_from.
Proof. intros []; split; intros H; try reflexivity; discriminate. Qed.
Print Assumptions C46_moved_from_refuted.

Example C46_nonvacuous : (forall e, code e <> 9) /\ detached <> allocation_failed /\ exception_of detached = 1.
Proof. split; [intros []; discriminate|split; [discriminate|reflexivity]]. Qed.
