(** * Property theorems for buffer sequences and transfer loops (C38, C39, C40) *)
From Coq Require Import List Bool Arith ZArith Lia.
From Verif Require Import Buf_Model Buf_Spec Buf_Proofs.
Import ListNotations.

(** C38: seq += n denotes the bytes it denoted before without the first n. *)
Theorem C38_advance : forall s n, bytes (advance s n) = skipn n (bytes s).
Proof. exact advance_bytes. Qed.
(** and it never gets more buffers. *)
Theorem C38_advance_count : forall s n, buffer_count (advance s n) <= buffer_count s.
Proof. exact advance_count. Qed.
(** asio's buffer_size is the number of bytes. *)
Theorem C38_size : forall s, buffer_size s = length (bytes s).
Proof. exact size_bytes. Qed.
Example C38_nonvacuous :
  bytes (advance (of_span [mkb 100 2; mkb 200 0; mkb 300 3; mkb 400 1]) 4) = [302; 400]%Z /\
  bytes (advance (of_span [mkb 100 2; mkb 200 0; mkb 300 3]) 9) = [] /\
  advance (of_span [mkb 100 2; mkb 300 3]) 2 = mks (mkb 300 3) [].
Proof. repeat split. Qed.

(** C39: iterating from begin() to end() visits the head and then the tail, in order, once. *)
Theorem C39_iteration : forall s fuel, sane s -> buffer_count s <= fuel ->
  collect fuel (begin s) (iend s) = Some (buffers s).
Proof. exact iteration. Qed.

(** C39: end() - begin() is buffer_count(); dereferencing, subscripts, +, -, ++, --, differences
    and equality agree with positions. *)
Theorem C39_positions : forall s, sane s ->
  iend s = plus (begin s) (Z.of_nat (buffer_count s)) /\
  distance (iend s) (begin s) = Z.of_nat (buffer_count s) /\
  forall j k, (0 <= j <= Z.of_nat (buffer_count s))%Z -> (0 <= k <= Z.of_nat (buffer_count s))%Z ->
    ((j < Z.of_nat (buffer_count s))%Z -> deref (plus (begin s) j) = nth_error (buffers s) (Z.to_nat j)) /\
    ((j < Z.of_nat (buffer_count s))%Z -> index (plus (begin s) k) (j - k) = nth_error (buffers s) (Z.to_nat j)) /\
    distance (plus (begin s) j) (plus (begin s) k) = (j - k)%Z /\
    plus (plus (begin s) k) (j - k) = plus (begin s) j /\
    minus (plus (begin s) k) (k - j) = plus (begin s) j /\
    next (plus (begin s) j) = plus (begin s) (j + 1) /\ prev (plus (begin s) j) = plus (begin s) (j - 1) /\
    equal (plus (begin s) j) (plus (begin s) k) = (j =? k)%Z.
Proof. exact positions. Qed.

Example C39_nonvacuous :
  let s := of_span [mkb 100 2; mkb 200 0; mkb 300 3] in
  sane s /\ buffer_count s = 3 /\ collect 3 (begin s) (iend s) = Some [mkb 100 2; mkb 200 0; mkb 300 3].
Proof. repeat split. Qed.

(** C39: comparisons agree with positions from the second position on.
    Partial: false of the first position, see below. *)
Theorem C39_ordering_partial : forall s j k, sane s ->
  (1 <= j <= Z.of_nat (buffer_count s))%Z -> (1 <= k <= Z.of_nat (buffer_count s))%Z ->
  less (plus (begin s) j) (plus (begin s) k) = (j <? k)%Z.
Proof.
  intros s j k H J K. rewrite ordering by (auto; lia).
  destruct (Z.eqb_spec j 0); [lia|]. destruct (Z.eqb_spec k 0); [lia|]. reflexivity.
Qed.

(** C39: begin() is the greatest of all: begin() < end() never holds, and end() < begin() always does. *)
Theorem C39_ordering_refuted :
  (forall s, sane s -> less (begin s) (iend s) = false /\ less (iend s) (begin s) = true) /\
  sane (of_span [mkb 100 2; mkb 300 3]).
Proof.
  split; [|reflexivity]. intros s H. destruct (positions s H) as (E & _). rewrite E.
  replace (begin s) with (plus (begin s) 0) at 1 4 by reflexivity. unfold buffer_count in *.
  rewrite !ordering by (auto; unfold buffer_count; lia). cbn. split; auto.
  destruct (Z.eqb_spec (Z.of_nat (length (tail s) + 1)) 0); [lia|reflexivity].
Qed.

(** C40: every attempt is for exactly the bytes not transferred yet, at the
    offset advanced by what was transferred (at_: the versions with an offset). *)
Theorem C40_continues : forall at_ ts last s off res reqs, transfer at_ ts last s off 0 = (res, reqs) ->
  (0 <= off < 2 ^ 64)%Z ->
  forall i si oi, nth_error reqs i = Some (si, oi) ->
    bytes si = skipn (prefix_sum ts i) (bytes s) /\ bytes si <> [] /\
    oi = if at_ then ((off + Z.of_nat (prefix_sum ts i)) mod 2 ^ 64)%Z else off.
Proof.
  intros at_ ts last s off res reqs T W. exact (transfer_requests _ _ _ _ _ _ _ _ T (fun _ => Z.mod_small _ _ W)).
Qed.

(** C40: the reported count is the sum of the partial transfers.  Success means that
    everything was transferred; an error is the one the last attempt gave, or operation_aborted
    after a cancellation. *)
Theorem C40_result : forall at_ ts last s off e m reqs, transfer at_ ts last s off 0 = (Finished e m, reqs) ->
  length reqs <= length ts /\ m = prefix_sum ts (length reqs) /\
  (honest ts reqs -> m <= length (bytes s)) /\
  match e with
  | None => length (bytes s) <= m
  | Some x =>
      (exists k n, length reqs = S k /\ option_map reply (nth_error ts k) = Some (Some x, n)) \/
      (x = aborted /\ (last = true \/ option_map cancelled (nth_error ts (length reqs)) = Some true))
  end.
Proof.
  intros at_ ts last s off e m reqs T. destruct (transfer_result _ _ _ _ _ _ _ _ T) as (A & B & C & D).
  cbn in B. subst m. split; auto. split; auto. split; auto. destruct e; auto. tauto.
Qed.

(** C40: it goes on until then: as long as it has not finished, there is one unanswered attempt. *)
Theorem C40_goes_on : forall at_ ts last s off reqs, transfer at_ ts last s off 0 = (Waiting, reqs) -> length reqs = S (length ts).
Proof. intros at_ ts last s off reqs T. exact (transfer_result _ _ _ _ _ _ _ _ T). Qed.

Example C40_nonvacuous :
  let s := of_span [mkb 100 2; mkb 300 3] in
  (exists reqs, transfer true [mkt false (None, 1); mkt false (None, 3); mkt false (None, 1)] false s 10 0 = (Finished None 5, reqs) /\
     map (fun r => (bytes (fst r), snd r)) reqs = [([100; 101; 300; 301; 302], 10); ([101; 300; 301; 302], 11); ([302], 14)]%Z /\
     honest [mkt false (None, 1); mkt false (None, 3); mkt false (None, 1)] reqs) /\
  (exists reqs, transfer true [mkt false (None, 1); mkt false (Some 32, 2)] false s 10 0 = (Finished (Some 32) 3, reqs)) /\
  (exists reqs, transfer true [mkt false (None, 1); mkt true (None, 0)] true s 10 0 = (Finished (Some aborted) 1, reqs)).
Proof.
  cbn zeta. split; [|split; eexists; reflexivity].
  eexists. split; [reflexivity|]. split; [reflexivity|].
  intros [|[|[|i]]] si oi t A B; cbn in A, B; inversion A; inversion B; subst; cbn; try lia. destruct i; discriminate.
Qed.

Print Assumptions C38_advance.
Print Assumptions C38_advance_count.
Print Assumptions C38_size.
Print Assumptions C38_nonvacuous.
Print Assumptions C39_iteration.
Print Assumptions C39_positions.
Print Assumptions C39_nonvacuous.
Print Assumptions C39_ordering_partial.
Print Assumptions C39_ordering_refuted.
Print Assumptions C40_continues.
Print Assumptions C40_result.
Print Assumptions C40_goes_on.
Print Assumptions C40_nonvacuous.
