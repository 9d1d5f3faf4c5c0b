(** * Property theorems about the monotonic resource (C33) *)
From Coq Require Import ZArith List Bool Lia.
From Verif Require Import Mono_Model Mono_Spec Mono_Proofs.
Import ListNotations.
Open Scope Z_scope.

(** C33, first part: for every sequence of allocations and releases the blocks
    handed out share no byte, each lies in memory the resource owns, and every
    release gives back exactly the regions obtained since the last one, each
    once, with the size and alignment it was obtained with. *)
Theorem C33_monotonic_disjoint_owned_released :
  forall buf n cs s ls,
  0 <= n -> 0 <= cs -> started s buf n cs -> Forall (label_sane cs) ls ->
  let tr := snd (run s ls) in
  everywhere (event_ok buf n) w0 tr ->
  blocks_disjoint (after w0 tr) /\ blocks_owned buf n (after w0 tr) /\ everywhere frees_ok w0 tr.
Proof. exact disjoint_owned_freed. Qed.
Print Assumptions C33_monotonic_disjoint_owned_released.

(** C33, bookkeeping: the headers lie in owned memory and no block touches
    them.  Partial: only for chunk sizes that are 0 or 4 modulo 8. *)
Theorem C33_monotonic_bookkeeping_partial :
  forall buf n cs s ls,
  0 <= n -> 0 <= cs -> started s buf n cs -> Forall (label_sane cs) ls -> Forall (label_fits cs) ls ->
  let tr := snd (run s ls) in
  everywhere (event_ok buf n) w0 tr ->
  headers_owned (after w0 tr) /\ headers_safe (after w0 tr).
Proof. exact headers_fit. Qed.
Print Assumptions C33_monotonic_bookkeeping_partial.

(** C33, alignment.  Partial: only when all requests use one alignment and
    sizes that are multiples of it. *)
Theorem C33_monotonic_aligned_partial :
  forall g buf n cs s ls,
  0 <= n -> 0 <= cs -> started s buf n cs -> Forall (label_sane cs) ls -> Forall (label_uniform g) ls ->
  n = 0 \/ (g | buf) ->
  let tr := snd (run s ls) in
  everywhere (event_ok buf n) w0 tr -> blocks_aligned (after w0 tr).
Proof. exact uniform_aligned. Qed.
Print Assumptions C33_monotonic_aligned_partial.

(** A first allocation of 11 bytes aligned to 8 from an aligned buffer is not
    aligned. *)
Theorem C33_monotonic_alignment_refuted :
  exists buf n s ls,
  0 <= n /\ started s buf n n /\ (8 | buf) /\ Forall (label_sane n) ls /\
  everywhere (event_ok buf n) w0 (snd (run s ls)) /\
  ~ blocks_aligned (after w0 (snd (run s ls))).
Proof.
  exists 4096, 1024, (make 4096 1024), [LAlloc 11 8 0].
  split; [lia|]. split; [left; auto|]. split; [exists 512; reflexivity|].
  split; [repeat constructor; cbn; lia|]. split; [cbv; auto|].
  intros H. inversion H as [|? ? X _]; subst. destruct X as [z X]. cbn in X. lia.
Qed.
Print Assumptions C33_monotonic_alignment_refuted.

(** A request of 1031 bytes makes the header of the new chunk end outside the
    memory obtained for it. *)
Theorem C33_monotonic_header_overrun_refuted :
  exists cs s ls,
  0 <= cs /\ started s 0 0 cs /\ Forall (label_sane cs) ls /\
  everywhere (event_ok 0 0) w0 (snd (run s ls)) /\
  ~ headers_owned (after w0 (snd (run s ls))).
Proof.
  exists 1024, (make_chunk 1024), [LAlloc 1031 8 4096].
  split; [lia|]. split; [right; auto|].
  split; [repeat constructor; cbn; lia|]. split.
  - cbv -[apart not Z.divide]. repeat split; auto.
    + exists 512. reflexivity.
    + intros x [H1 H2]. unfold within in *. lia.
  - intros H. inversion H as [|? ? X _]; subst. apply Exists_exists in X as (r & [<-|[]] & X).
    specialize (X (4096 + 1038 + 39)). unfold within in X. cbn in X. lia.
Qed.
Print Assumptions C33_monotonic_header_overrun_refuted.

(** With a chunk size of 1017 a later block overlaps the header. *)
Theorem C33_monotonic_header_overlap_refuted :
  exists cs s ls,
  0 <= cs /\ started s 0 0 cs /\ Forall (label_sane cs) ls /\
  everywhere (event_ok 0 0) w0 (snd (run s ls)) /\
  ~ headers_safe (after w0 (snd (run s ls))).
Proof.
  exists 1017, (make_chunk 1017), [LAlloc 8 8 4096; LAlloc 1015 8 0].
  split; [lia|]. split; [right; auto|].
  split; [repeat constructor; cbn; lia|]. split.
  - cbv -[apart not Z.divide]. repeat split; auto.
    + exists 512. reflexivity.
    + intros x [H1 H2]. unfold within in *. lia.
  - intros H. inversion H as [|? ? X _]; subst. inversion X as [|? ? Y _]; subst.
    apply (Y (4096 + 1020)). unfold within. cbn. lia.
Qed.
Print Assumptions C33_monotonic_header_overlap_refuted.

(** A run that meets the hypotheses of all three theorems. *)
Definition sample : list label :=
  [LAlloc 64 8 0; LAlloc 104 8 8192; LAlloc 16 4 0; LRelease; LAlloc 32 8 0; LAlloc 800 2 16384; LDestroy].

Example C33_nonvacuous :
  started (make 4096 128) 4096 128 128 /\ Forall (label_sane 128) sample /\
  Forall (label_fits 128) sample /\ Forall (label_uniform 8) sample /\
  everywhere (event_ok 4096 128) w0 (snd (run (make 4096 128) sample)) /\
  In (EFree [mkr 8192 168 8]) (snd (run (make 4096 128) sample)) /\
  In (EFree [mkr 16384 840 8]) (snd (run (make 4096 128) sample)).
Proof.
  split; [left; auto|]. split; [repeat constructor; cbn; lia|].
  split; [repeat constructor; cbn; auto|].
  split; [repeat constructor; try (cbn; lia); cbn;
          match goal with |- (?a | ?b) => exists (b / a); reflexivity end|].
  split; [|split; vm_compute; tauto].
  cbv -[apart not Z.divide]. repeat split; auto;
    try (intros x [H1 H2]; unfold within in *; lia).
  - exists 1024; reflexivity.
  - exists 2048; reflexivity.
Qed.
