(** * Property theorems about the small-buffer resource (C31, C32) *)
From Coq Require Import ZArith List Bool Lia.
From Verif Require Import Sbo_Model Sbo_Spec Sbo_Proofs.
Import ListNotations.
Open Scope Z_scope.

(** C31: whatever the user allocates and frees, and whatever upstream answers,
    the blocks alive at any time share no byte, and every non-empty one lies in
    the buffer or came from upstream.  [A] is alignof(std::max_align_t), [buf]
    and [n] the buffer.
    Partial: a request must leave room for rounding up (size + A < 2^64). *)
Theorem C31_small_buffer_disjoint_partial :
  forall A buf n ls,
  0 < A < 2 ^ 64 -> 0 <= n < 2 ^ 64 ->
  labels_ok A buf n (make A buf n) [] ls -> sizes_ok A ls ->
  let tr := snd (run A (make A buf n) ls) in
  all_disjoint (live tr) /\ all_owned buf n (live tr).
Proof. exact live_disjoint_owned. Qed.
Print Assumptions C31_small_buffer_disjoint_partial.

(** The missing part is false: a request close to SIZE_MAX is rounded up to 0
    and "served" from the buffer. *)
Theorem C31_small_buffer_huge_request_refuted :
  exists A buf n ls,
  0 < A < 2 ^ 64 /\ 0 <= n < 2 ^ 64 /\
  labels_ok A buf n (make A buf n) [] ls /\
  ~ all_owned buf n (live (snd (run A (make A buf n) ls))).
Proof.
  exists 16, 4096, 64, [LAlloc (2 ^ 64 - 1) 16 8192]. cbv -[disjoint all_owned inside Z.divide everywhere freed_right not]. repeat split; try discriminate.
  - intros x [H1 H2]. unfold contains in *. cbn in *. lia.
  - constructor.
  - intros F. inversion F as [|? ? H _]; subst. destruct H as [H|H]; [reflexivity|discriminate|].
    destruct H as [_ H]. cbn in H. lia.
Qed.
Print Assumptions C31_small_buffer_huge_request_refuted.

(** C31, reuse: once everything has been freed, a request that fits is served
    from the buffer again. *)
Theorem C31_small_buffer_reused :
  forall A buf n ls sz al u,
  0 < A < 2 ^ 64 -> 0 <= n < 2 ^ 64 ->
  labels_ok A buf n (make A buf n) [] ls -> sizes_ok A ls ->
  live (snd (run A (make A buf n) ls)) = [] ->
  0 <= sz -> sz + 2 * A <= n ->
  exists s' p, step A (fst (run A (make A buf n) ls)) (LAlloc sz al u) = (s', EAlloc (mkb p sz al) []) /\
            inside buf n (mkb p sz al).
Proof. exact buffer_reused. Qed.
Print Assumptions C31_small_buffer_reused.

(** C32: every non-empty block goes back to where it came from, and a block
    served from the buffer has the requested alignment.
    Partial: empty blocks and alignments that do not divide
    alignof(max_align_t) are excluded. *)
Theorem C32_small_buffer_frees_to_origin_partial :
  forall A buf n ls,
  0 < A < 2 ^ 64 -> 0 <= n < 2 ^ 64 ->
  labels_ok A buf n (make A buf n) [] ls -> sizes_ok A ls ->
  everywhere (fun lv e =>
     ((forall b ups, e = EFree b ups -> 0 < bsize b) -> freed_right lv e) /\
     (forall b, e = EAlloc b [] -> (balign b | A) -> (balign b | baddr b)))
   [] (snd (run A (make A buf n) ls)).
Proof. exact returned_to_origin. Qed.
Print Assumptions C32_small_buffer_frees_to_origin_partial.

(** An empty block taken from the (full) buffer is "freed" upstream. *)
Theorem C32_small_buffer_empty_block_refuted :
  exists A buf n ls,
  0 < A < 2 ^ 64 /\ 0 <= n < 2 ^ 64 /\
  labels_ok A buf n (make A buf n) [] ls /\ sizes_ok A ls /\
  ~ everywhere freed_right [] (snd (run A (make A buf n) ls)).
Proof.
  exists 16, 4096, 64, [LAlloc 64 16 8192; LAlloc 0 1 8192; LFree (mkb 4160 0 1)].
  split; [lia|]. split; [lia|]. split; [|split].
  - cbv -[disjoint not]. repeat split; try discriminate; auto.
    + intros x [H1 H2]. unfold contains in *. cbn in *. lia.
    + intros x [H1 H2]. unfold contains in *. cbn in *. lia.
    + repeat constructor; discriminate.
    + exists false. auto.
  - repeat constructor.
  - vm_compute. intros (_ & _ & (_ & H) & _). discriminate (H (or_introl eq_refl)).
Qed.
Print Assumptions C32_small_buffer_empty_block_refuted.

(** A request for more than alignof(max_align_t) is served from the buffer
    without that alignment. *)
Theorem C32_small_buffer_over_aligned_refuted :
  exists A buf n ls b,
  0 < A < 2 ^ 64 /\ 0 <= n < 2 ^ 64 /\
  labels_ok A buf n (make A buf n) [] ls /\ sizes_ok A ls /\
  In b (allocs_in (snd (run A (make A buf n) ls))) /\ 0 < bsize b /\ ~ (balign b | baddr b).
Proof.
  exists 16, 4112, 64, [LAlloc 32 32 8192], (mkb 4112 32 32).
  split; [lia|]. split; [lia|]. split; [|split; [|split; [|split]]].
  - cbv -[disjoint not]. repeat split; try discriminate; auto.
    intros x [H1 H2]. unfold contains in *. cbn in *. lia.
  - repeat constructor.
  - vm_compute. auto.
  - reflexivity.
  - cbn. intros [z H]. lia.
Qed.
Print Assumptions C32_small_buffer_over_aligned_refuted.

(** C32: a resource without a buffer passes every non-empty block on to upstream, in both directions. *)
Theorem C32_no_buffer : forall A ls, 0 < A < 2 ^ 64 ->
  (forall l, In l ls -> match l with LAlloc sz _ _ => 0 < sz /\ sz + A < 2 ^ 64 | LFree _ => True end) ->
  everywhere (fun _ e =>
    match e with
    | EAlloc b ups => ups = [UpAlloc (bsize b) (balign b) (baddr b)]
    | EFree b ups => ups = [UpFree (baddr b) (bsize b) (balign b)]
    end) [] (snd (run A make_null ls)).
Proof.
  intros A ls HA. generalize (@nil (block * origin)). induction ls as [|l ls IH]; intros lv H; [exact I|].
  assert (G : fst (step A make_null l) = make_null /\
    match snd (step A make_null l) with
    | EAlloc b ups => ups = [UpAlloc (bsize b) (balign b) (baddr b)]
    | EFree b ups => ups = [UpFree (baddr b) (bsize b) (balign b)]
    end).
  { pose proof (H l (or_introl eq_refl)) as Hl. destruct l as [sz al u|b]; cbn [step].
    - unfold do_allocate. cbn [avail make_null fragmented].
      pose proof (align_up_spec A ltac:(lia) sz) as [K _]; [split; lia|].
      replace (align_up A sz <=? 0) with false by (symmetry; apply Z.leb_gt; lia). cbn. auto.
    - unfold do_deallocate. cbn [bp size make_null]. replace ((0 <=? baddr b) && (baddr b <? 0 + 0)) with false; [cbn; auto|].
      symmetry. apply andb_false_iff. destruct (Z.leb_spec 0 (baddr b)); [right; apply Z.ltb_ge; lia|auto]. }
  cbn [run]. destruct (step A make_null l) as [s' e]. cbn [fst snd] in G. destruct G as [-> G].
  destruct (run A make_null ls) as [s2 tr] eqn:R. cbn [snd everywhere]. split; [exact G|]. apply IH.
  intros l' Hl'. apply H. cbn. auto.
Qed.
Print Assumptions C32_no_buffer.
Example C32_no_buffer_nonvacuous :
  snd (run 16 make_null [LAlloc 20 8 9000; LFree (mkb 9000 20 8)]) =
  [EAlloc (mkb 9000 20 8) [UpAlloc 20 8 9000]; EFree (mkb 9000 20 8) [UpFree 9000 20 8]].
Proof. reflexivity. Qed.

(** A run that meets the hypotheses: an unaligned buffer, blocks from both
    sources, out-of-order frees, reuse. *)
Definition sample : list label :=
  [LAlloc 20 8 9000; LAlloc 10 4 9000; LAlloc 100 16 9000; LFree (mkb 4112 20 8);
   LAlloc 8 8 9200; LFree (mkb 4144 10 4); LAlloc 5 1 9300; LFree (mkb 9000 100 16)].

Example C31_nonvacuous :
  labels_ok 16 4100 80 (make 16 4100 80) [] sample /\ sizes_ok 16 sample /\
  live (snd (run 16 (make 16 4100 80) sample)) =
    [(mkb 4112 5 1, false); (mkb 9200 8 8, true)].
Proof.
  split; [|split; [repeat constructor|reflexivity]].
  cbv -[disjoint not]. repeat split; try discriminate; auto;
    repeat (constructor; try discriminate);
    try (intros; intros x [H1 H2]; unfold contains in *; cbn in *; lia);
    eexists; simpl; tauto.
Qed.

Example C31_reuse_nonvacuous :
  labels_ok 16 4100 80 (make 16 4100 80) [] [LAlloc 20 8 9000; LFree (mkb 4112 20 8)] /\
  live (snd (run 16 (make 16 4100 80) [LAlloc 20 8 9000; LFree (mkb 4112 20 8)])) = [].
Proof.
  split; [|reflexivity]. cbv -[disjoint not]. repeat split; try discriminate; auto;
    try (intros x [H1 H2]; unfold contains in *; cbn in *; lia).
  eexists; simpl; tauto.
Qed.

Example C32_nonvacuous :
  In (EFree (mkb 9000 100 16) [UpFree 9000 100 16]) (snd (run 16 (make 16 4100 80) sample)) /\
  In (EFree (mkb 4144 10 4) []) (snd (run 16 (make 16 4100 80) sample)).
Proof. vm_compute. tauto. Qed.
