(** Property lemmas in their final shape, and the counterexamples. *)
From Coq Require Import List Bool Arith Lia Permutation.
From Verif Require Import Perm Channel_Model Channel_Spec Channel_Inv Channel_Ledger
  Channel_Complete Channel_Abs Channel_Disc Channel_Close.
Import ListNotations.

Section Final.
Context {V : Type}.
Notation state := (state V).
Notation label := (label V).
Notation event := (event V).

Lemma no_duplicates lim (ls : list label) s evs : run (init false lim) ls = (s, evs) -> bad s = None -> NoDup (created ls) ->
  NoDup (delivered evs ++ buf s ++ held s) /\ incl (delivered evs ++ buf s ++ held s) (created ls).
Proof.
  intros R B N. destruct (conservation lim ls s evs R B) as [P _]. split.
  - eapply Permutation_NoDup; [apply Permutation_sym; exact P|]. eapply nodup_taken; eauto.
  - intros v H. apply (taken_created _ _ _ _ _ R B). eapply Permutation_in; eauto.
Qed.

Lemma spsc_prefix lim (ls : list label) s evs : run (init false lim) ls = (s, evs) -> obeys spsc (init false lim) ls = true ->
  exists rest, written evs ++ handed s = delivered evs ++ rest.
Proof. intros R O. destruct (spsc_order lim ls s evs R O) as (_ & _ & E). eauto. Qed.

Lemma rendezvous_pairs (ls : list label) s evs : run (init false 0) ls = (s, evs) -> obeys (both fresh prompt) (init false 0) ls = true ->
  Permutation (delivered evs ++ held s) (written evs ++ handed s) /\ (idle s -> Permutation (delivered evs) (written evs)).
Proof.
  intros R O. destruct (rendezvous_safe false ls O) as [B E]. rewrite R in B, E. cbn [fst] in B, E.
  destruct (conservation 0 ls s evs R B) as [P _]. rewrite E in P. simpl in P. split; auto.
  intros Id. unfold idle in Id. unfold held, handed in P. rewrite Id in P. simpl in P. now rewrite !app_nil_r in P.
Qed.

Lemma reach_inv void lim (ls : list label) s evs : run (init void lim) ls = (s, evs) -> bad s = None -> Inv s.
Proof. intros R B. eapply Rinv; eauto. Qed.

Lemma pre_bad (s : state) l : bad (fst (step s l)) = None -> bad s = None.
Proof. intros H. destruct (bad s) eqn:B; auto. rewrite step_bad in H by congruence. simpl in H. congruence. Qed.

Lemma cancelled_read_takes_nothing void lim (ls : list label) l s s' i evs e r :
  run (init void lim) ls = (s, evs) -> step s l = (s', e) -> bad s' = None ->
  e = [ERead i r] -> r = RAborted \/ r = RBroken ->
  buf s' = buf s /\ handed s' = handed s /\ (void = false -> held s' = held s).
Proof.
  intros R S B E F. assert (B0 : bad s = None) by (apply (pre_bad s l); rewrite S; auto).
  pose proof (reach_inv _ _ _ _ _ R B0) as I.
  destruct (run_const ls (init void lim)) as (Vd & _). rewrite R in Vd. cbn [fst] in Vd. simpl in Vd.
  assert (X := failed_read_frame s l i r I). rewrite S in X. cbn [fst snd] in X. rewrite Vd in X. apply X; auto.
  destruct F; subst; exact Logic.I.
Qed.

Lemma cancelled_write_adds_nothing void lim (ls : list label) l s s' i v evs e r :
  run (init void lim) ls = (s, evs) -> step s l = (s', e) -> bad s' = None ->
  e = [EWrite i v r] -> r = WAborted \/ r = WBroken ->
  buf s' = buf s /\ handed s' = handed s /\ held s' = held s.
Proof.
  intros R S B E F. assert (B0 : bad s = None) by (apply (pre_bad s l); rewrite S; auto).
  pose proof (reach_inv _ _ _ _ _ R B0) as I.
  assert (X := failed_write_frame s l i v r I). rewrite S in X. cbn [fst snd] in X. apply X; auto.
  destruct F; subst; exact Logic.I.
Qed.

Lemma failed_write_never_delivered lim (ls : list label) s evs j v r :
  run (init false lim) ls = (s, evs) -> bad s = None -> NoDup (created ls) ->
  In (EWrite j v r) evs -> r <> WOk -> ~ In v (delivered evs ++ buf s ++ held s).
Proof.
  intros R B N H F X. destruct (conservation lim ls s evs R B) as [P _].
  apply (failed_write_not_taken _ _ _ _ _ R j v r B N H F). eapply Permutation_in; eauto.
Qed.

Lemma close_wakes_everybody void lim (ls : list label) s evs :
  run (init void lim) ls = (s, evs) -> bad s = None -> closed s = true ->
  rq s = [] /\ wq s = [] /\
  (forall i, r_stage (rops s i) = Awaited -> In (JR i) (posted s)) /\
  (forall j, w_stage (wops s j) = Awaited -> In (JW j) (posted s)).
Proof. intros R B C. apply closed_all_scheduled; auto. eapply reach_inv; eauto. Qed.

Lemma waiting_operations_fail void lim (ls ls' : list label) s evs :
  run (init void lim) ls = (s, evs) -> bad s = None ->
  let '(s', evs') := run s (Close :: ls') in bad s' = None ->
  (forall i r, In i (rq s) -> In (ERead i r) evs' -> r = RBroken \/ r = RAborted) /\
  (forall j v r, In j (wq s) -> In (EWrite j v r) evs' -> r = WBroken).
Proof.
  intros R B. pose proof (reach_inv _ _ _ _ _ R B) as I. destruct (run s (Close :: ls')) as [s' evs'] eqn:E. intros B'. split.
  - intros i r Q H. eapply (waiting_read_fails_on_close s i ls'); eauto; rewrite E; auto.
  - intros j v r Q H. eapply (waiting_write_fails_on_close s j ls'); eauto; rewrite E; eauto.
Qed.

Lemma drain_theorem lim (ls : list label) s evs k n :
  run (init false lim) ls = (s, evs) -> bad s = None -> closed s = true ->
  (forall i, k <= i < k + n -> r_stage (rops s i) = Absent) ->
  let '(s', evs') := run s (flat_map (fun i => [MkRead i; AwRead i false]) (seq k n)) in
  bad s' = None /\
  evs' = map (fun p => ERead (fst p) (snd p)) (combine (seq k n) (map (@RVal V) (buf s) ++ repeat RBroken n)) /\
  buf s' = skipn n (buf s).
Proof.
  intros R B C A. pose proof (reach_inv _ _ _ _ _ R B) as I.
  destruct (run_const ls (init false lim)) as (Vd & _). rewrite R in Vd. cbn [fst] in Vd. simpl in Vd.
  destruct (drain_reads (seq k n) s I B C Vd (seq_NoDup _ _)) as (H1 & H2 & H3).
  { intros i H. apply in_seq in H. auto. }
  unfold read_labels in *. destruct (run s _) as [s' e']. cbn [fst snd] in *. rewrite seq_length in H3.
  rewrite <- drain_results_spec. auto.
Qed.

Lemma write_after_close_theorem void lim (ls : list label) s evs j v slot :
  run (init void lim) ls = (s, evs) -> bad s = None -> closed s = true -> w_stage (wops s j) = Absent ->
  let '(s', evs') := run s [MkWrite j v; AwWrite j slot] in
  evs' = [EWrite j v WBroken] /\ buf s' = buf s /\ bad s' = None.
Proof.
  intros R B C A. pose proof (write_after_close s j v slot (reach_inv _ _ _ _ _ R B) B C A) as H.
  destruct (run s _). exact H.
Qed.

Lemma no_mutual_wait void lim (ls : list label) s evs : run (init void lim) ls = (s, evs) -> bad s = None -> rq s = [] \/ wq s = [].
Proof. intros R B. exact (inv_excl _ (reach_inv _ _ _ _ _ R B)). Qed.

Lemma completes_at_most_once void lim (ls : list label) s evs : run (init void lim) ls = (s, evs) ->
  NoDup (completed_reads evs) /\ NoDup (completed_writes evs) /\ bad s <> Some DoubleResume /\ bad s <> Some QueueAssert.
Proof.
  intros R. pose proof (Rhist _ _ _ _ _ R) as H. split; [apply (h_rnd _ _ _ H)|]. split; [apply (h_wnd _ _ _ H)|].
  pose proof (run_never ls (init void lim) (init_inv _ _) eq_refl) as N. rewrite R in N. cbn [fst] in N. unfold never in N. tauto.
Qed.

Lemma in_rjobs p i : In i (rjobs p) -> In (JR i) p.
Proof. unfold rjobs. intros H. apply in_flat_map in H. destruct H as ([k|k] & H & K); simpl in K; intuition congruence. Qed.
Lemma in_wjobs p i : In i (wjobs p) -> In (JW i) p.
Proof. unfold wjobs. intros H. apply in_flat_map in H. destruct H as ([k|k] & H & K); simpl in K; intuition congruence. Qed.

Lemma never_forgotten void lim (ls : list label) s evs : run (init void lim) ls = (s, evs) -> bad s = None ->
  (forall i, r_stage (rops s i) = Awaited -> In i (rq s) \/ In (JR i) (posted s)) /\
  (forall j, w_stage (wops s j) = Awaited -> In j (wq s) \/ In (JW j) (posted s)) /\
  exists n, let s' := fst (run s (repeat (Run 0) n)) in bad s' <> None \/
    (posted s' = [] /\ (forall i, r_stage (rops s' i) = Awaited -> In i (rq s')) /\
                       (forall j, w_stage (wops s' j) = Awaited -> In j (wq s'))).
Proof.
  intros R B. pose proof (reach_inv _ _ _ _ _ R B) as I. split; [|split].
  - intros i A. destruct (awaited_somewhere_r s i I A) as [[]|]; auto using in_rjobs.
  - intros i A. destruct (awaited_somewhere_w s i I A) as [[]|]; auto using in_wjobs.
  - now apply executor_progress.
Qed.

Lemma all_complete_after_close void lim (ls : list label) s evs :
  run (init void lim) ls = (s, evs) -> bad s = None -> closed s = true ->
  exists n, let s' := fst (run s (repeat (Run 0) n)) in bad s' <> None \/
    ((forall i, r_stage (rops s' i) <> Awaited) /\ (forall j, w_stage (wops s' j) <> Awaited)).
Proof.
  intros R B C. pose proof (reach_inv _ _ _ _ _ R B) as I.
  destruct (drain_executor _ s I B (le_n _)) as (k & _ & H). exists k. cbv zeta in *.
  destruct H as [H|[H I']]; auto. right.
  destruct (run_const (repeat (Run 0) k) s) as (_ & _ & _ & C'). specialize (C' C).
  destruct (closed_all_scheduled _ I' C') as (_ & _ & P & Q). rewrite H in P, Q. split; intros i A; [apply P in A|apply Q in A]; destruct A.
Qed.

End Final.

(** ** channel<void> *)
Lemma void_counts lim (ls : list (label unit)) s evs :
  run (init true lim) ls = (s, evs) -> bad s = None -> existsb is_close ls = false ->
  length (delivered evs) + length (buf s) + length (held s) = length (written evs) + length (handed s) /\ length (buf s) <= lim.
Proof.
  intros R B C. destruct (void_conservation lim ls s evs C R B) as [P L]. split; auto.
  apply Permutation_length in P. rewrite !app_length in P. lia.
Qed.

Lemma void_after_close lim (ls : list (label unit)) s evs i slot :
  run (init true lim) ls = (s, evs) -> bad s = None -> closed s = true -> r_stage (rops s i) = Absent ->
  let '(s', evs') := run s [MkRead i; AwRead i slot] in
  evs' = [ERead i RBroken] /\ bad s' = None /\ buf s' = buf s.
Proof.
  intros R B C A. destruct (run_const ls (init true lim)) as (Vd & _). rewrite R in Vd. cbn [fst] in Vd. simpl in Vd.
  cbn [run]. unfold step. rewrite B. simpl step_ok. rewrite A. simpl bad. rewrite B. simpl step_ok.
  unfold set_r. cbn [rops]. rewrite upd_same. simpl r_stage. cbv iota.
  unfold read_await, read_ready. cbn [closed buf rops]. rewrite C, orb_true_r. simpl orb. cbv iota. unfold read_resume, set_r. cbn [rops]. rewrite upd_same.
  unfold read_broken. cbn [closed is_void buf]. rewrite Vd. simpl. auto.
Qed.

(** ** Counterexamples *)
Definition w i v : list (label nat) := [MkWrite i v; AwWrite i true].
Definition r i : list (label nat) := [MkRead i; AwRead i true].

(** Give the final state and the events as terms still to be computed. *)
Ltac outcome rn := exists (fst rn), (snd rn); split; [apply surjective_pairing|].

(** A reader waits; a write wakes it; a second reader takes the value first. *)
Lemma stolen_value_refuted : exists (lim : nat) (ls : list (label nat)),
  obeys (both one_writer (both fresh prompt)) (init false lim) ls = true /\ bad (fst (run (init false lim) ls)) = Some EmptyRead.
Proof. exists 1, (r 0 ++ w 0 10 ++ r 1 ++ [Run 0]). split; vm_compute; reflexivity. Qed.

(** A writer waits; a read wakes it; a second writer takes the room first. *)
Lemma stolen_room_refuted : exists (lim : nat) (ls : list (label nat)),
  obeys (both one_reader (both fresh prompt)) (init false lim) ls = true /\ bad (fst (run (init false lim) ls)) = Some Overflow.
Proof. exists 1, (w 0 10 ++ w 1 11 ++ r 0 ++ w 2 12 ++ [Run 0]). split; vm_compute; reflexivity. Qed.

Lemma zombie_refuted : exists (lim : nat) (ls : list (label nat)),
  obeys (both (both one_reader one_writer) fresh) (init false lim) ls = true /\ bad (fst (run (init false lim) ls)) = Some NullHandle.
Proof. exists 1, (r 0 ++ [InterruptR 0] ++ w 0 10). split; vm_compute; reflexivity. Qed.

(** Two readers wait; the write wakes the first; it is cancelled before it runs. *)
Lemma lost_wakeup_refuted : exists (lim : nat) (ls : list (label nat)) s evs,
  run (init false lim) ls = (s, evs) /\ bad s = None /\ obeys (both fresh prompt) (init false lim) ls = true /\
  idle s /\ rq s <> [] /\ buf s <> [].
Proof.
  exists 1, (r 0 ++ r 1 ++ w 0 10 ++ [CancelR 0; Run 0]).
  outcome (run (init false 1) (r 0 ++ r 1 ++ w 0 10 ++ [CancelR 0; Run 0])).
  repeat split; vm_compute; try reflexivity; discriminate.
Qed.
Lemma lost_wakeup_w_refuted : exists (lim : nat) (ls : list (label nat)) s evs,
  run (init false lim) ls = (s, evs) /\ bad s = None /\ obeys (both fresh prompt) (init false lim) ls = true /\
  idle s /\ wq s <> [] /\ length (buf s) < lim.
Proof.
  exists 1, (w 0 10 ++ w 1 11 ++ w 2 12 ++ r 0 ++ [CancelW 1; Run 0]).
  outcome (run (init false 1) (w 0 10 ++ w 1 11 ++ w 2 12 ++ r 0 ++ [CancelW 1; Run 0])).
  split; [|split; [|split; [|split]]]; vm_compute; try reflexivity; try discriminate; auto.
Qed.

(** The writer is woken by a read, the channel is closed, a read is told
    broken_pipe, then the writer runs. *)
Lemma late_write_refuted : exists (lim : nat) (ls : list (label nat)) s evs i j,
  run (init false lim) ls = (s, evs) /\ bad s = None /\ obeys spsc (init false lim) ls = true /\
  exists a b, evs = a ++ ERead i RBroken :: b /\ In (EWrite j 11 WOk) b.
Proof.
  pose (x := run (init false 1) (w 0 10 ++ w 1 11 ++ r 0 ++ [Close] ++ r 1 ++ [Run 0])).
  exists 1, (w 0 10 ++ w 1 11 ++ r 0 ++ [Close] ++ r 1 ++ [Run 0]), (fst x), (snd x), 1, 1. split; [apply surjective_pairing|].
  split; [vm_compute; reflexivity|]. split; [vm_compute; reflexivity|].
  exists [EWrite 0 10 WOk; ERead 0 (RVal 10)], [EWrite 1 11 WOk]. split; [vm_compute; reflexivity|simpl; auto].
Qed.

Lemma void_drain_refuted : exists (lim : nat) (ls : list (label unit)) s evs,
  run (init true lim) ls = (s, evs) /\ bad s = None /\ obeys spsc (init true lim) ls = true /\
  length (written evs) = 1 /\ length (buf s) = 1 /\ delivered evs = [] /\ In (ERead 0 RBroken) evs /\
  delivered (snd (run (init false lim) ls)) = [tt].
Proof.
  exists 1, [MkWrite 0 tt; AwWrite 0 true; Close; MkRead 0; AwRead 0 true].
  outcome (run (init true 1) [MkWrite 0 tt; AwWrite 0 true; Close; MkRead 0; AwRead 0 true]).
  repeat split; vm_compute; auto.
Qed.

(** Several writers: a value whose write completed before another write was
    even created can be read after it. *)
Lemma mpmc_order_refuted : exists (lim : nat) (ls1 ls2 : list (label nat)) s1 evs1 s2 evs2 a b va vb,
  run (init false lim) ls1 = (s1, evs1) /\ In (EWrite a va WOk) evs1 /\ w_stage (wops s1 b) = Absent /\
  run s1 ls2 = (s2, evs2) /\ In (EWrite b vb WOk) evs2 /\ bad s2 = None /\ NoDup (created (ls1 ++ ls2)) /\
  obeys (both one_reader (both fresh prompt)) (init false lim) (ls1 ++ ls2) = true /\
  exists x y z, delivered (evs1 ++ evs2) = x ++ vb :: y ++ va :: z.
Proof.
  pose (l1 := w 0 1 ++ w 1 2 ++ w 2 3 ++ r 0 ++ r 1). pose (l2 := w 3 4 ++ [CancelW 1; Run 0; Run 0] ++ r 2).
  pose (x := run (init false 1) l1). pose (y := run (fst x) l2).
  exists 1, l1, l2, (fst x), (snd x), (fst y), (snd y), 2, 3, 3, 4.
  split; [apply surjective_pairing|]. split; [vm_compute; auto|]. split; [vm_compute; reflexivity|]. split; [apply surjective_pairing|].
  split; [vm_compute; auto|]. split; [vm_compute; reflexivity|]. split; [vm_compute; repeat constructor; simpl; intuition discriminate|].
  split; [vm_compute; reflexivity|].
  exists [1], [], []. vm_compute. reflexivity.
Qed.
