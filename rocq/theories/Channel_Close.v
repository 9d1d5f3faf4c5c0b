(** Closing, draining, cancelled completions and executor progress. *)
From Coq Require Import List Bool Arith Lia Permutation.
From Verif Require Import Channel_Model Channel_Spec Channel_Inv Channel_Ledger Channel_Complete Channel_Abs Channel_Disc.
Import ListNotations.

Section Close.
Context {V : Type}.
Notation state := (state V).
Notation label := (label V).
Notation event := (event V).
Notation ast := (@ast V).

Ltac sm := unfold post, set_closed, set_buf, set_rq, set_wq, set_r, set_w, set_posted, set_bad in *; cbn [is_void limit closed buf rq wq rops wops posted bad] in *.

(** *** Every awaited operation is linked or scheduled. *)
Lemma awaited_somewhere_r s i : Inv (V:=V) s -> r_stage (rops s i) = Awaited ->
  (In i (rq s) /\ r_handle (rops s i) = true) \/ In i (rjobs (posted s)).
Proof.
  intros I A. destruct (inv_r _ I) as (_ & _ & H). specialize (H i). unfold loc in H. simpl in H. tauto.
Qed.
Lemma awaited_somewhere_w s i : Inv (V:=V) s -> w_stage (wops s i) = Awaited ->
  (In i (wq s) /\ w_handle (wops s i) = true) \/ In i (wjobs (posted s)).
Proof.
  intros I A. destruct (inv_w _ I) as (_ & _ & H). specialize (H i). unfold loc in H. simpl in H. tauto.
Qed.

Lemma closed_all_scheduled s : Inv (V:=V) s -> closed s = true ->
  rq s = [] /\ wq s = [] /\
  (forall i, r_stage (rops s i) = Awaited -> In (JR i) (posted s)) /\
  (forall j, w_stage (wops s j) = Awaited -> In (JW j) (posted s)).
Proof.
  intros I C. destruct (inv_closed _ I C) as [Er Ew]. repeat split; auto.
  - intros i A. destruct (awaited_somewhere_r s i I A) as [[H _]|H]; [rewrite Er in H; destruct H|].
    unfold rjobs in H. apply in_flat_map in H. destruct H as ([k|k] & H & K); simpl in K; intuition congruence.
  - intros i A. destruct (awaited_somewhere_w s i I A) as [[H _]|H]; [rewrite Ew in H; destruct H|].
    unfold wjobs in H. apply in_flat_map in H. destruct H as ([k|k] & H & K); simpl in K; intuition congruence.
Qed.

(** *** Failed completions change nothing a user can observe later. *)
Lemma eff_fail_r void lim t (a a' : ast) i r : eff void lim t a [ERead i r] a' -> rfail r ->
  bf a' = bf a /\ ahand a' = ahand a /\ (void && cl a = false -> aheld a' = aheld a).
Proof.
  intros E F. unfold ahand, aheld.
  remember [ERead i r] as ev eqn:Eev. destruct E; inversion Eev; subst; cbn [bf jr jw]; simpl in F; try tauto; auto.
  split; auto. split; auto. intros Vc. destruct H1 as [->|H1]; [|congruence]. rewrite H.
  rewrite !flat_map_app. reflexivity.
Qed.
Lemma eff_fail_w void lim t (a a' : ast) i v r : eff void lim t a [EWrite i v r] a' -> wfail r ->
  bf a' = bf a /\ ahand a' = ahand a /\ aheld a' = aheld a.
Proof.
  intros E F. unfold ahand, aheld.
  remember [EWrite i v r] as ev eqn:Eev. destruct E; inversion Eev; subst; cbn [bf jr jw]; simpl in F; try tauto; auto.
  split; auto. split; auto. rewrite H. rewrite !flat_map_app. reflexivity.
Qed.

Lemma failed_read_frame s l i r : Inv s -> bad (fst (step s l)) = None -> snd (step s l) = [ERead (V:=V) i r] -> rfail r ->
  buf (fst (step s l)) = buf s /\ handed (fst (step s l)) = handed s /\
  (is_void s = false -> held (fst (step s l)) = held s).
Proof.
  intros I B E F. pose proof (step_eff s l I B) as Ef. rewrite E in Ef.
  destruct (eff_fail_r _ _ _ _ _ _ _ Ef F) as (A1 & A2 & A3). rewrite !handed_abs, !held_abs. split; [exact A1|].
  split; auto. intros Z. apply A3. now rewrite Z.
Qed.
Lemma failed_write_frame s l i v r : Inv s -> bad (fst (step s l)) = None -> snd (step s l) = [EWrite (V:=V) i v r] -> wfail r ->
  buf (fst (step s l)) = buf s /\ handed (fst (step s l)) = handed s /\ held (fst (step s l)) = held s.
Proof.
  intros I B E F. pose proof (step_eff s l I B) as Ef. rewrite E in Ef.
  destruct (eff_fail_w _ _ _ _ _ _ _ _ Ef F) as (A1 & A2 & A3). rewrite !handed_abs, !held_abs. auto.
Qed.

(** *** The executor drains. *)
Definition measure (a : ast) := 2 * (length (ar a) + length (aw a)) + length (jr a) + length (jw a).

Lemma measure_run void lim (a a' : ast) ev : eff void lim TRun a ev a' -> ev <> [] -> S (measure a') <= measure a.
Proof.
  intros E N. remember TRun as t eqn:Et. unfold measure. destruct E; try discriminate; try congruence;
   unfold wkw, wkr; cbn [cl bf ar aw jr jw];
   match goal with H : jr a = _ |- _ => rewrite H | H : jw a = _ |- _ => rewrite H end; rewrite ?app_length; simpl length; try lia.
  - destruct (aw a); [|destruct (_ || _)]; cbn [cl bf ar aw jr jw]; rewrite ?app_length; simpl length; lia.
  - destruct (ar a); [|destruct (_ || _)]; cbn [cl bf ar aw jr jw]; rewrite ?app_length; simpl length; lia.
  - destruct (ar a); [|destruct (_ || _)]; cbn [cl bf ar aw jr jw]; rewrite ?app_length; simpl length; lia.
Qed.

Lemma run_job_event s : Inv s -> bad s = None -> bad (fst (step s (Run 0))) = None -> posted s <> [] -> snd (step (V:=V) s (Run 0)) <> [].
Proof.
  intros I B. unfold step. rewrite B. simpl step_ok. unfold run_job. destruct (posted s) as [|[i|j] p] eqn:E; [congruence| |]; simpl nth_error; cbv iota.
  - assert (E0 : nth_error (posted s) 0 = Some (JR i)) by (rewrite E; auto).
    destruct (run_r_finish_inv s 0 i I E0) as [F A]. rewrite A. simpl is_awaited. cbv iota.
    rewrite E in F. intros B' _. destruct (read_resume_abs _ i F B') as [(r & X & _)|(u & b & _ & X & _)]; rewrite X; discriminate.
  - assert (E0 : nth_error (posted s) 0 = Some (JW j)) by (rewrite E; auto).
    destruct (run_w_finish_inv s 0 j I E0) as [F A]. rewrite A. simpl is_awaited. cbv iota.
    rewrite E in F. intros B' _. destruct (wval_some s j I) as [v Ev]; [congruence|].
    destruct (write_resume_abs _ j v F B' Ev) as [(r & X & _)|[(_ & X & _)|(_ & _ & X & _)]]; rewrite X; discriminate.
Qed.

Lemma drain_executor n : forall s, Inv s -> bad s = None -> measure (abs s) <= n ->
  exists k, k <= n /\ let s' := fst (run s (repeat (Run (V:=V) 0) k)) in bad s' <> None \/ (posted s' = [] /\ Inv s').
Proof.
  induction n as [|n IH]; intros s I B M; destruct (posted s) as [|j p] eqn:E.
  - exists 0. simpl. auto.
  - exfalso. unfold measure, abs, jr_abs, jw_abs in M. cbn [jr jw ar aw] in M. rewrite !map_length, E in M. destruct j; simpl in M; lia.
  - exists 0. simpl. split; [lia|auto].
  - destruct (bad (fst (step s (Run 0)))) eqn:B'.
    + exists 1. split; [lia|]. cbv zeta. simpl repeat. rewrite run_cons. cbn [fst run]. left. congruence.
    + assert (Ne : posted s <> []) by congruence.
      pose proof (run_job_event s I B B' Ne) as Ev. pose proof (step_eff s (Run 0) I B') as Ef.
      pose proof (measure_run _ _ _ _ _ Ef Ev) as M'.
      destruct (IH (fst (step s (Run 0))) (step_inv _ _ I B') B') as (k & Hk & P); [lia|].
      exists (S k). split; [lia|]. cbv zeta. simpl repeat. rewrite run_cons. exact P.
Qed.

Lemma executor_progress s : Inv s -> bad s = None ->
  exists k, let s' := fst (run s (repeat (Run (V:=V) 0) k)) in bad s' <> None \/
   (posted s' = [] /\ (forall i, r_stage (rops s' i) = Awaited -> In i (rq s')) /\ (forall j, w_stage (wops s' j) = Awaited -> In j (wq s'))).
Proof.
  intros I B. destruct (drain_executor _ s I B (le_n _)) as (k & _ & H). exists k. cbv zeta in *.
  destruct H as [H|[H I']]; auto. right. split; auto. split; intros i A.
  - destruct (awaited_somewhere_r _ i I' A) as [[]|X]; auto. rewrite H in X. destruct X.
  - destruct (awaited_somewhere_w _ i I' A) as [[]|X]; auto. rewrite H in X. destruct X.
Qed.

(** *** Draining a closed channel with reads. *)
Definition read_labels (ids : list nat) : list label := flat_map (fun i => [MkRead i; AwRead i false]) ids.

Lemma wake_writer_nil (s : state) : wq s = [] -> wake_writer s = s.
Proof. unfold wake_writer. now intros ->. Qed.

Lemma drain_one s i : Inv (V:=V) s -> bad s = None -> closed s = true -> is_void s = false -> r_stage (rops s i) = Absent ->
  exists s', run s [MkRead i; AwRead i false] = (s', [ERead i (match buf s with [] => RBroken | v :: _ => RVal v end)]) /\
    bad s' = None /\ closed s' = true /\ is_void s' = false /\ buf s' = tl (buf s) /\
    (forall k, k <> i -> rops s' k = rops s k) /\ Inv s'.
Proof.
  intros I B C Vd A. destruct (inv_closed _ I C) as [Er Ew].
  assert (Q : forall s', fst (run s [MkRead i; AwRead i false]) = s' -> bad s' = None -> Inv s').
  { intros s' <- Bd. apply run_inv; auto. }
  assert (E : exists s', run s [MkRead i; AwRead i false] = (s', [ERead i (match buf s with [] => RBroken | v :: _ => RVal v end)]) /\
    bad s' = None /\ closed s' = true /\ is_void s' = false /\ buf s' = tl (buf s) /\ (forall k, k <> i -> rops s' k = rops s k)).
  { cbn [run]. unfold step. rewrite B. simpl step_ok. rewrite A. simpl bad. rewrite B. simpl step_ok. sm. rewrite upd_same. simpl r_stage. cbv iota.
    unfold read_await, read_ready. sm. rewrite C, orb_true_r. simpl orb. cbv iota. unfold read_resume. sm. rewrite upd_same.
    unfold read_broken. sm. rewrite Vd. simpl.
    destruct (buf s) as [|v b] eqn:Eb; simpl.
    - eexists. split; [reflexivity|]. sm. repeat split; auto. intros k Hk. now rewrite !upd_other.
    - rewrite wake_writer_nil by exact Ew. eexists. split; [reflexivity|]. sm. repeat split; auto. intros k Hk. now rewrite !upd_other. }
  destruct E as (s' & E & H1 & H2 & H3 & H4 & H5). exists s'. repeat (split; [assumption|]). apply Q; auto. now rewrite E.
Qed.

(** Results of n successive reads on a closed channel holding [b]. *)
Fixpoint drain_results (ids : list nat) (b : list V) : list event :=
  match ids with
  | [] => []
  | i :: t => ERead i (match b with [] => RBroken | v :: _ => RVal v end) :: drain_results t (tl b)
  end.

Lemma drain_reads ids : forall s, Inv (V:=V) s -> bad s = None -> closed s = true -> is_void s = false -> NoDup ids ->
  (forall i, In i ids -> r_stage (rops s i) = Absent) ->
  snd (run s (read_labels ids)) = drain_results ids (buf s) /\ bad (fst (run s (read_labels ids))) = None /\
  buf (fst (run s (read_labels ids))) = skipn (length ids) (buf s).
Proof.
  induction ids as [|i ids IH]; intros s I B C Vd N A; [simpl; auto|].
  change (read_labels (i :: ids)) with ([MkRead i; AwRead i false] ++ read_labels ids). rewrite run_app.
  destruct (drain_one s i I B C Vd (A i (or_introl eq_refl))) as (s' & E & H1 & H2 & H3 & H4 & H5 & H6).
  rewrite E. inversion N; subst. destruct (IH s' H6 H1 H2 H3) as (G1 & G2 & G3); auto.
  { intros k Hk. rewrite H5; [apply A; simpl; auto|]. intros ->. contradiction. }
  destruct (run s' (read_labels ids)) as [s2 e2]. cbn [fst snd] in *. subst e2. rewrite H4 in *. simpl.
  repeat split; auto. rewrite G3. destruct (buf s); simpl; auto. now destruct (length ids).
Qed.

Lemma drain_results_spec n k : forall b : list V, 
  drain_results (seq k n) b = map (fun p => ERead (fst p) (snd p)) (combine (seq k n) (map (@RVal V) b ++ repeat RBroken n)).
Proof.
  revert k. induction n as [|n IH]; intros k b; simpl; auto. destruct b as [|v b]; simpl.
  - f_equal. specialize (IH (S k) []). simpl in IH. exact IH.
  - f_equal. rewrite IH. f_equal.
    assert (X : forall (l1 : list nat) (l2 l3 : list (rresult V)) , length l1 <= length l2 -> combine l1 (l2 ++ l3) = combine l1 l2).
    { induction l1 as [|a l1 IHl]; simpl; auto. intros [|b2 l2] l3; simpl; [lia|]. intros H. f_equal. apply IHl. lia. }
    replace (RBroken :: repeat RBroken n) with (repeat (@RBroken V) n ++ [RBroken]) by (symmetry; apply repeat_cons).
    rewrite app_assoc. symmetry. apply X. rewrite app_length, repeat_length, seq_length. lia.
Qed.

(** *** A write created after close fails and adds nothing. *)
Lemma write_after_close s j v b : Inv (V:=V) s -> bad s = None -> closed s = true -> w_stage (wops s j) = Absent ->
  snd (run s [MkWrite j v; AwWrite j b]) = [EWrite j v WBroken] /\
  buf (fst (run s [MkWrite j v; AwWrite j b])) = buf s /\ bad (fst (run s [MkWrite j v; AwWrite j b])) = None.
Proof.
  intros I B C A. simpl. unfold step. rewrite B. simpl step_ok. rewrite A. simpl bad. rewrite B. simpl step_ok. sm. rewrite upd_same. simpl w_stage. cbv iota.
  unfold write_await, write_ready. sm. rewrite C, orb_true_r. simpl orb. cbv iota. unfold write_resume. sm. rewrite upd_same. simpl. auto.
Qed.

(** *** Operations waiting at close() fail. *)
Definition doomed_r (s : state) i := r_stage (rops s i) = Awaited -> r_cancelled (rops s i) = true.

Lemma wake_reader_rops (s : state) i : r_handle (rops s i) = false -> rops (wake_reader s) i = rops s i \/ bad (wake_reader s) <> None.
Proof.
  intros H. unfold wake_reader. destruct (rq s) as [|k q]; auto. destruct (negb _); [right; discriminate|].
  destruct (read_ready s); auto. destruct (r_handle (rops s k)) eqn:E; [|right; discriminate].
  left. sm. destruct (Nat.eq_dec i k) as [->|]; [congruence|]. now rewrite upd_other.
Qed.
Lemma wake_writer_rops (s : state) i : rops (wake_writer s) i = rops s i.
Proof. unfold wake_writer. destruct (wq s) as [|k q]; auto. destruct (negb _); auto. destruct (write_ready s); auto. destruct (w_handle (wops s k)); auto. Qed.

Lemma read_resume_rops (s : state) i k : k <> i -> rops (fst (read_resume s i)) k = rops s k.
Proof.
  intros N. unfold read_resume. destruct (read_broken _ _); [cbn [fst]; sm; now rewrite upd_other|]. destruct (r_cancelled _); [cbn [fst]; sm; now rewrite upd_other|].
  destruct (buf _), (r_direct _); cbn [fst]; rewrite ?wake_writer_rops; sm; now rewrite upd_other.
Qed.
Lemma read_resume_self (s : state) i : rops (fst (read_resume s i)) i = r_finish (rops s i).
Proof.
  unfold read_resume. destruct (read_broken _ _); [cbn [fst]; sm; now rewrite upd_same|]. destruct (r_cancelled _); [cbn [fst]; sm; now rewrite upd_same|].
  destruct (buf _), (r_direct _); cbn [fst]; rewrite ?wake_writer_rops; sm; now rewrite upd_same.
Qed.
Lemma read_resume_cancelled (s : state) i e : r_cancelled (rops s i) = true -> In e (snd (read_resume s i)) -> e = ERead i RBroken \/ e = ERead i RAborted.
Proof. intros C. unfold read_resume. rewrite C. destruct (read_broken _ _); simpl; intuition. Qed.
Lemma write_resume_rops (s : state) j i : r_handle (rops s i) = false -> bad (fst (write_resume s j)) = None -> rops (fst (write_resume s j)) i = rops s i.
Proof.
  intros H. unfold write_resume. destruct (w_val _); auto. destruct (w_closed _); auto. destruct (w_cancelled _); auto.
  destruct (w_direct _); [|destruct (full _)]; cbn [fst]; intros B; try (sm; discriminate).
  - match goal with |- rops (wake_reader ?x) i = _ => destruct (wake_reader_rops x i H); [auto|congruence] end.
  - match goal with |- rops (wake_reader ?x) i = _ => destruct (wake_reader_rops x i H); [auto|congruence] end.
Qed.

Lemma write_resume_evs (s : state) j i r : ~ In (ERead i r) (snd (write_resume s j)).
Proof.
  unfold write_resume. destruct (w_val _); auto. destruct (w_closed _); [simpl; intuition discriminate|]. destruct (w_cancelled _); [simpl; intuition discriminate|].
  destruct (w_direct _); [|destruct (full _)]; simpl; intuition discriminate.
Qed.
Lemma read_resume_evs (s : state) j i r : In (ERead i r) (snd (read_resume s j)) -> i = j.
Proof.
  unfold read_resume. destruct (read_broken _ _); [simpl; intuition congruence|]. destruct (r_cancelled _); [simpl; intuition congruence|].
  destruct (buf _), (r_direct _); simpl; intuition congruence.
Qed.

Definition doomed (s : state) i := r_stage (rops s i) = Awaited -> r_cancelled (rops s i) = true.
Definition late_stage (s : state) i := r_stage (rops s i) <> Absent /\ r_stage (rops s i) <> Made.

Lemma read_op_cases s i : Inv (V:=V) s -> late_stage s i -> doomed s i -> r_handle (rops s i) = false.
Proof.
  intros I L D. destruct (r_handle (rops s i)) eqn:E; auto. exfalso.
  destruct (handle_not_job_r s i I E) as (_ & _ & A). pose proof (handle_not_cancelled_r s i I E). specialize (D A). congruence.
Qed.

Lemma doomed_step s l i : Inv (V:=V) s -> bad s = None -> bad (fst (step s l)) = None -> late_stage s i -> doomed s i ->
  late_stage (fst (step s l)) i /\ doomed (fst (step s l)) i /\
  forall r, In (ERead i r) (snd (step s l)) -> rfail r.
Proof.
  intros I B B' L D. pose proof (read_op_cases s i I L D) as H.
  assert (K : forall s', rops s' i = rops s i -> late_stage s' i /\ doomed s' i).
  { intros s' E. unfold late_stage, doomed. rewrite E. auto. }
  assert (G : forall (s' : state) (evs : list event), rops s' i = rops s i -> (forall r, ~ In (ERead i r) evs) -> late_stage s' i /\ doomed s' i /\ forall r, In (ERead i r) evs -> rfail r).
  { intros s' evs E N. destruct (K s' E). split; auto. split; auto. intros r X. destruct (N r X). }
  assert (F : forall (s1 : state), rops s1 i = rops s i \/ (r_cancelled (rops s1 i) = true) -> (r_stage (rops s i) = Awaited) ->
     late_stage (fst (read_resume s1 i)) i /\ doomed (fst (read_resume s1 i)) i /\ forall r, In (ERead i r) (snd (read_resume s1 i)) -> rfail r).
  { intros s1 E A. assert (C : r_cancelled (rops s1 i) = true) by (destruct E as [E|E]; [rewrite E; auto|auto]).
    unfold late_stage, doomed. rewrite !read_resume_self. simpl. repeat split; try discriminate.
    intros r X. apply read_resume_cancelled in X; auto. destruct X as [X|X]; inversion X; exact Logic.I. }
  revert B'. unfold step. rewrite B. destruct l as [k|k b|k v|k b|k|k|k|k|k|k| |k]; simpl step_ok.
  - intros _. destruct (r_stage (rops s k)) eqn:S; try (apply G; simpl; auto; fail).
    assert (k <> i) by (intros ->; destruct L; congruence). apply G; simpl; auto. now rewrite upd_other by auto.
  - destruct (r_stage (rops s k)) eqn:S; try (intros _; apply G; simpl; auto; fail).
    assert (k <> i) by (intros ->; destruct L; congruence). unfold read_await.
    destruct (_ || _).
    + intros _. apply G; [now apply read_resume_rops; auto|]. intros r X. apply read_resume_evs in X. congruence.
    + destruct (wq s) as [|j q]; [intros _; apply G; simpl; auto; now rewrite upd_other by auto|].
      destruct (w_handle (wops s j)); [|sm; discriminate].
      intros B'. apply G; [|intros r; apply write_resume_evs]. rewrite write_resume_rops; auto; sm; now rewrite upd_other by auto.
  - intros _. destruct (w_stage (wops s k)) eqn:S; apply G; simpl; auto.
  - destruct (w_stage (wops s k)) eqn:S; try (intros _; apply G; simpl; auto; fail).
    unfold write_await. destruct (_ || _).
    + intros B'. apply G; [now apply write_resume_rops|intros r; apply write_resume_evs].
    + destruct (rq s) as [|j q]; [intros _; apply G; simpl; auto|].
      destruct (r_handle (rops s j)) eqn:Ej; [|sm; discriminate].
      assert (j <> i) by (intros ->; congruence).
      intros _. apply G; [|intros r X; apply read_resume_evs in X; congruence].
      rewrite read_resume_rops by auto. sm. now rewrite upd_other by auto.
  - intros _. unfold read_cancel. destruct (r_slot (rops s k)) eqn:S; [|apply G; simpl; auto].
    destruct (Nat.eq_dec k i) as [->|].
    + rewrite H. cbn [fst snd]. unfold late_stage, doomed. sm. rewrite !upd_same. simpl. destruct L. repeat split; auto. tauto.
    + destruct (r_handle (rops s k)); apply G; simpl; auto; now rewrite upd_other by auto.
  - intros _. unfold write_cancel. destruct (w_slot (wops s k)); [destruct (w_handle (wops s k))|]; apply G; simpl; auto.
  - assert (X : forall st, (r_stage (rops s k) = Made \/ r_stage (rops s k) = Awaited) -> st = r_stage (rops s k) -> late_stage (fst (read_interrupt s k)) i /\ doomed (fst (read_interrupt s k)) i /\ forall r, In (ERead i r) (snd (read_interrupt s k)) -> rfail r).
    { intros st Hst _. unfold read_interrupt. destruct (is_some _); [apply G; simpl; auto|].
      destruct (Nat.eq_dec k i) as [->|].
      - rewrite H. cbn [fst snd]. unfold late_stage, doomed. sm. rewrite !upd_same. simpl. destruct L. repeat split; auto. tauto.
      - destruct (r_handle (rops s k)).
        + apply G; [rewrite read_resume_rops by auto; sm; now rewrite upd_other by auto|]. intros r X. apply read_resume_evs in X. congruence.
        + apply G; simpl; auto. now rewrite upd_other by auto. }
    destruct (r_stage (rops s k)) eqn:S; try (intros _; apply G; simpl; auto; fail); intros _; eapply X; eauto.
  - destruct (w_stage (wops s k)) eqn:S; try (intros _; apply G; simpl; auto; fail);
    unfold write_interrupt; (destruct (w_direct (wops s k)); [intros _; apply G; simpl; auto|]);
    (destruct (w_handle (wops s k)); [intros B'; apply G; [rewrite write_resume_rops; auto|intros r; apply write_resume_evs]|intros _; apply G; simpl; auto]).
  - intros _. destruct (r_stage (rops s k)) eqn:S; try (apply G; simpl; auto; fail).
    + assert (k <> i) by (intros ->; destruct L; congruence). apply G; simpl; auto. now rewrite upd_other by auto.
    + destruct (Nat.eq_dec k i) as [->|].
      * cbn [fst snd]. unfold late_stage, doomed. sm. rewrite !upd_same. simpl. repeat split; try discriminate; tauto.
      * apply G; simpl; auto. now rewrite upd_other by auto.
  - intros _. destruct (w_stage (wops s k)) eqn:S; apply G; simpl; auto.
  - intros _. cbn [fst snd].
    assert (C1 : forall q (s0 : state), late_stage s0 i /\ doomed s0 i -> late_stage (fold_left close_read q s0) i /\ doomed (fold_left close_read q s0) i).
    { induction q as [|z q IH]; intros s0 P; simpl; auto. apply IH. unfold close_read, late_stage, doomed in *.
      destruct (r_handle (rops s0 z)); sm; (destruct (Nat.eq_dec z i) as [->|]; [rewrite upd_same; simpl; tauto|rewrite upd_other by auto; tauto]). }
    assert (C2 : forall q (s0 : state), rops (fold_left close_write q s0) = rops s0).
    { induction q as [|z q IH]; intros s0; simpl; auto. rewrite IH. unfold close_write. destruct (w_handle _); reflexivity. }
    destruct (C1 (rq s) (set_closed s)) as [P1 P2]; [split; auto|].
    unfold close, late_stage, doomed in *. sm. rewrite !C2. sm. repeat split; try tauto. simpl. tauto.
  - unfold run_job. destruct (nth_error (posted s) k) as [[z|z]|] eqn:En; [| |intros _; apply G; simpl; auto].
    + destruct (run_r_finish_inv s k z I En) as [_ A]. rewrite A. simpl is_awaited. cbv iota. intros B'.
      destruct (Nat.eq_dec z i) as [->|].
      * apply F; auto.
      * apply G; [now rewrite read_resume_rops by auto|]. intros r X. apply read_resume_evs in X. congruence.
    + destruct (run_w_finish_inv s k z I En) as [_ A]. rewrite A. simpl is_awaited. cbv iota. intros B'.
      apply G; [rewrite write_resume_rops; auto|intros r; apply write_resume_evs].
Qed.

Lemma doomed_run ls : forall s i, Inv (V:=V) s -> bad s = None -> bad (fst (run s ls)) = None -> late_stage s i -> doomed s i ->
  forall r, In (ERead i r) (snd (run s ls)) -> rfail r.
Proof.
  induction ls as [|l ls IH]; intros s i I B B' L D r; [simpl; tauto|].
  rewrite run_cons in *. cbn [fst snd] in *. pose proof (run_good_prefix _ _ B') as B1.
  destruct (doomed_step s l i I B B1 L D) as (L' & D' & E). rewrite in_app_iff. intros [X|X]; eauto.
  eapply IH; [| | | | |exact X]; auto. now apply step_inv.
Qed.

(** close() sets the flags of every linked operation. *)
Lemma close_read_flags q : forall (s : state) i, NoDup q -> (In i q -> r_cancelled (rops (fold_left close_read q s) i) = true) /\ 
   r_stage (rops (fold_left close_read q s) i) = r_stage (rops s i) /\ (~ In i q -> rops (fold_left close_read q s) i = rops s i).
Proof.
  induction q as [|z q IH]; intros s i N; simpl; [tauto|]. inversion N; subst.
  destruct (IH (close_read s z) i) as (A & B & C); auto.
  assert (Z : r_cancelled (rops (close_read s z) z) = true /\ (forall k, r_stage (rops (close_read s z) k) = r_stage (rops s k)) /\ (forall k, k <> z -> rops (close_read s z) k = rops s k)).
  { unfold close_read. destruct (r_handle (rops s z)); sm; rewrite upd_same; simpl; repeat split; auto; intros k; try (intros; now rewrite upd_other by auto);
    unfold upd; destruct (Nat.eqb_spec k z); subst; auto. }
  destruct Z as (Z1 & Z2 & Z3). repeat split.
  - intros [->|X]; auto. rewrite C; auto.
  - congruence.
  - intros X. rewrite C by tauto. apply Z3. intros ->; tauto.
Qed.
Lemma close_write_flags q : forall (s : state) i, NoDup q -> (In i q -> w_closed (wops (fold_left close_write q s) i) = true) /\
   (~ In i q -> wops (fold_left close_write q s) i = wops s i).
Proof.
  induction q as [|z q IH]; intros s i N; simpl; [tauto|]. inversion N; subst.
  destruct (IH (close_write s z) i) as (A & C); auto.
  assert (Z : w_closed (wops (close_write s z) z) = true /\ (forall k, k <> z -> wops (close_write s z) k = wops s k)).
  { unfold close_write. destruct (w_handle (wops s z)); sm; rewrite upd_same; simpl; repeat split; auto; intros k; try (intros; now rewrite upd_other by auto). }
  destruct Z as (Z1 & Z3). split.
  - intros [->|X]; auto. rewrite C; auto.
  - intros X. rewrite C by tauto. apply Z3. intros ->; tauto.
Qed.

Lemma waiting_read_fails_on_close s i ls : Inv (V:=V) s -> bad s = None -> In i (rq s) ->
  bad (fst (run s (Close :: ls))) = None -> forall r, In (ERead i r) (snd (run s (Close :: ls))) -> r = RBroken \/ r = RAborted.
Proof.
  intros I B Q. rewrite run_cons. unfold step. rewrite B. simpl step_ok. cbn [fst snd]. intros B' r X. simpl in X.
  assert (rfail r); [|destruct r; simpl in *; tauto].
  assert (B1 : bad (close s) = None) by now apply run_good_prefix in B'.
  assert (I1 : Inv (close s)).
  { pose proof (step_inv s Close I) as Z. unfold step in Z. rewrite B in Z. simpl in Z. auto. }
  destruct (inv_r _ I) as (Nd & _ & Hl).
  destruct (close_read_flags (rq s) (set_closed s) i Nd) as (F1 & F2 & _).
  assert (C2 : forall q (s0 : state), rops (fold_left close_write q s0) = rops s0).
  { induction q as [|z q IH]; intros s0; simpl; auto. rewrite IH. unfold close_write. destruct (w_handle _); reflexivity. }
  assert (E : rops (close s) i = rops (fold_left close_read (rq s) (set_closed s)) i).
  { unfold close. sm. now rewrite C2. }
  eapply (doomed_run ls (close s) i); eauto.
  - unfold late_stage. rewrite E, F2. sm. specialize (Hl i). unfold loc in Hl. simpl in Hl. intuition congruence.
  - intros _. rewrite E. auto.
Qed.

Lemma waiting_write_fails_on_close s j ls : Inv (V:=V) s -> bad s = None -> In j (wq s) ->
  forall v r, In (EWrite j v r) (snd (run s (Close :: ls))) -> r = WBroken.
Proof.
  intros I B Q v r. rewrite run_cons. unfold step. rewrite B. simpl step_ok. cbn [fst snd]. intros X. simpl in X.
  destruct (bad (close s)) eqn:B1.
  { rewrite run_bad in X by congruence. destruct X. }
  assert (I1 : Inv (close s)).
  { pose proof (step_inv s Close I) as Z. unfold step in Z. rewrite B in Z. simpl in Z. auto. }
  eapply (h_broken _ _ _ (run_hist ls (close s) I1)); eauto.
  destruct (inv_w _ I) as (Nd & _).
  destruct (close_write_flags (wq s) (set_rq [] (fold_left close_read (rq s) (set_closed s))) j Nd) as (F & _).
  unfold close. sm. auto.
Qed.

End Close.
