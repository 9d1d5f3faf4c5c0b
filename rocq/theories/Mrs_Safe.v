(** C85: users who keep the rule never touch memory that is gone, nor another thread's pool. *)
From Coq Require Import List Bool Arith Lia.
From Verif Require Import Mrs_Model Mrs_Spec Mrs_Inv Mrs_Own.
Import ListNotations.

Definition clean (s : state) : Prop := ub s = false /\ foreign s = false.
Definition G (s : state) : Prop := forall c o, In o (queued s c) -> o_res (obj s o) = 0 \/ above s c (o_res (obj s o)).
(** [t] may give back memory from [r]. *)
Definition may (s : state) (t r : nat) : Prop := r_live (res s r) = true /\ strange s t r = false.

Lemma frees_clean : forall t os s, NoDup os -> (forall o, In o os -> o_live (obj s o) = true /\ may s t (o_res (obj s o))) ->
  ub (fst (frees t os s)) = ub s /\ foreign (fst (frees t os s)) = foreign s.
Proof.
  induction os as [|a os IH]; intros s ND H; cbn [frees]; [auto|]. inversion ND as [|? ? NI ND']; subst.
  destruct (free t a s) as [s1 e1] eqn:E. specialize (IH s1 ND').
  assert (E1 : s1 = fst (free t a s)) by now rewrite E. destruct (H a (or_introl eq_refl)) as (L & M1 & M2).
  destruct IH as (I1 & I2).
  { intros o I. destruct (H o (or_intror I)) as (L' & M'). subst s1. cbn. rewrite upd_other by (intros ->; contradiction). auto. }
  destruct (frees t os s1) as [s2 e2]. cbn in I1, I2 |- *. rewrite I1, I2. subst s1. cbn. rewrite L, M1, M2. cbn. now rewrite !orb_false_r.
Qed.

Lemma drop_clean : forall t c s, WQ s -> (refs s c <= 1 -> forall o, In o (queued s c) -> may s t (o_res (obj s o))) ->
  ub (fst (drop_ref t c s)) = ub s /\ foreign (fst (drop_ref t c s)) = foreign s.
Proof.
  intros t c s Q H. unfold drop_ref. cbv zeta. cbn [refs set_refs]. rewrite upd_same. destruct (Nat.eqb_spec (refs s c - 1) 0) as [E|]; [|auto].
  unfold destroy_ctx. cbn [queued set_refs].
  pose proof (frees_clean t (queued s c) (set_refs (upd (refs s) c (refs s c - 1)) s) (q_nd s Q c)) as F.
  destruct (frees t (queued s c) (set_refs (upd (refs s) c (refs s c - 1)) s)) as [s1 e]. cbn in *. apply F.
  intros o I. split; [eapply (q_live s Q); eauto|]. apply H; [lia|exact I].
Qed.

(** What dropping a reference does to queues and objects. *)
Lemma drop_sub : forall t c s, NoDup (queued s c) -> let s' := fst (drop_ref t c s) in
  (forall c1 o, In o (queued s' c1) -> In o (queued s c1)) /\ (forall o, o_res (obj s' o) = o_res (obj s o)).
Proof.
  intros t c s ND. unfold drop_ref. cbv zeta. destruct (_ =? 0); [|cbn; auto]. unfold destroy_ctx. cbn [queued set_refs].
  pose proof (frees_spec t (queued s c) (set_refs (upd (refs s) c (refs s c - 1)) s) ND) as F.
  destruct (frees t (queued s c) (set_refs (upd (refs s) c (refs s c - 1)) s)) as [s1 e]. cbn in *. destruct F as (A & B & _). split.
  - intros c1 o I. destruct (Nat.eq_dec c1 c) as [->|n]; [rewrite upd_same in I; contradiction|]. rewrite upd_other in I by auto. now rewrite B in I.
  - intros o. rewrite A. destruct (mem o (queued s c)); reflexivity.
Qed.

Lemma above_mono : forall s s' c r, WR s -> (forall x, x < nres s -> r_up (res s' x) = r_up (res s x)) -> c < nres s -> above s c r -> above s' c r.
Proof.
  intros s s' c r W U L A. induction A as [c|c r A IH]; [constructor|]. apply above_up. rewrite U by exact L. apply IH.
  destruct c as [|c]; [rewrite (w0 s W); cbn; lia|]. destruct (wup s W (S c) ltac:(lia)) as (X & _). lia.
Qed.

Lemma G_mono : forall s s', WR s -> WQ s -> G s -> (forall x, x < nres s -> r_up (res s' x) = r_up (res s x)) ->
  (forall c o, In o (queued s' c) -> In o (queued s c) /\ o_res (obj s' o) = o_res (obj s o)) -> G s'.
Proof.
  intros s s' W Q H U K c o I. destruct (K c o I) as (I' & E). rewrite E. destruct (H c o I') as [Z|A]; [auto|]. right.
  eapply above_mono; eauto. eapply (q_lt s Q); eauto.
Qed.

Lemma may_above : forall s t c r, WR s -> c < nres s -> r_live (res s c) = true -> r_owner (res s c) = Some t -> r = 0 \/ above s c r -> may s t r.
Proof.
  intros s t c r W L V O [->|A]; unfold may, strange.
  - rewrite (w0 s W). auto.
  - destruct (above_ok s c r W A L V) as (X & [Y|Y]); rewrite Y; split; auto. rewrite O. now rewrite Nat.eqb_refl.
Qed.

Lemma alloc_clean : forall s t o r, WR s -> clean s -> mine s t r -> clean (fst (alloc t o r s)).
Proof.
  intros s t o r W (C1 & C2) M. destruct (mine_ok s t r W M) as (A & B). destruct (up_ok s t r W M) as (A' & B').
  unfold clean. cbn. rewrite C1, C2, A, B, A', B'. auto.
Qed.

Lemma G_step : forall s l s' es, WR s -> WQ s -> G s -> clean s -> polite s l -> step s l = Some (s', es) -> G s' /\ clean s'.
Proof.
  intros s l s' es W Q g (C1 & C2) P H.
  assert (NL : forall o x, o_used (obj s o) = false -> o_live (obj s x) = true -> x <> o) by (intros o x U L ->; rewrite (q_used s Q o L) in U; discriminate).
  destruct l; cbn -[Nat.ltb Nat.eqb polite] in H.
  - (* RunEnter *) destruct (running s t) eqn:R; [|discriminate]. injection H as <- <-. split; [|split; assumption].
    eapply G_mono; eauto; cbn.
    + intros x L. rewrite upd_other by lia. reflexivity.
    + intros c o I. destruct (Nat.eq_dec c (nres s)) as [->|n]; [rewrite upd_same in I; contradiction|]. rewrite upd_other in I by auto. auto.
  - (* RunLeave *) destruct (running s t) eqn:R; [|discriminate]. destruct (scopes s t) as [|x l] eqn:E; [discriminate|].
    assert (IX : In x (scopes s t)) by (rewrite E; now left).
    destruct (pools_in s t _ W (scope_res s t x W IX)) as (_ & _ & XN & XL & XO).
    unfold run_leave in H.
    pose proof (drop_clean t (s_res x) s Q (fun _ o I => may_above s t (s_res x) _ W XN XL XO (g _ _ I))) as (D1 & D2).
    pose proof (same_drop_ref t (s_res x) s) as SM.
    pose proof (drop_sub t (s_res x) s (q_nd s Q _)) as (S1 & S2).
    destruct (drop_ref t (s_res x) s) as [s1 e1]. cbn [fst] in *. injection H as <- <-. destruct SM as [R1 R2 R3 R4 R5 R6].
    destruct (up_ok s t (s_res x) W (or_intror (scope_res s t x W IX))) as (U1 & U2).
    split.
    + eapply G_mono; eauto; cbn.
      intros y L. rewrite R1. destruct (Nat.eq_dec y (s_res x)) as [->|n]; [now rewrite upd_same|now rewrite upd_other].
    + unfold clean. cbn. rewrite R1. unfold strange in *. cbn. rewrite R1, D1, D2, C1, C2, U1, U2. auto.
  - (* Start *) destruct (running s t && negb (o_used (obj s o))) eqn:R; [|discriminate]. destruct (ph s t') eqn:Ph; try discriminate. injection H as <- <-.
    apply andb_true_iff in R as (_ & U). apply negb_true_iff in U. split.
    + eapply G_mono; eauto; cbn.
      * intros x L. rewrite upd_other by lia. reflexivity.
      * intros c x I. destruct (Nat.eq_dec c (nres s)) as [->|n]; [rewrite upd_same in I; contradiction|]. rewrite upd_other in I by auto. split; [exact I|].
        rewrite upd_other; [reflexivity|]. apply (NL o x U). eapply (q_live s Q); eauto.
    + exact (alloc_clean s t o 0 W (conj C1 C2) (or_introl eq_refl)).
  - (* Boot *) destruct (ph s t') eqn:Ph; try discriminate. destruct (boot s (tres s t')) as [b|] eqn:B; [|discriminate]. destruct (stopped s t'); [discriminate|]. injection H as H.
    assert (M : made (ph s t') = true) by now rewrite Ph.
    pose proof (c_th s Q t' M) as RF. rewrite Ph, B in RF. cbn in RF.
    unfold drop_ref in H. cbv zeta in H. cbn [refs set_refs set_boot] in H. rewrite upd_same in H. destruct (Nat.eqb_spec (refs s (tres s t') - 1) 0); [lia|]. injection H as <- <-.
    split; [|split; assumption]. eapply G_mono; eauto.
  - (* Stop *) destruct (running s t && held s t'); [|discriminate]. injection H as <- <-. split; [|split; assumption]. eapply G_mono; eauto.
  - (* DropObj *) destruct (running s t && held s t') eqn:R; [|discriminate]. injection H as H. apply andb_true_iff in R as (_ & HH).
    assert (M := c_held s Q t' HH). pose proof (c_th s Q t' M) as RF. rewrite HH in RF.
    set (s0 := set_held t' false s) in *.
    pose proof (drop_sub t (tres s t') s0 (q_nd s Q _)) as (S1 & S2). pose proof (same_drop_ref t (tres s t') s0) as SM.
    assert (CL : ub (fst (drop_ref t (tres s t') s0)) = ub s /\ foreign (fst (drop_ref t (tres s t') s0)) = foreign s).
    { cbn in P. destruct P as [P|P].
      - rewrite P in RF. cbn in RF. unfold drop_ref. cbv zeta. cbn [refs set_refs set_held s0]. rewrite upd_same. unfold s0; cbn [refs set_held]. destruct (Nat.eqb_spec (refs s (tres s t') - 1) 0); [lia|]. split; reflexivity.
      - unfold drop_ref. cbv zeta. cbn [refs set_refs]. rewrite upd_same. destruct (refs s0 (tres s t') - 1 =? 0); [|split; reflexivity].
        unfold destroy_ctx. cbn [queued set_refs].
        pose proof (frees_clean t (queued s0 (tres s t')) (set_refs (upd (refs s0) (tres s t') (refs s0 (tres s t') - 1)) s0) (q_nd s Q _)) as F.
        destruct (frees t (queued s0 (tres s t')) _) as [s1 e]. cbn in F |- *. apply F.
        intros o I. split; [eapply (q_live s Q); eauto|]. unfold may, strange. cbn. rewrite (P o I), (w0 s W). auto. }
    rewrite H in *. cbn [fst] in *. destruct SM as [R1 R2 R3 R4 R5 R6]. destruct CL as (D1 & D2). split; [|split; congruence].
    eapply G_mono; eauto. intros x L. rewrite R1. reflexivity.
  - (* Leave *) destruct (ph s t') eqn:Ph; try discriminate. destruct (is_nil (scopes s t') && may_leave s t' w); [|discriminate]. injection H as <- <-.
    split; [|split; assumption]. eapply G_mono; eauto.
  - (* DropIn *) destruct (ph s t') eqn:Ph; try discriminate. injection H as H.
    set (s0 := set_ph t' Dropped s) in *.
    pose proof (drop_sub t' (tres s t') s0 (q_nd s Q _)) as (S1 & S2). pose proof (same_drop_ref t' (tres s t') s0) as SM.
    assert (LB : lib (ph s t') = true) by now rewrite Ph.
    destruct (wth s W t' LB) as (TN & TR).
    assert (CL : ub (fst (drop_ref t' (tres s t') s0)) = ub s /\ foreign (fst (drop_ref t' (tres s t') s0)) = foreign s).
    { unfold drop_ref. cbv zeta. cbn [refs set_refs]. rewrite upd_same. destruct (refs s0 (tres s t') - 1 =? 0); [|split; reflexivity].
        unfold destroy_ctx. cbn [queued set_refs].
        pose proof (frees_clean t' (queued s0 (tres s t')) (set_refs (upd (refs s0) (tres s t') (refs s0 (tres s t') - 1)) s0) (q_nd s Q _)) as F.
        destruct (frees t' (queued s0 (tres s t')) _) as [s1 e]. cbn in F |- *. apply F.
        intros o I. split; [eapply (q_live s Q); eauto|]. 
        apply (may_above s t' (tres s t') (o_res (obj s o)) W); [lia|now rewrite TR|now rewrite TR|exact (g _ _ I)]. }
    rewrite H in *. cbn [fst] in *. destruct SM as [R1 R2 R3 R4 R5 R6]. destruct CL as (D1 & D2). split; [|split; congruence].
    eapply G_mono; eauto. intros x L. rewrite R1. reflexivity.
  - (* EndT *) destruct (ph s t') eqn:Ph; try discriminate. injection H as <- <-.
    assert (LB : lib (ph s t') = true) by now rewrite Ph. destruct (wth s W t' LB) as (TN & TR). split.
    + eapply G_mono; eauto; cbn. intros x L. destruct (Nat.eq_dec x (tres s t')) as [->|n]; [now rewrite upd_same|now rewrite upd_other].
    + unfold clean, strange. cbn. rewrite TR. cbn. rewrite (w0 s W). cbn. rewrite C1, C2. auto.
  - (* Alloc *) destruct (running s t && negb (o_used (obj s o))) eqn:R; [|discriminate]. injection H as <- <-. apply andb_true_iff in R as (R & U). apply negb_true_iff in U. split.
    + eapply G_mono; eauto; cbn. intros c x I. rewrite upd_other; [auto|]. apply (NL o x U). eapply (q_live s Q); eauto.
    + exact (alloc_clean s t o _ W (conj C1 C2) (def_mine s t W R)).
  - (* AllocAt *) destruct (running s t && negb (o_used (obj s o)) && (r <? nres s)) eqn:R; [|discriminate]. injection H as <- <-. apply andb_true_iff in R as (R & _). apply andb_true_iff in R as (R & U). apply negb_true_iff in U. split.
    + eapply G_mono; eauto; cbn. intros c x I. rewrite upd_other; [auto|]. apply (NL o x U). eapply (q_live s Q); eauto.
    + exact (alloc_clean s t o _ W (conj C1 C2) P).
  - (* Hand *) destruct (running s t && negb (o_used (obj s o')) && o_used (obj s o) && negb (is_queued s o)) eqn:R; [|discriminate]. injection H as <- <-.
    apply andb_true_iff in R as (R & NQ). apply andb_true_iff in R as (R & U'). apply andb_true_iff in R as (_ & U). apply negb_true_iff in U, NQ.
    destruct (not_queued s o Q NQ) as (N1 & _). cbn in P. destruct P as (L & M). destruct (mine_ok s t _ W M) as (X1 & X2).
    assert (OO : o <> o') by (apply (NL o' o U L)).
    split.
    + eapply G_mono; eauto; cbn. intros c x I. rewrite upd_other by (intros ->; eapply N1; eauto). rewrite upd_other; [auto|]. apply (NL o' x U). eapply (q_live s Q); eauto.
    + unfold clean, strange in *. cbn. rewrite !(upd_other _ _ _ _ o) by auto. rewrite L, X1, X2, !(w0 s W). cbn. rewrite (w0 s W), C1, C2. auto.
  - (* Queue *) destruct (running s t && o_live (obj s o) && negb (is_queued s o) && (0 <? c) && (c <? nres s) && negb (refs s c =? 0)) eqn:R; [|discriminate]. injection H as <- <-.
    split; [|split; assumption]. intros c1 x I. cbn in *.
    assert (AB : forall a b, above s a b -> above (set_queued (upd (queued s) c (o :: queued s c)) s) a b) by (intros a b A; induction A; [constructor|now apply above_up]).
    destruct (Nat.eq_dec c1 c) as [->|n]; [rewrite upd_same in I|rewrite upd_other in I by auto].
    + destruct I as [<-|I]; [|destruct (g c x I); auto]. destruct P as [P|(l1 & l2 & P1 & P2)]; [auto|]. right. apply AB.
      exact (pools_split s t W _ _ (wstk s W t) l1 c l2 _ P1 P2).
    + destruct (g c1 x I); auto.
  - (* Take *) destruct (running s t && mem o (queued s c)) eqn:R; [|discriminate]. injection H as <- <-. split; [|split; assumption].
    eapply G_mono; eauto; cbn. intros c1 x I. split; [|reflexivity]. destruct (Nat.eq_dec c1 c) as [->|n]; [rewrite upd_same in I; now apply remove1_In in I as (I & _)|now rewrite upd_other in I by auto].
  - (* Free *) destruct (running s t && o_used (obj s o) && negb (is_queued s o)) eqn:R; [|discriminate]. injection H as <- <-. apply andb_true_iff in R as (_ & NQ). apply negb_true_iff in NQ.
    destruct (not_queued s o Q NQ) as (N1 & _). cbn in P. destruct P as (L & M). destruct (mine_ok s t _ W M) as (X1 & X2). split.
    + eapply G_mono; eauto; cbn. intros c x I. rewrite upd_other by (intros ->; eapply N1; eauto). auto.
    + unfold clean. cbn. rewrite L, X1, X2, C1, C2. auto.
  - (* Use *) destruct (running s t && o_used (obj s o)) eqn:R; [|discriminate]. injection H as <- <-. cbn in P. destruct P as (L & M). destruct (mine_ok s t _ W M) as (X1 & X2). split.
    + eapply G_mono; eauto.
    + unfold clean. cbn. rewrite L, X1, C1, C2. auto.
Qed.

(** Histories. *)
Lemma run_app : forall ls1 ls2 s s' es, run s (ls1 ++ ls2) = Some (s', es) ->
  exists s1 es1 es2, run s ls1 = Some (s1, es1) /\ run s1 ls2 = Some (s', es2) /\ es = es1 ++ es2.
Proof.
  induction ls1 as [|l ls1 IH]; cbn; intros ls2 s s' es H.
  - exists s, [], es. auto.
  - destruct (step s l) as [[s1 e1]|]; [|discriminate]. destruct (run s1 (ls1 ++ ls2)) as [[s2 e2]|] eqn:E; [|discriminate]. injection H as <- <-.
    destruct (IH _ _ _ _ E) as (s3 & a & b & H1 & H2 & ->). rewrite H1. exists s3, (e1 ++ a), b. repeat split; auto. now rewrite app_assoc.
Qed.

Lemma run_W : forall ls s s' es, WR s -> WQ s -> run s ls = Some (s', es) -> WR s' /\ WQ s'.
Proof.
  induction ls as [|l ls IH]; cbn; intros s s' es W Q H.
  - injection H as <- <-. auto.
  - destruct (step s l) as [[s1 e1]|] eqn:E; [|discriminate]. destruct (run s1 ls) as [[s2 e2]|] eqn:E2; [|discriminate]. injection H as <- <-.
    eapply IH; [eapply WR_step; eauto|eapply WQ_step; eauto|exact E2].
Qed.

Lemma reach_W : forall ls s es, run init ls = Some (s, es) -> WR s /\ WQ s.
Proof. intros. eapply run_W; eauto; [apply WR_init|apply WQ_init]. Qed.

Lemma run_snoc : forall ls l s s' es es' s0, run s0 ls = Some (s, es) -> step s l = Some (s', es') -> run s0 (ls ++ [l]) = Some (s', es ++ es').
Proof.
  induction ls as [|a ls IH]; cbn; intros l s s' es es' s0 H K.
  - injection H as <- <-. rewrite K. now rewrite app_nil_r.
  - destruct (step s0 a) as [[s1 e1]|]; [|discriminate]. destruct (run s1 ls) as [[s2 e2]|] eqn:E; [|discriminate]. injection H as <- <-.
    rewrite (IH _ _ _ _ _ _ E K). now rewrite app_assoc.
Qed.

Lemma run_cat : forall l l' s0 s e s' e', run s0 l = Some (s, e) -> run s l' = Some (s', e') -> run s0 (l ++ l') = Some (s', e ++ e').
Proof.
  induction l as [|a l IH]; cbn; intros l' s0 s e s' e' H K.
  - injection H as <- <-. exact K.
  - destruct (step s0 a) as [[s1 e1]|]; [|discriminate]. destruct (run s1 l) as [[s2 e2]|] eqn:E; [|discriminate]. injection H as <- <-.
    rewrite (IH _ _ _ _ _ _ E K). now rewrite app_assoc.
Qed.

Theorem orderly_clean : forall ls s es, orderly ls -> run init ls = Some (s, es) -> G s /\ clean s.
Proof.
  induction ls as [|l ls IH] using rev_ind; intros s es O H.
  - injection H as <- <-. split; [intros c o []|split; reflexivity].
  - destruct (run_app _ _ _ _ _ H) as (s1 & e1 & e2 & H1 & H2 & ->). destruct (IH s1 e1) as (g & C).
    + intros a b c s0 es0 E R. apply (O a b (c ++ [l]) s0 es0); [rewrite E, <- app_assoc; reflexivity|exact R].
    + exact H1.
    + cbn in H2. destruct (step s1 l) as [[s2 e3]|] eqn:E; [|discriminate]. injection H2 as <- <-. destruct (reach_W _ _ _ H1) as (W & Q).
      rewrite app_nil_r in *. eapply G_step; [exact W|exact Q|exact g|exact C| |exact E]. apply (O ls l [] s1 e1); auto.
Qed.
