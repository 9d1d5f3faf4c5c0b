(** C85: the flags say exactly what the history says. *)
From Coq Require Import List Bool Arith Lia.
From Verif Require Import Mrs_Model Mrs_Spec Mrs_Inv Mrs_Own Mrs_Safe.
Import ListNotations.

Definition gones (es : list event) : list nat := flat_map (fun e => match e with EGone r => [r] | _ => [] end) es.
Record T (s : state) (es : list event) : Prop := {
  t_up : forall r, r_live (res s r) = true -> r_live (res s (r_up (res s r))) = true;
  t_gone : forall r, r_live (res s r) = false <-> gone es r;
  t_born : forall o r, born es o r <-> (o_used (obj s o) = true /\ o_res (obj s o) = r);
  t_freed : forall o, freed es o <-> (o_used (obj s o) = true /\ o_live (obj s o) = false);
  t_used : forall o, o_live (obj s o) = true -> o_used (obj s o) = true;
  t_ub : ub s = true <-> too_late es;
  t_once : NoDup (gones es) }.

Definition badnow (es : list event) (e : event) : Prop :=
  (exists o, touches e o /\ (freed es o \/ exists r, born es o r /\ gone es r)) \/ (exists t o r, e = EAlloc t o r /\ gone es r).

Lemma too_late_snoc : forall es e, too_late (es ++ [e]) <-> too_late es \/ badnow es e.
Proof.
  intros es e. split.
  - intros (a & x & b & E & H). destruct b as [|y b] using rev_ind.
    + apply app_inj_tail in E as (<- & <-). right. exact H.
    + left. exists a, x, b. split; [|exact H]. rewrite app_comm_cons, app_assoc in E. now apply app_inj_tail in E as (E & _).
  - intros [(a & x & b & -> & H)|H].
    + exists a, x, (b ++ [e]). split; [now rewrite <- app_assoc|exact H].
    + exists es, e, []. auto.
Qed.

Lemma gone_snoc : forall es e r, gone (es ++ [e]) r <-> gone es r \/ e = EGone r.
Proof. intros. unfold gone. rewrite in_app_iff. cbn. tauto. Qed.
Lemma born_snoc : forall es e o r, born (es ++ [e]) o r <-> born es o r \/ exists t, e = EAlloc t o r.
Proof.
  intros. unfold born. split.
  - intros (t & H). apply in_app_or in H as [H|[H|[]]]; eauto.
  - intros [(t & H)|(t & H)]; exists t; apply in_or_app; [now left|right; now left].
Qed.
Lemma freed_snoc : forall es e o, freed (es ++ [e]) o <-> freed es o \/ exists t, e = EFree t o.
Proof.
  intros. unfold freed. split.
  - intros (t & H). apply in_app_or in H as [H|[H|[]]]; eauto.
  - intros [(t & H)|(t & H)]; exists t; apply in_or_app; [now left|right; now left].
Qed.
Lemma gones_snoc : forall es e, gones (es ++ [e]) = gones es ++ match e with EGone r => [r] | _ => [] end.
Proof. intros. unfold gones. rewrite flat_map_app. cbn. now rewrite app_nil_r. Qed.
Lemma gones_In : forall es r, In r (gones es) <-> gone es r.
Proof.
  intros. unfold gones, gone. rewrite in_flat_map. split.
  - intros (e & H & K). destruct e; cbn in K; try contradiction. destruct K as [->|[]]. exact H.
  - intro H. exists (EGone r). split; [exact H|now left].
Qed.

Lemma T_ext : forall s s' es, T s es -> res s' = res s -> obj s' = obj s -> ub s' = ub s -> T s' es.
Proof. intros s s' es [] A B C. constructor; rewrite ?A, ?B, ?C; auto. Qed.

Lemma T_alloc : forall s es t o r, T s es -> o_used (obj s o) = false -> T (fst (alloc t o r s)) (es ++ snd (alloc t o r s)).
Proof.
  intros s es t o r [U Go Bo Fr Us Ub On] N. cbn. constructor; cbn.
  - exact U.
  - intro x. rewrite gone_snoc, (Go x). split; [auto|]. intros [H|H]; [exact H|discriminate].
  - intros x y. rewrite born_snoc, Bo. destruct (Nat.eq_dec x o) as [->|n].
    + rewrite upd_same. cbn. split.
      * intros [(H & _)|(t1 & H)]; [congruence|]. injection H as -> ->. auto.
      * intros (_ & <-). right. eauto.
    + rewrite upd_other by auto. split; [|auto]. intros [H|(t1 & H)]; [exact H|]. injection H as _ H _. congruence.
  - intros x. rewrite freed_snoc, Fr. destruct (Nat.eq_dec x o) as [->|n].
    + rewrite upd_same. cbn. split; [|intros (_ & H); discriminate]. intros [(H & _)|(t1 & H)]; [congruence|discriminate].
    + rewrite upd_other by auto. split; [|auto]. intros [H|(t1 & H)]; [exact H|discriminate].
  - intros x. destruct (Nat.eq_dec x o) as [->|n]; [now rewrite upd_same|rewrite upd_other by auto; auto].
  - rewrite too_late_snoc, <- Ub, !orb_true_iff, !negb_true_iff. split.
    + intros [H|[H|H]]; [now left| |].
      * right. right. exists t, o, r. split; [reflexivity|]. now apply Go.
      * right. right. exists t, o, r. split; [reflexivity|]. apply Go. destruct (r_live (res s r)) eqn:L; [|reflexivity]. apply U in L. congruence.
    + intros [H|[(x & (t1 & [H|H]) & _)|(t1 & x & y & H & K)]]; try discriminate; [now left|]. injection H as -> -> ->. right. left. now apply Go.
  - rewrite gones_snoc, app_nil_r. exact On.
Qed.

Lemma T_free : forall s es t o, T s es -> o_used (obj s o) = true -> T (fst (free t o s)) (es ++ snd (free t o s)).
Proof.
  intros s es t o [U Go Bo Fr Us Ub On] N. cbn. constructor; cbn.
  - exact U.
  - intro x. rewrite gone_snoc, (Go x). split; [auto|]. intros [H|H]; [exact H|discriminate].
  - intros x y. rewrite born_snoc, Bo. destruct (Nat.eq_dec x o) as [->|n].
    + rewrite upd_same. cbn. rewrite N. split; [|auto]. intros [H|(t1 & H)]; [auto|discriminate].
    + rewrite upd_other by auto. split; [|auto]. intros [H|(t1 & H)]; [exact H|discriminate].
  - intros x. rewrite freed_snoc, Fr. destruct (Nat.eq_dec x o) as [->|n].
    + rewrite upd_same. cbn. split; [auto|]. intros _. right. eauto.
    + rewrite upd_other by auto. split; [|auto]. intros [H|(t1 & H)]; [exact H|]. injection H as _ H. congruence.
  - intros x. destruct (Nat.eq_dec x o) as [->|n]; [now rewrite upd_same|rewrite upd_other by auto; auto].
  - rewrite too_late_snoc, <- Ub, !orb_true_iff, !negb_true_iff. split.
    + intros [H|[H|H]]; [now left| |]; right; left; exists o; (split; [exists t; now left|]).
      * left. apply Fr. auto.
      * right. exists (o_res (obj s o)). split; [now apply Bo|now apply Go].
    + intros [H|[(x & (t1 & [H|H]) & K)|(t1 & x & y & H & K)]]; try discriminate; [now left|]. injection H as -> ->. right.
      destruct K as [K|(r & K1 & K2)]; [left; now apply Fr in K|right]. apply Bo in K1 as (_ & ->). now apply Go.
  - rewrite gones_snoc, app_nil_r. exact On.
Qed.

Lemma T_use : forall s es t o, T s es -> o_used (obj s o) = true -> T (fst (use t o s)) (es ++ snd (use t o s)).
Proof.
  intros s es t o [U Go Bo Fr Us Ub On] N. cbn. constructor; cbn.
  - exact U.
  - intro x. rewrite gone_snoc, (Go x). split; [auto|]. intros [H|H]; [exact H|discriminate].
  - intros x y. rewrite born_snoc, Bo. split; [|auto]. intros [H|(t1 & H)]; [auto|discriminate].
  - intros x. rewrite freed_snoc, Fr. split; [|auto]. intros [H|(t1 & H)]; [exact H|discriminate].
  - exact Us.
  - rewrite too_late_snoc, <- Ub, !orb_true_iff, !negb_true_iff. split.
    + intros [H|[H|H]]; [now left| |]; right; left; exists o; (split; [exists t; now right|]).
      * left. apply Fr. auto.
      * right. exists (o_res (obj s o)). split; [now apply Bo|now apply Go].
    + intros [H|[(x & (t1 & [H|H]) & K)|(t1 & x & y & H & K)]]; try discriminate; [now left|]. injection H as -> ->. right.
      destruct K as [K|(r & K1 & K2)]; [left; now apply Fr in K|right]. apply Bo in K1 as (_ & ->). now apply Go.
  - rewrite gones_snoc, app_nil_r. exact On.
Qed.

Lemma T_frees : forall t os s es, T s es -> NoDup os -> (forall o, In o os -> o_used (obj s o) = true) -> T (fst (frees t os s)) (es ++ snd (frees t os s)).
Proof.
  induction os as [|a os IH]; intros s es H ND K; cbn [frees]; [cbn; now rewrite app_nil_r|].
  pose proof (T_free s es t a H (K a (or_introl eq_refl))) as H1. destruct (free t a s) as [s1 e1] eqn:E. cbn in H1. inversion ND as [|? ? NI ND']; subst.
  specialize (IH s1 (es ++ e1) H1 ND'). destruct (frees t os s1) as [s2 e2]. cbn in IH |- *. rewrite app_assoc. apply IH.
  intros o I. unfold free in E. injection E as <- _. cbn. rewrite upd_other by (intros ->; contradiction). apply K. now right.
Qed.

Lemma T_drop : forall t c s es, WQ s -> T s es -> T (fst (drop_ref t c s)) (es ++ snd (drop_ref t c s)).
Proof.
  intros t c s es Q H. unfold drop_ref. cbv zeta. destruct (_ =? 0); [|cbn; rewrite app_nil_r; eapply T_ext; eauto]. unfold destroy_ctx. cbn [queued set_refs].
  pose proof (T_frees t (queued s c) (set_refs (upd (refs s) c (refs s c - 1)) s) es) as F.
  destruct (frees t (queued s c) (set_refs (upd (refs s) c (refs s c - 1)) s)) as [s1 e]. cbn in *.
  assert (T s1 (es ++ e)) as X; [|eapply T_ext; eauto].
  apply F; [eapply T_ext; eauto|apply (q_nd s Q)|]. intros o I. apply (q_used s Q). eapply (q_live s Q); eauto.
Qed.

Lemma T_destroy : forall s es t r, T s es -> r_live (res s r) = true -> (forall x, r_live (res s x) = true -> x <> r -> r_up (res s x) <> r) ->
  T (fst (destroy_res t r s)) (es ++ snd (destroy_res t r s)).
Proof.
  intros s es t r [U Go Bo Fr Us Ub On] L N. cbn. constructor; cbn.
  - intro x. destruct (Nat.eq_dec x r) as [->|n]; [rewrite upd_same; discriminate|]. rewrite (upd_other _ _ r _ x) by auto. intros H.
    rewrite upd_other; [auto|]. now apply N.
  - intro x. rewrite gone_snoc, <- (Go x). destruct (Nat.eq_dec x r) as [->|n]; [rewrite upd_same; cbn; tauto|]. rewrite upd_other by auto. split; [auto|]. intros [H|H]; [exact H|]. congruence.
  - intros x y. rewrite born_snoc, Bo. split; [|auto]. intros [H|(t1 & H)]; [auto|discriminate].
  - intros x. rewrite freed_snoc, Fr. split; [|auto]. intros [H|(t1 & H)]; [exact H|discriminate].
  - exact Us.
  - rewrite too_late_snoc, <- Ub, (U r L). cbn. rewrite orb_false_r. split; [auto|].
    intros [H|[(x & (t1 & [H|H]) & K)|(t1 & x & y & H & K)]]; try discriminate; exact H.
  - rewrite gones_snoc. assert (X : ~ In r (gones es)) by (intro I; apply gones_In, Go in I; congruence).
    clear -On X. induction (gones es) as [|a l IH]; cbn; [constructor; [easy|constructor]|]. inversion On; subst. constructor.
    + intro I. apply in_app_or in I as [I|[->|[]]]; [contradiction|]. apply X. now left.
    + apply IH; auto. intro I. apply X. now right.
Qed.

Lemma live_up : forall s, WR s -> forall r, r_live (res s r) = true -> r_live (res s (r_up (res s r))) = true.
Proof.
  intros s W r L. destruct (Nat.eq_dec r 0) as [->|n]; [rewrite !(w0 s W); cbn; now rewrite (w0 s W)|].
  destruct (le_lt_dec (nres s) r) as [G|G]; [rewrite (wout s W r G); cbn; now rewrite (w0 s W)|]. apply (wup s W r); auto. lia.
Qed.

(** Nothing alive is below a pool that goes. *)
Lemma top_free : forall s t r, WR s -> In r (pools s t) -> (forall x, In x (pools s t) -> x <= r) -> forall x, r_live (res s x) = true -> x <> r -> r_up (res s x) <> r.
Proof.
  intros s t r W I TOP x L n E. destruct (pools_in s t r W I) as (R0 & _ & RN & _ & RO).
  destruct (Nat.eq_dec x 0) as [->|n0]; [rewrite (w0 s W) in E; cbn in E; lia|].
  destruct (le_lt_dec (nres s) x) as [G|G]; [rewrite (wout s W x G) in E; cbn in E; lia|].
  destruct (wlive s W x ltac:(lia) L) as (u & A & B). destruct (wup s W x ltac:(lia)) as (U1 & U2 & U3 & U4). rewrite E in U3.
  assert (u = t) as -> by (destruct U3; congruence). specialize (TOP x B). lia.
Qed.

Lemma T_step : forall s l s' es es', WR s -> WQ s -> T s es -> step s l = Some (s', es') -> T s' (es ++ es').
Proof.
  intros s l s' es es' W Q H K. destruct l; cbn -[Nat.ltb Nat.eqb] in K.
  - destruct (running s t) eqn:R; [|discriminate]. injection K as <- <-. rewrite app_nil_r.
    destruct H as [U Go Bo Fr Us Ub On]. pose proof (mine_ok s t _ W (def_mine s t W R)) as (DL & DS).
    assert (DN : def s t < nres s). { destruct (def_mine s t W R) as [->|I]; [apply (wn s W)|]. apply (pools_in s t _ W I). }
    constructor; auto; cbn.
    + intros r. destruct (Nat.eq_dec r (nres s)) as [->|n]; [rewrite upd_same; cbn; intros _; rewrite upd_other by lia; exact DL|].
      rewrite (upd_other _ _ _ _ r) by auto. intro L. destruct (Nat.eq_dec (r_up (res s r)) (nres s)) as [->|n']; [now rewrite upd_same|rewrite upd_other by auto; auto].
    + intros r. rewrite <- Go. destruct (Nat.eq_dec r (nres s)) as [->|n]; [|now rewrite upd_other]. rewrite upd_same. rewrite (wout s W (nres s)) by lia. cbn. tauto.
  - destruct (running s t) eqn:R; [|discriminate]. destruct (scopes s t) as [|x l] eqn:E; [discriminate|]. unfold run_leave in K.
    assert (IX : In x (scopes s t)) by (rewrite E; now left).
    pose proof (T_drop t (s_res x) s es Q H) as H1. pose proof (same_drop_ref t (s_res x) s) as SM. destruct (drop_ref t (s_res x) s) as [s1 e1]. cbn [fst snd] in *.
    unfold seq2 in K. set (s2 := set_scope t (s_prev x) l s1) in *.
    assert (W1 := WR_same _ _ SM W). destruct SM as [R1 R2 R3 R4 R5 R6].
    assert (H2 : T s2 (es ++ e1)) by (eapply T_ext; eauto).
    destruct (pools_in s t _ W (scope_res s t x W IX)) as (_ & _ & XN & XL & XO).
    pose proof (T_destroy s2 (es ++ e1) t (s_res x) H2) as H3. cbn -[destroy_res] in H3. rewrite R1 in H3. specialize (H3 XL).
    destruct (destroy_res t (s_res x) s2) as [s3 e3]. injection K as <- <-. rewrite app_assoc. apply H3.
    apply (top_free s t); auto; [now apply scope_res|]. intros y I. rewrite pools_eq, E in I. cbn in I. destruct I as [<-|I]; [lia|].
    pose proof (wstk s W t) as SK. rewrite E in SK. cbn in SK. destruct SK as (A & B & _ & _ & F). destruct (stk_in s t W _ _ _ F I) as (_ & Z & _). lia.
  - destruct (running s t && negb (o_used (obj s o))) eqn:R; [|discriminate]. destruct (ph s t') eqn:Ph; try discriminate. injection K as <- <-.
    apply andb_true_iff in R as (_ & U0). apply negb_true_iff in U0. pose proof (T_alloc s es t o 0 H U0) as H1. cbn in H1. cbn.
    destruct H1 as [U Go Bo Fr Us Ub On]. constructor; auto; cbn in *.
    + intros r. destruct (Nat.eq_dec r (nres s)) as [->|n]; [rewrite upd_same; cbn; intros _; pose proof (wn s W); rewrite upd_other by lia; now rewrite (w0 s W)|].
      rewrite (upd_other _ _ _ _ r) by auto. intro L. destruct (Nat.eq_dec (r_up (res s r)) (nres s)) as [->|n']; [now rewrite upd_same|rewrite upd_other by auto; auto].
    + intros r. rewrite <- Go. destruct (Nat.eq_dec r (nres s)) as [->|n]; [|now rewrite upd_other]. rewrite upd_same. rewrite (wout s W (nres s)) by lia. cbn. tauto.
  - destruct (ph s t') eqn:Ph; try discriminate. destruct (boot s (tres s t')) as [b|] eqn:B; [|discriminate]. destruct (stopped s t'); [discriminate|]. injection K as K.
    assert (M : made (ph s t') = true) by now rewrite Ph.
    pose proof (c_th s Q t' M) as RF. rewrite Ph, B in RF. cbn in RF.
    unfold drop_ref in K. cbv zeta in K. cbn [refs set_refs set_boot] in K. rewrite upd_same in K. destruct (Nat.eqb_spec (refs s (tres s t') - 1) 0); [lia|]. injection K as <- <-.
    rewrite app_nil_r. eapply T_ext; eauto.
  - destruct (running s t && held s t'); [|discriminate]. injection K as <- <-. rewrite app_nil_r. eapply T_ext; eauto.
  - destruct (running s t && held s t') eqn:R; [|discriminate]. injection K as K.
    assert (X : forall s0 e0, drop_ref t (tres s t') (set_held t' false s) = (s0, e0) -> T s0 (es ++ e0)); [|now apply X].
    intros s0 e0 E. unfold drop_ref in E. cbv zeta in E. destruct (_ =? 0); [|injection E as <- <-; rewrite app_nil_r; eapply T_ext; eauto].
    unfold destroy_ctx in E. cbn [queued set_refs set_held] in E.
    match type of E with context [frees t ?q ?z] => pose proof (T_frees t q z es) as F; destruct (frees t q z) as [s1 e1] end. cbn in F. injection E as <- <-.
    assert (T s1 (es ++ e1)) as Y; [|eapply T_ext; eauto]. apply F; [eapply T_ext; eauto|apply (q_nd s Q)|]. intros o I. apply (q_used s Q). eapply (q_live s Q); eauto.
  - destruct (ph s t') eqn:Ph; try discriminate. destruct (is_nil (scopes s t') && may_leave s t' w); [|discriminate]. injection K as <- <-. rewrite app_nil_r. eapply T_ext; eauto.
  - destruct (ph s t') eqn:Ph; try discriminate. injection K as K.
    assert (X : forall s0 e0, drop_ref t' (tres s t') (set_ph t' Dropped s) = (s0, e0) -> T s0 (es ++ e0)); [|now apply X].
    intros s0 e0 E. unfold drop_ref in E. cbv zeta in E. destruct (_ =? 0); [|injection E as <- <-; rewrite app_nil_r; eapply T_ext; eauto].
    unfold destroy_ctx in E. cbn [queued set_refs set_ph] in E.
    match type of E with context [frees t' ?q ?z] => pose proof (T_frees t' q z es) as F; destruct (frees t' q z) as [s1 e1] end. cbn in F. injection E as <- <-.
    assert (T s1 (es ++ e1)) as Y; [|eapply T_ext; eauto]. apply F; [eapply T_ext; eauto|apply (q_nd s Q)|]. intros o I. apply (q_used s Q). eapply (q_live s Q); eauto.
  - destruct (ph s t') eqn:Ph; try discriminate. injection K as <- <-.
    assert (LB : lib (ph s t') = true) by now rewrite Ph. destruct (wth s W t' LB) as (TN & TR).
    assert (SC : scopes s t' = []) by (apply (wnil s W); unfold running; now rewrite Ph).
    assert (PQ : pools s t' = [tres s t']) by (unfold pools; now rewrite SC, Ph).
    assert (H2 : T (set_ph t' Ended s) es) by (eapply T_ext; eauto).
    pose proof (T_destroy _ _ t' (tres s t') H2) as H3. cbn -[destroy_res] in H3. rewrite TR in H3. specialize (H3 eq_refl).
    apply H3.
    apply (top_free s t'); auto; rewrite PQ; [now left|]. intros y [<-|[]]. lia.
  - destruct (running s t && negb (o_used (obj s o))) eqn:R; [|discriminate]. injection K as <- <-. apply andb_true_iff in R as (R & U). apply negb_true_iff in U. exact (T_alloc s es t o _ H U).
  - destruct (running s t && negb (o_used (obj s o)) && (r <? nres s)) eqn:R; [|discriminate]. injection K as <- <-. apply andb_true_iff in R as (R & _). apply andb_true_iff in R as (R & U). apply negb_true_iff in U. exact (T_alloc s es t o _ H U).
  - destruct (running s t && negb (o_used (obj s o')) && o_used (obj s o) && negb (is_queued s o)) eqn:R; [|discriminate].
    apply andb_true_iff in R as (R & NQ). apply andb_true_iff in R as (R & U'). apply andb_true_iff in R as (_ & U). apply negb_true_iff in U, NQ.
    assert (OO : o <> o') by congruence.
    pose proof (T_alloc s es t o' 0 H U) as H1. 
    assert (X1 : o_used (obj (fst (alloc t o' 0 s)) o) = true) by (cbn; rewrite upd_other by auto; exact U').
    pose proof (T_use _ _ t o H1 X1) as H2.
    pose proof (T_free _ _ t o H2 X1) as H3. cbn in H3. injection K as <- <-. rewrite <- !app_assoc in H3. exact H3.
  - destruct (running s t && o_live (obj s o) && negb (is_queued s o) && (0 <? c) && (c <? nres s) && negb (refs s c =? 0)) eqn:R; [|discriminate]. injection K as <- <-. rewrite app_nil_r. eapply T_ext; eauto.
  - destruct (running s t && mem o (queued s c)); [|discriminate]. injection K as <- <-. rewrite app_nil_r. eapply T_ext; eauto.
  - destruct (running s t && o_used (obj s o) && negb (is_queued s o)) eqn:R; [|discriminate]. injection K as <- <-. apply andb_true_iff in R as (R & _). apply andb_true_iff in R as (_ & U). exact (T_free s es t o H U).
  - destruct (running s t && o_used (obj s o)) eqn:R; [|discriminate]. injection K as <- <-. apply andb_true_iff in R as (_ & U). exact (T_use s es t o H U).
Qed.

Lemma T_init : T init [].
Proof.
  constructor; cbn; auto; try discriminate.
  - intro r. unfold gone. cbn. split; [discriminate|tauto].
  - intros o r. unfold born. cbn. split; [intros (t & [])|intros (H & _); discriminate].
  - intros o. unfold freed. cbn. split; [intros (t & [])|intros (H & _); discriminate].
  - split; [discriminate|]. intros (a & e & b & E & _). destruct a; discriminate.
  - constructor.
Qed.

Lemma reach_T : forall ls s es, run init ls = Some (s, es) -> T s es.
Proof.
  induction ls as [|l ls IH] using rev_ind; intros s es H.
  - injection H as <- <-. apply T_init.
  - destruct (run_app _ _ _ _ _ H) as (s1 & e1 & e2 & H1 & H2 & ->). cbn in H2. destruct (step s1 l) as [[s2 e3]|] eqn:E; [|discriminate]. injection H2 as <- <-.
    rewrite app_nil_r. destruct (reach_W _ _ _ H1) as (W & Q). eapply T_step; eauto.
Qed.
