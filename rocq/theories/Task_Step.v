(** Every correct step keeps the invariants; whole-run consequences. *)
From Coq Require Import List Bool Arith Lia.
From Verif Require Import Task_Model Task_Spec Task_Inv.
Import ListNotations.

Section Step.
Context {V E : Type}.
Notation event := (event V E).
Notation state := (state V E).
Notation view := (view V E).

Fixpoint Pall (a ev : list event) : Prop :=
  match ev with [] => True | e :: t => P a e /\ Pall (a ++ [e]) t end.
Lemma Pall_app a x y : Pall a (x ++ y) <-> Pall a x /\ Pall (a ++ x) y.
Proof.
  revert a. induction x as [|e x IH]; intros a; cbn; [rewrite app_nil_r; tauto|].
  rewrite IH, <- app_assoc. cbn. tauto.
Qed.
Lemma view_app (a b : list event) : view_of (a ++ b) = fold_left observe b (view_of a).
Proof. apply fold_left_app. Qed.

Lemma not_queued (s : state) (v : view) c h : INV s v -> rec (co s c) = Some h -> cs (co s c) = Returning -> forall d, cs (co s d) = Queued -> rec (co s d) <> Some h.
Proof.
  intros I R C d Cd Rd. destruct (rec_live _ _ _ _ I R) as (_ & O & _). destruct (rec_live _ _ _ _ I Rd) as (_ & O' & _). congruence.
Qed.

(** final_suspend of [c], in a state [s] where it is [Returning]; the state [s0] of
    the code may differ from it in the record of [c]. *)
Lemma final_ok (s s0 : state) (a : list event) c : INV s (view_of a) -> cs (co s c) = Returning ->
  hs s0 = hs s -> ws s0 = ws s -> rec (co s0 c) = rec (co s c) -> (forall d, d <> c -> co s0 d = co s d) ->
  exists s1 ev, final c s0 = (s1, ev) /\ INV s1 (view_of (a ++ ev)) /\ Pall a ev.
Proof.
  intros I C Eh Ew Er Ec. unfold final. rewrite Er.
  assert (X : forall b, upd (co s0) c (mkC Dead None) b = upd (co s) c (mkC Dead None) b).
  { intros b. unfold upd. destruct (Nat.eqb_spec b c); auto. }
  destruct (rec (co s c)) as [h|] eqn:R.
  - destruct (rec_live _ _ _ _ I R) as (L & O & F).
    assert (L0 : live s0 h = true) by (unfold live in *; now rewrite Eh). rewrite L0, Eh.
    destruct (aw (hs s h)) as [w|] eqn:A.
    + destruct (ia _ _ I _ _ A) as [W|W].
      * pose proof (iw _ _ I w) as Ww. unfold WI in Ww. rewrite W in Ww. destruct Ww as (_ & _ & Ww & _).
        pose proof (leave_INV s _ h w WIdle I A (not_queued _ _ _ _ I R C) (or_introl eq_refl)) as I1.
        pose proof (dead_INV _ _ c I1) as I2. cbn -[upd] in I2. specialize (I2 C).
        assert (I3 : INV (set_c c (mkC Dead None) (set_w w WIdle (set_h h (set_aw None (hs s h)) s))) (v_over c (v_waits w None (view_of a)))).
        { apply I2. intros k K. rewrite R in K. injection K as <-. now rewrite upd_eq. }
        unfold resume. cbn -[upd get_result]. rewrite Ew, W.
        assert (L1 : live (set_h h (set_aw None (hs s h)) (set_c c (mkC Dead None) s0)) h = true).
        { unfold live in *. cbn -[upd]. rewrite upd_eq. cbn. exact L. }
        rewrite L1.
        set (t0 := set_w w WIdle _).
        assert (I4 : INV t0 (v_over c (v_waits w None (view_of a)))).
        { eapply INV_ext; [exact I3|..]; intros b; unfold t0; cbn -[upd]; rewrite ?Eh, ?Ew; auto. }
        assert (Q1 : done (hs t0 h) = true /\ empty t0 h = false).
        { pose proof (rec_owned _ _ _ _ I R) as Q. unfold Owned in Q. rewrite C in Q.
          destruct Q as [(_ & _ & _ & _ & _ & [])|(Q1 & Q2 & _)].
          unfold t0, empty. cbn -[upd]. rewrite upd_eq. cbn. split; auto. rewrite Q1. cbn.
          destruct (fate (view_of a) c) as [[]|]; [destruct Q2 as [-> [[-> _]|[-> _]]]; auto|rewrite Q2; auto|rewrite Q2; auto|contradiction]. }
        destruct Q1 as [Q1 Q2].
        assert (L2 : live t0 h = true) by exact L1.
        destruct (give_INV t0 _ h I4 L2 Q1 Q2) as (s1 & r & G & I5 & An).
        rewrite G. exists s1, [EFinal c; EResult w h r]. split; auto.
        cbn -[upd] in An. rewrite O in An. split.
        -- rewrite view_app. cbn -[upd]. eapply INV_vext; [exact I5|..]; unfold v_give; cbn -[upd]; rewrite O; destruct r as [[]|]; auto.
        -- cbn -[upd]. rewrite view_app. cbn -[upd]. rewrite O. auto 10.
      * unfold resume. cbn -[upd]. rewrite Ew, W.
        eexists; exists [EFinal c]. split; [reflexivity|]. rewrite view_app. cbn -[upd]. split; [|auto].
        eapply INV_ext; [apply (post_INV s _ c h w I C R A W)|..]; auto; cbn -[upd]; intros; rewrite ?Eh, ?Ew; auto.
    + eexists; exists [EFinal c]. split; [reflexivity|]. rewrite view_app. cbn -[upd]. split; [|auto].
      eapply INV_ext; [apply (dead_INV s _ c I C)|..]; auto; cbn -[upd]; intros; try congruence.
  - eexists; exists [EFinal c]. split; [reflexivity|]. rewrite view_app. cbn -[upd]. split; [|auto].
    eapply INV_ext; [apply (dead_INV s _ c I C)|..]; auto; cbn -[upd]; intros; try congruence.
Qed.

(** A started or queued coroutine is destroyed. *)
Lemma destroyed_ok (s : state) (a : list event) c e s' ev : INV s (view_of a) -> cs (co s c) = Running /\ e = EKill c \/ cs (co s c) = Queued /\ e = EDiscard c ->
  destroyed c e s = Some (s', ev) -> INV s' (view_of (a ++ ev)) /\ Pall a ev.
Proof.
  intros I C H. unfold destroyed in H. rewrite view_app.
  assert (Pe : P a e).
  { destruct C as [[C ->]|[C ->]]; cbn; auto. pose proof (ic _ _ I c) as Hc. unfold CI in Hc. rewrite C in Hc. tauto. }
  assert (Ve : observe (view_of a) e = v_over c (v_fate c FKill (view_of a))) by (destruct C as [[_ ->]|[_ ->]]; reflexivity).
  assert (C' : cs (co s c) = Running \/ cs (co s c) = Queued) by tauto.
  destruct (running_fate s _ c I) as (B1 & B2 & B3 & B4); [tauto|].
  destruct (rec (co s c)) as [h|] eqn:R.
  - destruct (rec_live _ _ _ _ I R) as (L & O & Rf). rewrite L in H.
    pose proof (rec_owned _ _ _ _ I R) as Q. unfold Owned in Q. rewrite B2 in Q.
    destruct Q as [(D & X1 & X2 & _)|Q]; [|tauto]. rewrite D, X1 in H.
    pose proof (end_INV s _ c h FKill (Some XUnexpected) (res (hs s h)) I C' R eq_refl) as I1. cbn zeta in I1.
    set (s1 := set_h h _ _) in I1.
    assert (C1 : cs (co s1 c) = Returning) by (unfold s1; cbn -[upd]; now rewrite upd_eq).
    assert (R1 : rec (co s1 c) = Some h) by (unfold s1; cbn -[upd]; now rewrite upd_eq).
    destruct (aw (hs s h)) as [w|] eqn:A; cbn -[upd] in H; injection H as <- <-; cbn -[upd observe].
    + split; [|split; auto; split; auto; cbn; exists a, c; destruct C as [[_ ->]|[_ ->]]; auto].
      assert (A1 : aw (hs s1 h) = Some w) by (unfold s1; cbn -[upd]; now rewrite upd_eq).
      pose proof (leave_INV s1 _ h w WKilled I1 A1 (not_queued _ _ _ _ I1 R1 C1) (or_intror eq_refl)) as I2.
      assert (I3 := dead_INV _ _ c I2). cbn -[upd] in I3. unfold s1 in I3. cbn -[upd] in I3. rewrite !upd_eq in I3.
      specialize (I3 eq_refl). match type of I3 with ?X -> _ => assert (J : X) end.
      { intros ? [= <-]. now rewrite upd_eq. }
      specialize (I3 J). rewrite Ve.
      eapply INV_ext; [exact I3|..]; cbn -[upd]; auto; intros d.
      * destruct (Nat.eq_dec d h) as [->|n]; rewrite ?upd_eq, ?(upd_ne _ _ _ _ n) in *; auto.
      * destruct (Nat.eq_dec d c) as [->|n]; rewrite ?upd_eq, ?(upd_ne _ _ _ _ n) in *; auto.
    + split; [|auto]. rewrite Ve.
      assert (I3 := dead_INV _ _ c I1). unfold s1 in I3. cbn -[upd] in I3. rewrite !upd_eq in I3. specialize (I3 eq_refl).
      match type of I3 with ?X -> _ => assert (J : X) end.
      { intros ? [= <-]. now rewrite upd_eq. }
      specialize (I3 J).
      eapply INV_ext; [exact I3|..]; cbn -[upd]; auto; intros d.
      destruct (Nat.eq_dec d c) as [->|n]; rewrite ?upd_eq, ?(upd_ne _ _ _ _ n) in *; auto.
  - injection H as <- <-. cbn -[upd observe]. split; [|auto]. rewrite Ve.
    destruct C as [[C _]|[C _]].
    + assert (I1 := end_none_INV s _ c FKill I C R).
      eapply INV_ext; [apply (dead_INV _ _ c I1)|..]; cbn -[upd]; rewrite ?upd_eq; auto; try discriminate.
      intros d. destruct (Nat.eq_dec d c) as [->|n]; rewrite ?upd_eq, ?(upd_ne _ _ _ _ n) in *; auto.
    + pose proof (ic _ _ I c) as Hc. unfold CI in Hc. rewrite C in Hc. tauto.
Qed.

Lemma noaw (s : state) h : awaited s h = false -> aw (hs s h) = None.
Proof. unfold awaited. destruct (aw (hs s h)); auto. discriminate. Qed.

(** A coroutine whose start was dispatched belongs to a spawn. *)
Definition QS (s : state) : Prop := forall c h, cs (co s c) = Queued -> rec (co s c) = Some h -> priv (hs s h) <> None.

Lemma step_QS (s : state) l s' ev v : INV s v -> QS s -> ok s l = true -> step l s = Some (s', ev) -> QS s'.
Proof.
  intros I Q K H.
  assert (NA : forall c h, rec (co s c) = Some h -> absent s h = false).
  { intros c h R. apply (rec_live _ _ _ _ I) in R as [L _]. unfold live, absent in *. destruct (life_of (hs s h)); auto. }
  assert (NQ : forall c h, cs (co s c) = Queued -> pr (hs s h) = Some c -> user s h = true -> done (hs s h) = false -> False).
  { intros c h C F U D. destruct (user_live _ _ U) as [L Pv].
    destruct (undone_cases s _ h I L D) as (c' & F' & O & X1 & X2 & X4 & X5 & X6). rewrite F in F'. injection F' as <-.
    now apply (Q c h C X4). }
  assert (NX : forall h e, user s h = true -> done (hs s h) = false -> exc (hs s h) = Some e -> False).
  { intros h e U D X. destruct (user_live _ _ U) as [L Pv].
    destruct (undone_cases s _ h I L D) as (c' & F' & O & X1 & _). congruence. }
  intros d k.
  destruct l; cbn -[upd] in H; unfold final, destroyed, transfer, resume, get_result, kill_w in H; cbn -[upd] in H;
  repeat (match type of H with context [match ?x with _ => _ end] => match x with context [match _ with _ => _ end] => fail 1 | _ => destruct x eqn:? end end; cbn -[upd] in H; rewrite ?upd_eq in H; cbn -[upd] in H; try discriminate H);
  injection H as <- <-; cbn -[upd]; specialize (Q d); repeat (progress (rewrite ?andb_true_iff in *; cbn -[upd] in *));
  repeat match goal with H : _ /\ _ |- _ => destruct H end;
  unfold upd; repeat match goal with |- context [?a =? ?b] => destruct (Nat.eqb_spec a b); subst; cbn end; intros; try discriminate; try (apply Q; auto; congruence);
  try match goal with R : rec (co s _) = Some _ |- _ => apply NA in R; congruence end; try congruence; try (exfalso; eapply NQ; eassumption); try (exfalso; eapply NX; eassumption).
Qed.

Theorem step_ok (s : state) l s' ev (a : list event) : INV s (view_of a) -> QS s -> ok s l = true -> step l s = Some (s', ev) -> INV s' (view_of (a ++ ev)) /\ Pall a ev.
Proof.
  intros I QQ K H. rewrite ?view_app. destruct l; cbn -[upd get_result final transfer kill_w destroyed] in H.
  - (* create *)
    destruct (cs (co s c)) eqn:C; try discriminate. destruct (absent s h) eqn:A; [|discriminate]. injection H as <- <-.
    split; [|cbn; auto]. apply create_INV; auto. now apply absent_not_live.
  - (* noop *)
    destruct (cs (co s c)) eqn:C; try discriminate. destruct (absent s h) eqn:A; [|discriminate]. injection H as <- <-.
    apply absent_not_live in A.
    pose proof (ih _ _ I h) as Hh. unfold HI in Hh. rewrite A in Hh. destruct Hh as [Ho Ha].
    pose proof (ic _ _ I c) as Hc. unfold CI in Hc. rewrite C in Hc. destruct Hc as ((C1 & C2 & C3 & C4 & C5 & C6 & C9) & C7 & C8).
    split; [|cbn; rewrite view_app; cbn; auto]. cbn -[upd].
    split.
    + intros k. pose proof (ih _ _ I k) as Q. unfold HI, Owned, Free, live in *. cbn -[upd] in *.
      destruct (Nat.eq_dec k h) as [->|n]; rewrite ?upd_eq, ?(upd_ne _ _ _ _ n) in *; cbn -[upd] in *; rewrite ?upd_eq; auto.
      * right. split; auto. split; auto. discriminate.
      * destruct (match life_of (hs s k) with Live => true | _ => false end); auto.
        destruct (own (view_of a) k) as [d|] eqn:Od; auto.
        destruct (Nat.eq_dec d c) as [->|n']; rewrite ?upd_eq, ?(upd_ne _ _ _ _ n') in *; auto. now elim (C6 k).
    + intros d. pose proof (ic _ _ I d) as Q. unfold CI, live in *. cbn -[upd] in *.
      destruct (Nat.eq_dec d c) as [->|n]; rewrite ?upd_eq, ?(upd_ne _ _ _ _ n) in *; cbn -[upd] in *.
      * repeat split; auto; try discriminate.
      * destruct Q as (Q1 & Q2 & Q3). split; [|split]; auto.
        -- destruct (cs (co s d)); auto. destruct Q1 as (? & ? & ? & ? & ? & Q1 & ?). repeat split; auto.
           intros k. destruct (Nat.eq_dec k h) as [->|n']; rewrite ?upd_eq, ?(upd_ne _ _ _ _ n'); auto. congruence.
        -- intros k Kk. destruct (Q3 k Kk) as (Z1 & Z2 & Z3). assert (n' : k <> h) by congruence. rewrite !(upd_ne _ _ _ _ n'). auto.
    + intros w. pose proof (iw _ _ I w) as Q. unfold WI, live in *. cbn -[upd] in *.
      destruct (ws s w) as [|k|k|k| |]; auto; assert (n : k <> h) by (intros ->; destruct Q as [Q _]; congruence); rewrite !(upd_ne _ _ _ _ n); auto.
      destruct Q as (? & ? & ? & ? & ? & Q & ?). repeat split; auto; try tauto.
      intros d. destruct (Nat.eq_dec d c) as [->|n']; rewrite ?upd_eq, ?(upd_ne _ _ _ _ n'); auto. discriminate.
    + intros k w. cbn -[upd]. destruct (Nat.eq_dec k h) as [->|n']; rewrite ?upd_eq, ?(upd_ne _ _ _ _ n') in *; [discriminate|]. apply (ia _ _ I).
    + intros k k' d. cbn -[upd]. destruct (Nat.eq_dec k h) as [->|n]; destruct (Nat.eq_dec k' h) as [->|n']; rewrite ?upd_eq, ?(upd_ne _ _ _ _ n), ?(upd_ne _ _ _ _ n'); auto.
      * intros [= <-] Z. now elim (C6 k').
      * intros Z [= <-]. now elim (C6 k).
      * apply (ii _ _ I).
    + exact (ig _ _ I).
    + exact (il _ _ I).
  - (* begin *)
    destruct (cs (co s c)) eqn:C; try discriminate. injection H as <- <-. split; [apply begin_INV; auto|].
    pose proof (ic _ _ I c) as Hc. unfold CI in Hc. rewrite C in Hc. cbn. tauto.
  - (* drop *)
    destruct (cs (co s c)) eqn:C; try discriminate. rewrite <- view_app. eapply destroyed_ok; eauto.
  - (* return *)
    destruct (cs (co s c)) eqn:C; try discriminate.
    destruct (running_fate s _ c I) as (B1 & B2 & B3 & B4); [tauto|].
    destruct (rec (co s c)) as [h|] eqn:R.
    + destruct (rec_live _ _ _ _ I R) as (L & _). rewrite L in H. injection H as <- <-. split; [|cbn; auto].
      cbn -[upd]. apply end_INV; auto. cbn. split; auto.
      pose proof (rec_owned _ _ _ _ I R) as Q. unfold Owned in Q. rewrite B2 in Q. tauto.
    + injection H as <- <-. split; [|cbn; auto]. cbn -[upd]. apply end_none_INV; auto.
  - (* throw *)
    destruct (cs (co s c)) eqn:C; try discriminate.
    destruct (running_fate s _ c I) as (B1 & B2 & B3 & B4); [tauto|].
    destruct (rec (co s c)) as [h|] eqn:R.
    + destruct (rec_live _ _ _ _ I R) as (L & _). rewrite L in H.
      set (y := mkH _ _ _ _ _ _ _) in H.
      assert (I1 : INV (set_h h y (set_c c (mkC Returning (Some h)) s)) (view_of (a ++ [EThrow c e]))).
      { rewrite view_app. cbn -[upd]. apply end_INV; auto. reflexivity. }
      destruct (final_ok _ (set_h h y s) _ c I1) as (s1 & ev1 & F & I2 & P2); auto; cbn -[upd]; rewrite ?upd_eq; auto.
      { intros d n. now rewrite (upd_ne _ _ _ _ n). }
      rewrite F in H. injection H as <- <-. rewrite <- app_assoc in I2. rewrite view_app in I2. split; auto. cbn. auto.
    + injection H as <- <-. cbn -[upd].
      assert (I1 := end_none_INV s _ c (FThrow e) I C R).
      split.
      * eapply INV_ext; [apply (leak_INV _ _ c e I1)|..]; cbn -[upd]; rewrite ?upd_eq; auto.
        intros d. destruct (Nat.eq_dec d c) as [->|n]; rewrite ?upd_eq, ?(upd_ne _ _ _ _ n) in *; auto.
      * split; auto. split; auto. intros h O. rewrite view_app in O. cbn in O.
        pose proof (ih _ _ I h) as Q. unfold HI, Owned in Q. rewrite O in Q. destruct (live s h); [|destruct Q; discriminate].
        rewrite B2 in Q. destruct Q as [Q|Q]; [|tauto]. destruct Q as (_ & _ & _ & Q & _). congruence.
  - (* final *)
    destruct (cs (co s c)) eqn:C; try discriminate.
    destruct (final_ok s s a c I C) as (s1 & ev1 & F & I2 & P2); auto. rewrite F in H. injection H as <- <-.
    rewrite view_app in I2. auto.
  - (* kill *)
    destruct (cs (co s c)) eqn:C; try discriminate. rewrite <- view_app. eapply destroyed_ok; eauto.
  - (* await *)
    destruct (ws s w) eqn:W; try discriminate. destruct (user s h) eqn:U; [|discriminate]. destruct (user_live _ _ U) as [L Pv].
    cbn in K. apply andb_true_iff in K as [K1 K2]. apply negb_true_iff in K2.
    destruct (done (hs s h)) eqn:D.
    + destruct (get_result h s) as [s1 r] eqn:G. injection H as <- <-.
      destruct (give_INV s _ h I L D K2) as (s2 & r2 & G2 & I2 & An). rewrite G in G2. injection G2 as <- ->.
      assert (Own : forall v : view, own (v_asked h v) = own v) by (intros v; unfold v_asked; destruct (own v h) eqn:?; auto).
      cbn -[upd]. split.
      * eapply INV_vext; [exact I2|..]; unfold v_give, v_asked; cbn -[upd]; intros; destruct (own (view_of a) h) eqn:O; cbn -[upd] in *; rewrite ?O; destruct r2 as [[]|]; cbn -[upd] in *; auto;
          try (pose proof (iw _ _ I w) as Z; unfold WI in Z; rewrite W in Z; let nn := fresh in destruct (Nat.eq_dec w0 w) as [->|nn]; rewrite ?upd_eq, ?(upd_ne _ _ _ _ nn), ?(upd_ne _ _ _ _ nn); [symmetry|]; tauto);
          try (destruct (Nat.eq_dec c n) as [->|n']; rewrite ?upd_eq, ?(upd_ne _ _ _ _ n'); auto; fail).
      * split; auto. split; auto. rewrite view_app. cbn -[upd]. rewrite upd_eq, Own. split; auto. unfold v_asked.
        destruct (own (view_of a) h) eqn:O; auto; rewrite ?O; auto.
    + cbn in K1. unfold unstarted in K1. destruct (pr (hs s h)) as [c|] eqn:F; [|discriminate].
      destruct (cs (co s c)) eqn:C; try discriminate.
      destruct (ready_cases s _ h c I L D F) as (O & X1 & X2 & X4 & X5 & A). rewrite C in A. rewrite A in H. cbn -[upd] in H. injection H as <- <-.
      cbn -[upd]. split; [apply await_INV; auto|]. split; auto. split; auto.
      rewrite view_app. cbn -[upd]. unfold v_asked. rewrite O. cbn -[upd]. rewrite upd_eq.
      pose proof (ic _ _ I c) as Hc. unfold CI in Hc. rewrite C in Hc. tauto.
  - (* spawn *)
    destruct (ws s w) eqn:W; try discriminate. destruct (absent s g) eqn:Ab; [|discriminate]. destruct (user s h) eqn:U; [|discriminate].
    cbn -[transfer kill_w] in H. destruct (user_live _ _ U) as [L Pv]. apply absent_not_live in Ab.
    cbn in K. rewrite !andb_true_iff, !negb_true_iff in K. destruct K as ((K1 & K2) & K3 & K4). apply noaw in K3.
    destruct (transfer_INV s _ (Some w) g h I Ab L K3 K4 Pv) as (s1 & T & I1 & Hg & Hw & Hc & NR). rewrite T in H.
    assert (Lg : live s1 g = true) by (unfold live; now rewrite Hg).
    assert (W1 : ws s1 w = WIdle) by now rewrite Hw.
    assert (VA : forall s2, INV s2 (v_waits w (Some g) (v_asked g (v_move g h (view_of a)))) -> INV s2 (v_waits w (Some g) (v_move g h (v_asked h (view_of a))))).
    { intros s2 J. assert (Ngh : g <> h) by (intros ->; congruence).
      assert (Og : own (v_move g h (view_of a)) g = own (view_of a) h) by (cbn -[upd]; rewrite (upd_ne _ _ _ _ Ngh); apply upd_eq).
      unfold v_asked in *. rewrite Og in J. destruct (own (view_of a) h) as [c|] eqn:O; [|exact J].
      eapply INV_vext; [exact J|..]; cbn -[upd]; intros; rewrite ?O; auto. }
    assert (VB : forall s2, INV s2 (v_waits w (Some g) (v_move g h (view_of a))) -> INV s2 (v_waits w (Some g) (v_move g h (v_asked h (view_of a))))).
    { intros s2 J. apply VA. eapply INV_vext; [exact J|..]; unfold v_asked; intros; destruct (own (v_move g h (view_of a)) g); cbn -[upd]; auto.
      destruct (Nat.eq_dec c n) as [->|n']; rewrite ?upd_eq, ?(upd_ne _ _ _ _ n'); auto. }
    rewrite Hg in H. cbn -[upd kill_w] in H.
    destruct (done (hs s h)) eqn:D.
    + assert (X : INV (set_w w (WPosted g) s1) (v_waits w (Some g) (v_move g h (view_of a)))).
      { apply postdone_INV; auto; rewrite ?Hg; auto. unfold empty in *. rewrite Hg. cbn. rewrite D in K2. exact K2. }
      unfold empty in K2. rewrite D in K2. cbn in K2.
      destruct (exc (hs s h)) as [e|]; [injection H as <- <-; split; [apply VB; exact X|cbn; auto]|].
      destruct (res (hs s h)) as [e|]; [injection H as <- <-; split; [apply VB; exact X|cbn; auto]|discriminate].
    + cbn in K1. unfold unstarted in K1. destruct (pr (hs s h)) as [c|] eqn:F; [|discriminate].
      destruct (cs (co s c)) eqn:C; try discriminate.
      assert (C1 : cs (co s1 c) = Ready) by now rewrite Hc. rewrite C1 in H. cbn -[upd] in H. injection H as <- <-.
      split; [|cbn; auto]. cbn -[upd]. apply VA.
      pose proof (queue_INV s1 _ w g c I1 Lg) as Z. rewrite Hg in Z. cbn -[upd] in Z.
      specialize (Z eq_refl eq_refl eq_refl C1 W1). exact Z.
  - (* handler *)
    destruct (ws s w) as [| | |h| |] eqn:W; try discriminate.
    pose proof (iw _ _ I w) as Z. unfold WI in Z. rewrite W in Z. destruct Z as (L & D & A & Pv & Ne & NR & Wt & Cl).
    rewrite L in H. injection H as <- <-.
    assert (M : empty s h = false).
    { unfold empty. rewrite D. destruct (exc (hs s h)); auto. destruct (res (hs s h)); auto. destruct Ne; congruence. }
    destruct (give_INV s _ h I L D M) as (s2 & r2 & G2 & I2 & An).
    assert (Er : match exc (hs s h) with Some e => RExc e | None => match res (hs s h) with Some v => RVal v | None => RVal Default end end = r2).
    { unfold get_result in G2. rewrite D in G2. destruct (exc (hs s h)); [congruence|]. destruct (res (hs s h)); congruence. }
    rewrite Er. split.
    + assert (W2 : ws s2 w = WPosted h).
      { unfold get_result in G2. rewrite D in G2. destruct (exc (hs s h)); [injection G2 as <- _; auto|]. destruct (res (hs s h)); injection G2 as <- _; auto. }
      pose proof (handler_INV s2 _ w h I2 W2) as I3.
      assert (EX : INV (set_w w WOver (set_h h (set_life Gone (hs s h)) s)) (v_called w (v_waits w None (v_own (upd (own (v_give h r2 (view_of a))) h None) (v_give h r2 (view_of a)))))).
      { (* the contents of a destroyed handle do not matter *)
        assert (Eq : co s2 = co s /\ ws s2 = ws s /\ (forall k, k <> h -> hs s2 k = hs s k)).
        { unfold get_result in G2. rewrite D in G2. destruct (exc (hs s h)); [injection G2 as <- _; auto|].
          destruct (res (hs s h)); injection G2 as <- _; auto. cbn -[upd]. repeat split; auto. intros k n. apply upd_ne; auto. }
        destruct Eq as (E1 & E2 & E3).
        split; intros.
        - pose proof (ih _ _ I3 h0) as Q. unfold HI, Owned, Free, live in *. cbn -[upd] in *.
          destruct (Nat.eq_dec h0 h) as [->|n]; rewrite ?upd_eq, ?(upd_ne _ _ _ _ n) in *; cbn -[upd] in *; [tauto|].
          rewrite (E3 _ n) in Q. rewrite E1 in Q. exact Q.
        - pose proof (ic _ _ I3 c) as Q. unfold CI, live in *. cbn -[upd] in *. rewrite E1 in Q. destruct Q as (Q1 & Q2 & Q3). split; [|split]; auto.
          intros k Kk. specialize (Q3 k Kk). destruct (Nat.eq_dec k h) as [->|n]; rewrite ?upd_eq, ?(upd_ne _ _ _ _ n) in *; cbn -[upd] in *; [destruct Q3; discriminate|].
          now rewrite (E3 _ n) in Q3.
        - pose proof (iw _ _ I3 w0) as Q. unfold WI, live in *. cbn -[upd] in *. rewrite E2 in Q.
          destruct (Nat.eq_dec w0 w) as [->|nw]; rewrite ?upd_eq, ?(upd_ne _ _ _ _ nw) in *; auto.
          pose proof (iw _ _ I w0) as Q0. unfold WI, live in Q0.
          destruct (ws s w0) as [|k|k|k| |]; auto;
            (destruct (Nat.eq_dec k h) as [->|n]; rewrite ?upd_eq, ?(upd_ne _ _ _ _ n) in *; cbn -[upd] in *; [exfalso; intuition congruence|rewrite ?(E3 _ n), ?E1 in Q; exact Q]).
        - cbn -[upd] in *. pose proof (ia _ _ I h0 w0) as Q.
          destruct (Nat.eq_dec h0 h) as [->|n]; rewrite ?upd_eq, ?(upd_ne _ _ _ _ n) in *; cbn -[upd] in *; [congruence|].
          destruct (Nat.eq_dec w0 w) as [->|nw]; rewrite ?upd_eq, ?(upd_ne _ _ _ _ nw) in *; auto. destruct (Q H); congruence.
        - eapply (ii _ _ I3); eassumption.
        - apply (ig _ _ I3).
        - apply (il _ _ I3). }
      cbn -[upd]. eapply INV_vext; [exact EX|..]; unfold v_give; cbn -[upd]; intros; destruct r2 as [[]|]; auto; destruct (own (view_of a) h); auto.
    + cbn. auto.
  - (* interrupt *)
    destruct (ws s w) as [|h| | | |] eqn:W; try discriminate.
    pose proof (iw _ _ I w) as Z. unfold WI in Z. rewrite W in Z. destruct Z as (A & Pv & Z & Cl).
    assert (L : live s h = true).
    { pose proof (ih _ _ I h) as Q. unfold HI in Q. destruct (live s h); auto. destruct Q. congruence. }
    rewrite L, A, Nat.eqb_refl in H. injection H as <- <-. cbn -[upd]. split.
    + assert (NQ : forall c, cs (co s c) = Queued -> rec (co s c) <> Some h).
      { intros c C R. now apply (QQ c h C R). }
      eapply INV_vext; [apply (leave_INV s _ h w WIdle I A NQ); auto|..]; auto.
    + split; auto. split; auto. rewrite view_app. cbn. split; auto.
      pose proof (ih _ _ I h) as Q. unfold HI, Free in Q. rewrite L in Q. destruct (own (view_of a) h); [|destruct Q as (Q & _); congruence].
      right. split; auto. exists a. auto.
  - (* signal *)
    assert (X : forall h, aw (hs s h) = Some w -> exists c, pr (hs s h) = Some c /\ frame s c = true /\ born (view_of a) c = true /\ over (view_of a) c = false).
    { intros h A. pose proof (ih _ _ I h) as Q. unfold HI, Free in Q. destruct (live s h); [|destruct Q; congruence].
      destruct (own (view_of a) h) as [c|]; [|destruct Q as (Q & _); congruence].
      assert (R : rec (co s c) = Some h /\ (cs (co s c) = Ready \/ cs (co s c) = Queued \/ cs (co s c) = Running \/ cs (co s c) = Returning)).
      { destruct Q as [(_ & _ & _ & Q & _ & Q')|(_ & _ & Q)]; [|apply Q in A; tauto]. split; auto. destruct (cs (co s c)); auto; contradiction. }
      destruct R as [R C]. exists c. destruct (rec_live _ _ _ _ I R) as (_ & _ & F). unfold frame.
      pose proof (ic _ _ I c) as Hc. unfold CI in Hc. destruct C as [C|[C|[C|C]]]; rewrite C in *; tauto. }
    destruct (ws s w) as [|h|h|h| |] eqn:W; try discriminate;
    pose proof (iw _ _ I w) as Z; unfold WI in Z; rewrite W in Z.
    + destruct Z as (A & _). destruct (X h A) as (c & F & G & B & Ov). rewrite F, G in H. injection H as <- <-. cbn. auto.
    + destruct Z as (A & _). destruct (X h A) as (c & F & G & B & Ov). rewrite F, G in H. destruct (done (hs s h)); injection H as <- <-; cbn; auto.
    + destruct Z as (_ & D & _). rewrite D in H. injection H as <- <-. cbn. auto.
    + injection H as <- <-. cbn. auto.
  - (* move *)
    destruct (absent s g) eqn:Ab; [|discriminate]. destruct (user s h) eqn:U; [|discriminate].
    cbn -[transfer] in H. destruct (user_live _ _ U) as [L Pv]. apply absent_not_live in Ab.
    cbn in K. rewrite !andb_true_iff, !negb_true_iff in K. destruct K as (K3 & K4). apply noaw in K3.
    destruct (transfer_INV s _ None g h I Ab L K3 K4 Pv) as (s1 & T & I1 & _). rewrite T in H. injection H as <- <-.
    split; auto. cbn. auto.
  - (* destroy *)
    destruct (user s h) eqn:U; [|discriminate]. destruct (user_live _ _ U) as [L Pv].
    cbn in K. rewrite !andb_true_iff, !negb_true_iff in K. destruct K as (K3 & K4). apply noaw in K3. rewrite K3 in H.
    destruct (done (hs s h)) eqn:D.
    + cbn -[upd] in H. injection H as <- <-. cbn -[upd]. split; [|auto].
      apply (drop_INV s _ h s); auto. eapply not_rec; eauto.
    + destruct (undone_cases s _ h I L D) as (c & F & O & X1 & X2 & X4 & X5 & X6). rewrite F, X4, Nat.eqb_refl in H.
      destruct (frame s c) eqn:Fr; [|unfold frame in Fr; destruct (cs (co s c)); try discriminate; contradiction].
      destruct (cs (co s c)) eqn:C; try contradiction; cbn -[upd] in H; injection H as <- <-; cbn -[upd].
      * split; [|pose proof (ic _ _ I c) as Hc; unfold CI in Hc; rewrite C in Hc; rewrite view_app; cbn; tauto].
        apply discard_INV; auto.
      * split; [|auto]. apply (drop_INV s _ h (set_c c (mkC Running None) s)); auto; cbn -[upd]; intros d.
        -- destruct (Nat.eq_dec d c) as [->|n]; rewrite ?upd_eq, ?(upd_ne _ _ _ _ n); auto.
        -- destruct (Nat.eq_dec d c) as [->|n]; rewrite ?upd_eq, ?(upd_ne _ _ _ _ n); cbn; [discriminate|].
           intros R. apply (rec_live _ _ _ _ I) in R. destruct R as (_ & R & _). congruence.
Qed.
End Step.
