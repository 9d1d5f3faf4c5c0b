(** Every correct step keeps the invariants. *)
From Coq Require Import List Bool Arith Lia.
From Verif Require Import Promise_Model Promise_Spec Promise_Inv.
Import ListNotations.

Section Step.
Context {V E : Type}.
Notation event := (event V E).
Notation state := (state V E).
Notation view := (view V E).

Fixpoint Pall (a ev : list event) : Prop :=
  match ev with [] => True | e :: t => P a e /\ Pall (a ++ [e]) t end.
Lemma Pall_app a x y : Pall a (x ++ y) <-> Pall a x /\ Pall (a ++ x) y.
Proof.
  revert a. induction x as [|e x IH]; intros a; cbn; [rewrite app_nil_r; tauto|].
  rewrite IH, <- app_assoc. cbn. tauto.
Qed.
Lemma view_app (a b : list event) : view_of (a ++ b) = fold_left observe b (view_of a).
Proof. apply fold_left_app. Qed.

Lemma cancel_ok s a h t : INV s (view_of a) -> live s h = true -> done (hs s h) || has_frame s h = true ->
  exists ev, cancel h t s = (s, ev) /\ view_of (a ++ ev) = view_of a /\ Pall a ev /\
    (ev = [] \/ exists c, ev = [ESignal c t] /\ own (view_of a) h = Some c /\ running (view_of a) c) /\
    ((exists c, own (view_of a) h = Some c /\ running (view_of a) c) -> ev <> []).
Proof.
  intros I L S. unfold cancel.
  destruct (done (hs s h)) eqn:D.
  { exists []. rewrite app_nil_r. cbn. repeat split; auto. intros (c & O & R1 & R2).
    pose proof (ih _ _ I h) as Q. unfold HI, Owned in Q. rewrite L, O, D, R2 in Q. destruct Q as [_ [Q|Q]]; [destruct Q; discriminate|]. tauto. }
  unfold has_frame in S. cbn in S. destruct (ref (hs s h)) as [c|] eqn:Rf; [|discriminate]. rewrite S.
  assert (Z : rec (co s c) <> Some h -> (exists c, own (view_of a) h = Some c /\ running (view_of a) c) -> @nil event <> []).
  { intros N (d & O & R1 & R2). exfalso.
    pose proof (ih _ _ I h) as Q. unfold HI, Owned in Q. rewrite L, O, D, R2 in Q. destruct Q as [_ [Q|Q]]; [|destruct Q; discriminate].
    destruct Q as (_ & _ & _ & _ & Q & _). destruct (rec_live _ _ _ _ I Q) as (_ & _ & F). congruence. }
  destruct (rec (co s c)) as [k|] eqn:R; [destruct (Nat.eqb_spec k h) as [->|n]|].
  - exists [ESignal c t]. pose proof (rec_owned _ _ _ _ I R) as Q. destruct (rec_live _ _ _ _ I R) as (_ & O & _).
    unfold Owned in Q. rewrite D in Q. destruct Q as [Q|Q]; [|destruct Q; discriminate]. destruct Q as (_ & _ & _ & Q & _ & F).
    pose proof (ic _ _ I c) as Hc. unfold CI in Hc. rewrite Q in Hc. destruct Hc as ((B & _ & Ov) & _).
    split; auto. rewrite view_app. split; auto. cbn. split; auto. split; [right|discriminate]. exists c. repeat split; auto.
  - exists []. rewrite app_nil_r. cbn. split; auto. split; auto. split; auto. split; auto. apply Z. congruence.
  - exists []. rewrite app_nil_r. cbn. split; auto. split; auto. split; auto. split; auto. apply Z. discriminate.
Qed.

(** final_suspend of [c], in a state [s] where it is [Returning]; the state [s0] of
    the code may differ from it in the record of [c]. *)
Lemma final_ok s s0 a c : INV s (view_of a) -> cs (co s c) = Returning ->
  hs s0 = hs s -> ws s0 = ws s -> rec (co s0 c) = rec (co s c) -> (forall d, d <> c -> co s0 d = co s d) ->
  exists s1 ev, final c s0 = (s1, ev) /\ INV s1 (view_of (a ++ ev)) /\ Pall a ev.
Proof.
  intros I C Eh Ew Er Ec. unfold final. rewrite Er.
  assert (X : forall b, upd (co s0) c (mkC Dead None) b = upd (co s) c (mkC Dead None) b).
  { intros b. unfold upd. destruct (Nat.eqb_spec b c); auto. }
  destruct (rec (co s c)) as [h|] eqn:R.
  - destruct (rec_live _ _ _ _ I R) as (L & O & F).
    assert (L0 : live s0 h = true) by (unfold live in *; now rewrite Eh). rewrite L0, Eh.
    destruct (aw (hs s h)) as [w|] eqn:A.
    + destruct (ia _ _ I _ _ A) as (o & W).
      pose proof (iw _ _ I w) as Ww. unfold WI in Ww. rewrite W in Ww. destruct Ww as (_ & _ & Ww).
      pose proof (leave_INV s _ h w WIdle I A (or_introl eq_refl)) as I1.
      pose proof (dead_INV _ _ c I1) as I2. cbn -[upd] in I2. specialize (I2 C).
      assert (I3 : INV (set_c c (mkC Dead None) (set_w w WIdle (set_h h (set_aw None (hs s h)) s))) (v_over c (v_waits (upd (waits (view_of a)) w None) (view_of a)))).
      { apply I2. intros k K. rewrite R in K. injection K as <-. now rewrite upd_eq. }
      unfold resume. cbn -[upd get_result]. rewrite Ew, W.
      assert (L1 : live (set_h h (set_aw None (hs s h)) (set_c c (mkC Dead None) s0)) h = true).
      { unfold live in *. cbn -[upd]. rewrite upd_eq. cbn. exact L. }
      rewrite L1.
      set (t0 := set_w w WIdle _).
      assert (I4 : INV t0 (v_over c (v_waits (upd (waits (view_of a)) w None) (view_of a)))).
      { eapply INV_ext; [exact I3|..]; intros b; unfold t0; cbn -[upd]; rewrite ?Eh, ?Ew; auto. }
      assert (Q1 : done (hs t0 h) = true /\ empty t0 h = false).
      { pose proof (rec_owned _ _ _ _ I R) as Q. unfold Owned in Q. rewrite C in Q.
        destruct Q as [(_ & _ & _ & Q & _)|(Q1 & Q2 & _)]; [discriminate|].
        unfold t0, empty. cbn -[upd]. rewrite upd_eq. cbn. split; auto. rewrite Q1. cbn.
        destruct (fate (view_of a) c) as [[]|]; [destruct Q2 as [-> [[-> _]|[-> _]]]; auto|rewrite Q2; auto|rewrite Q2; auto|contradiction]. }
      destruct Q1 as [Q1 Q2].
      assert (L2 : live t0 h = true) by exact L1.
      destruct (give_INV t0 _ h I4 L2 Q1 Q2) as (s1 & r & G & I5 & An).
      rewrite G. exists s1, [EFinal c; EResult w h r]. split; auto.
      cbn -[upd] in An. rewrite O in An. split.
      * rewrite view_app. cbn -[upd]. eapply INV_vext; [exact I5|..]; unfold v_give; cbn -[upd]; rewrite O; destruct r as [[]|]; auto.
      * cbn -[upd]. rewrite view_app. cbn -[upd]. rewrite O. auto 10.
    + eexists; exists [EFinal c]. split; [reflexivity|]. rewrite view_app. cbn -[upd]. split; [|auto].
      eapply INV_ext; [apply (dead_INV s _ c I C)|..]; auto; cbn -[upd]; intros; try congruence.
  - eexists; exists [EFinal c]. split; [reflexivity|]. rewrite view_app. cbn -[upd]. split; [|auto].
    eapply INV_ext; [apply (dead_INV s _ c I C)|..]; auto; cbn -[upd]; intros; try congruence.
Qed.

Lemma vw_own (v : view) o : own (v_waits o v) = own v. Proof. reflexivity. Qed.

Theorem step_ok s l s' ev a : INV s (view_of a) -> ok s l = true -> step l s = Some (s', ev) -> INV s' (view_of (a ++ ev)) /\ Pall a ev.
Proof.
  intros I K H. rewrite ?view_app. destruct l; cbn -[upd get_result final cancel transfer kill_w unlink] in H.
  - (* start *)
    destruct (cs (co s c)) eqn:C; try discriminate. destruct (is_absent (life_of (hs s h))) eqn:A; [|discriminate]. injection H as <- <-.
    split; [|cbn; auto]. apply start_INV; auto.
  - (* noop *)
    destruct (cs (co s c)) eqn:C; try discriminate. destruct (is_absent (life_of (hs s h))) eqn:A; [|discriminate]. injection H as <- <-.
    split; [|cbn; auto]. cbn -[upd observe].
    pose proof (start_INV s _ c h I C A) as I1.
    set (s1 := set_h h _ _) in I1.
    assert (C1 : cs (co s1 c) = Running) by (unfold s1; cbn -[upd]; now rewrite upd_eq).
    assert (R1 : rec (co s1 c) = Some h) by (unfold s1; cbn -[upd]; now rewrite upd_eq).
    pose proof (end_INV s1 _ c h (FRet v) None (Some (Fresh v)) false I1 C1 R1 (conj eq_refl eq_refl)) as I2. cbn zeta in I2.
    set (s2 := set_h h _ _) in I2.
    assert (I3 : INV (set_c c (mkC Dead None) s2) (v_over c (v_fate c (FRet v) (observe (view_of a) (EStart c h))))).
    { apply dead_INV; auto; unfold s2; cbn -[upd]; rewrite upd_eq; auto. cbn. intros k [= <-]. rewrite upd_eq. cbn -[upd]. now rewrite upd_eq. }
    change (INV (set_h h (mkH Live true None (Some (Fresh v)) false None None false None) (set_c c (mkC Dead None) s))
      (v_att (upd (attd (v_over c (v_fate c (FRet v) (observe (view_of a) (EStart c h))))) h false) (v_over c (v_fate c (FRet v) (observe (view_of a) (EStart c h)))))).
    (* the reference of a finished handle is irrelevant unless its coroutine knows it *)
    pose proof I3 as I4.
    split.
    + intros k. pose proof (ih _ _ I3 k) as Q. unfold HI, Owned, Free, live in *. cbn -[upd] in *. unfold s2, s1 in Q. cbn -[upd] in Q.
      destruct (Nat.eq_dec k h) as [->|n]; rewrite ?upd_eq, ?(upd_ne _ _ _ _ n) in *; cbn -[upd] in *; rewrite ?upd_eq in *; cbn -[upd] in *; auto.
      * destruct Q as [_ Q]. split; auto.
      * destruct (match life_of (hs s k) with Live | Dying => true | _ => false end); auto. destruct Q as [Q1 Q2]. split; auto.
        destruct (own (view_of a) k) as [d|]; auto.
        destruct (Nat.eq_dec d c) as [->|n']; rewrite ?upd_eq, ?(upd_ne _ _ _ _ n') in *; auto.
    + intros d. pose proof (ic _ _ I3 d) as Q. unfold CI, live in *. cbn -[upd] in *. unfold s2, s1 in Q. cbn -[upd] in Q.
      destruct (Nat.eq_dec d c) as [->|n]; rewrite ?upd_eq, ?(upd_ne _ _ _ _ n) in *; cbn -[upd] in *.
      * destruct Q as (Q1 & Q2 & Q3). split; [|split]; auto. discriminate.
      * destruct Q as (Q1 & Q2 & Q3). split; [|split]; auto.
        intros k Kk. specialize (Q3 k Kk). destruct (Nat.eq_dec k h) as [->|n']; rewrite ?upd_eq, ?(upd_ne _ _ _ _ n') in *; cbn -[upd] in *; auto.
        destruct Q3. congruence.
    + intros w. pose proof (iw _ _ I w) as Q. unfold WI in *. cbn -[upd] in *. destruct (ws s w) as [|k o|]; auto.
      destruct (Nat.eq_dec k h) as [->|n']; rewrite ?upd_eq, ?(upd_ne _ _ _ _ n') in *; auto.
      pose proof (ih _ _ I h) as Z. unfold HI in Z. rewrite (absent_not_live _ _ A) in Z. destruct Z, Q. congruence.
    + intros k w. cbn -[upd]. destruct (Nat.eq_dec k h) as [->|n']; rewrite ?upd_eq, ?(upd_ne _ _ _ _ n') in *; [discriminate|]. apply (ia _ _ I).
    + exact (ii _ _ I3).
    + exact (ig _ _ I3).
  - (* return *)
    destruct (cs (co s c)) eqn:C; try discriminate. destruct (rec (co s c)) as [h|] eqn:R.
    + destruct (rec_live _ _ _ _ I R) as (L & _). rewrite L in H. injection H as <- <-. split; [|cbn; auto].
      cbn -[upd]. apply end_INV; auto. cbn. split; auto.
      pose proof (rec_owned _ _ _ _ I R) as Q. unfold Owned in Q. rewrite C in Q. destruct Q as [Q|(Q1 & _ & Q)]; [tauto|].
      pose proof (ic _ _ I c) as Hc. unfold CI in Hc. rewrite C in Hc. destruct Hc as ((_ & F & _) & _).
      pose proof (rec_owned _ _ _ _ I R) as Z. unfold Owned in Z. rewrite F in Z. tauto.
    + injection H as <- <-. split; [|cbn; auto]. cbn -[upd]. apply end_none_INV; auto.
  - (* throw *)
    destruct (cs (co s c)) eqn:C; try discriminate. destruct (rec (co s c)) as [h|] eqn:R.
    + destruct (rec_live _ _ _ _ I R) as (L & _). rewrite L in H.
      set (y := mkH _ _ _ _ _ _ _ _ _) in H.
      assert (I1 : INV (set_h h y (set_c c (mkC Returning (Some h)) s)) (view_of (a ++ [EThrow c e]))).
      { rewrite view_app. cbn -[upd]. apply end_INV; auto. reflexivity. }
      destruct (final_ok _ (set_h h y s) _ c I1) as (s1 & ev1 & F & I2 & P2); auto; cbn -[upd]; rewrite ?upd_eq; auto.
      { intros d n. now rewrite (upd_ne _ _ _ _ n). }
      rewrite F in H. injection H as <- <-. rewrite <- app_assoc in I2. rewrite view_app in I2. split; auto. cbn. auto.
    + injection H as <- <-. cbn -[upd].
      assert (I1 := end_none_INV s _ c (FThrow e) I C R).
      split.
      * eapply INV_ext; [apply (leak_INV _ _ c e I1)|..]; cbn -[upd]; rewrite ?upd_eq; auto.
        intros d. destruct (Nat.eq_dec d c) as [->|n]; rewrite ?upd_eq, ?(upd_ne _ _ _ _ n) in *; auto.
      * split; auto. split; auto. intros h O. rewrite view_app in O. cbn in O.
        pose proof (ih _ _ I h) as Q. unfold HI, Owned in Q. rewrite O in Q. destruct (live s h); [|destruct Q; discriminate].
        pose proof (ic _ _ I c) as Hc. unfold CI in Hc. rewrite C in Hc. destruct Hc as ((_ & F & _) & _). rewrite F in Q.
        destruct Q as [_ [Q|Q]]; [|tauto]. destruct Q as (_ & _ & _ & _ & Q & _). congruence.
  - (* final *)
    destruct (cs (co s c)) eqn:C; try discriminate.
    destruct (final_ok s s a c I C) as (s1 & ev1 & F & I2 & P2); auto. rewrite F in H. injection H as <- <-.
    rewrite view_app in I2. auto.
  - (* kill *)
    destruct (cs (co s c)) eqn:C; try discriminate. destruct (rec (co s c)) as [h|] eqn:R.
    + destruct (rec_live _ _ _ _ I R) as (L & O & Rf). rewrite L in H.
      pose proof (rec_owned _ _ _ _ I R) as Q. unfold Owned in Q. rewrite C in Q.
      pose proof (ic _ _ I c) as Hc. unfold CI in Hc. rewrite C in Hc. destruct Hc as ((_ & F & _) & _). rewrite F in Q.
      destruct Q as [(D & X1 & X2 & _)|Q]; [|tauto]. rewrite D, X1 in H.
      pose proof (end_INV s _ c h FKill (Some XUnexpected) (res (hs s h)) (taken (hs s h)) I C R eq_refl) as I1. cbn zeta in I1.
      set (s1 := set_h h _ _) in I1.
      destruct (aw (hs s h)) as [w|] eqn:A; cbn -[upd] in H; injection H as <- <-; cbn -[upd].
      * split; [|auto].
        assert (A1 : aw (hs s1 h) = Some w) by (unfold s1; cbn -[upd]; now rewrite upd_eq).
        pose proof (leave_INV s1 _ h w WKilled I1 A1 (or_intror eq_refl)) as I2.
        assert (I3 := dead_INV _ _ c I2). cbn -[upd] in I3. unfold s1 in I3. cbn -[upd] in I3. rewrite !upd_eq in I3.
        specialize (I3 eq_refl). assert (J : forall h0, Some h = Some h0 -> aw (upd (upd (hs s) h (mkH (life_of (hs s h)) true (Some XUnexpected) (res (hs s h)) (taken (hs s h)) (Some w) (ref (hs s h)) (att (hs s h)) (from (hs s h)))) h (set_aw None (mkH (life_of (hs s h)) true (Some XUnexpected) (res (hs s h)) (taken (hs s h)) (Some w) (ref (hs s h)) (att (hs s h)) (from (hs s h)))) h0) = None).
        { intros ? [= <-]. now rewrite upd_eq. }
        specialize (I3 J).
        eapply INV_ext; [exact I3|..]; cbn -[upd]; auto; intros d.
        -- destruct (Nat.eq_dec d h) as [->|n]; rewrite ?upd_eq, ?(upd_ne _ _ _ _ n) in *; auto.
        -- destruct (Nat.eq_dec d c) as [->|n]; rewrite ?upd_eq, ?(upd_ne _ _ _ _ n) in *; auto.
      * split; [|auto].
        assert (I3 := dead_INV _ _ c I1). unfold s1 in I3. cbn -[upd] in I3. rewrite !upd_eq in I3. specialize (I3 eq_refl).
        match type of I3 with ?X -> _ => assert (J : X) end.
        { intros ? [= <-]. now rewrite upd_eq. }
        specialize (I3 J).
        eapply INV_ext; [exact I3|..]; cbn -[upd]; auto; intros d.
        destruct (Nat.eq_dec d c) as [->|n]; rewrite ?upd_eq, ?(upd_ne _ _ _ _ n) in *; auto.
    + injection H as <- <-. cbn -[upd]. split; [|auto].
      assert (I1 := end_none_INV s _ c FKill I C R).
      eapply INV_ext; [apply (dead_INV _ _ c I1)|..]; cbn -[upd]; rewrite ?upd_eq; auto; try discriminate.
      intros d. destruct (Nat.eq_dec d c) as [->|n]; rewrite ?upd_eq, ?(upd_ne _ _ _ _ n) in *; auto.
  - (* await *)
    destruct (ws s w) eqn:W; try discriminate. destruct (is_live (life_of (hs s h))) eqn:L; [|discriminate]. apply is_live_live in L.
    cbn in K. apply andb_true_iff in K as [K1 K2]. apply negb_true_iff in K1. apply negb_true_iff in K2.
    destruct (done (hs s h)) eqn:D.
    + destruct (get_result h s) as [s1 r] eqn:G. injection H as <- <-.
      destruct (give_INV s _ h I L D K2) as (s2 & r2 & G2 & I2 & An). rewrite G in G2. injection G2 as <- ->.
        cbn -[upd]. split.
        -- eapply INV_vext; [exact I2|..]; unfold v_give; cbn -[upd]; auto.
           all: try (destruct r2 as [[]|]; auto; destruct (own (view_of a) h); auto; fail).
           intros w0. pose proof (iw _ _ I w) as Z. unfold WI in Z. rewrite W in Z.
           assert (X : forall o, upd (upd (waits (view_of a)) w o) w None w0 = waits (view_of a) w0).
           { intros o. destruct (Nat.eq_dec w0 w) as [->|n]; rewrite ?upd_eq, ?(upd_ne _ _ _ _ n) in *; auto. }
           destruct r2 as [[]|]; cbn -[upd]; auto; destruct (own (view_of a) h); cbn -[upd]; auto.
        -- split; auto. split; auto. rewrite view_app. cbn -[upd]. rewrite upd_eq. split; auto. destruct (own (view_of a) h); auto.
    + destruct (aw (hs s h)) as [w'|] eqn:A; injection H as <- <-; cbn -[upd].
      * destruct (ia _ _ I _ _ A) as (o & W'). pose proof (iw _ _ I w') as Z. unfold WI in Z. rewrite W' in Z.
        assert (N : w' <> w) by congruence.
        pose proof (iw _ _ I w) as Y. unfold WI in Y. rewrite W in Y.
        split.
        -- eapply INV_vext; [exact I|..]; auto. intros w0. cbn -[upd].
           destruct (Nat.eq_dec w0 w) as [->|n]; rewrite ?upd_eq, ?(upd_ne _ _ _ _ n) in *; auto.
        -- split; auto. split; auto. rewrite view_app. cbn -[upd]. rewrite upd_eq. split; auto.
           destruct (owned_cases s _ h I L D K1) as (c & O & X1 & X2 & X3 & X4 & X5 & X6). rewrite O. right. right. split; auto.
           split; [exists w'; split; auto; rewrite (upd_ne _ _ _ _ N); tauto|].
           pose proof (ic _ _ I c) as Hc. unfold CI in Hc. rewrite X3 in Hc. split; tauto.
      * split; [|auto]. apply suspend_INV; auto.
  - (* get *)
    destruct (is_live (life_of (hs s h))) eqn:L; [|discriminate]. apply is_live_live in L.
    cbn in K. apply andb_true_iff in K as [D K2]. apply negb_true_iff in K2. rewrite D in H.
    destruct (give_INV s _ h I L D K2) as (s2 & r2 & G2 & I2 & An). rewrite G2 in H. injection H as <- <-.
    split; auto. cbn. auto.
  - (* interrupt *)
    destruct (ws s w) as [|h o|] eqn:W; try discriminate.
    pose proof (iw _ _ I w) as Z. unfold WI in Z. rewrite W in Z. destruct Z as (A & -> & Z).
    assert (L : live s h = true).
    { pose proof (ih _ _ I h) as Q. unfold HI in Q. destruct (live s h); auto. destruct Q. congruence. }
    rewrite L, A, Nat.eqb_refl in H. injection H as <- <-. cbn -[upd]. split.
    + eapply INV_vext; [apply (leave_INV s _ h w WIdle I A); auto|..]; auto.
    + split; auto. split; auto. rewrite view_app. cbn. split; auto.
      pose proof (ih _ _ I h) as Q. unfold HI, Free in Q. rewrite L in Q. destruct (own (view_of a) h); [|destruct Q as (_ & Q & _); congruence].
      right. left. split; auto. exists a. auto.
  - (* signal *)
    destruct (ws s w) as [|h o|] eqn:W; try discriminate.
    pose proof (iw _ _ I w) as Z. unfold WI in Z. rewrite W in Z. destruct Z as (A & -> & Z).
    assert (L : exists c, ref (hs s h) = Some c /\ frame s c = true /\ born (view_of a) c = true /\ over (view_of a) c = false).
    { pose proof (ih _ _ I h) as Q. unfold HI, Free in Q. destruct (live s h); [|destruct Q; congruence].
      destruct (own (view_of a) h) as [c|]; [|destruct Q as (_ & Q & _); congruence].
      assert (R : rec (co s c) = Some h /\ (cs (co s c) = Running \/ cs (co s c) = Returning)).
      { destruct Q as [_ [Q|(_ & _ & Q)]]; [tauto|]. apply Q in A. tauto. }
      destruct R as [R C]. exists c. destruct (rec_live _ _ _ _ I R) as (_ & _ & F). unfold frame.
      pose proof (ic _ _ I c) as Hc. unfold CI in Hc. destruct C as [C|C]; rewrite C in *; tauto. }
    destruct L as (c & F & G & B & Ov). rewrite F, G in H. injection H as <- <-. cbn. auto.
  - (* cancel *)
    destruct (is_live (life_of (hs s h))) eqn:L; [|discriminate]. apply is_live_live in L. cbn in K.
    destruct (cancel_ok s a h t I L K) as (ev1 & C & Vw & Pp & _). rewrite C in H. injection H as <- <-.
    rewrite view_app in Vw. rewrite Vw. auto.
  - (* move *)
    destruct (is_absent (life_of (hs s g))) eqn:A; [|discriminate]. destruct (is_live (life_of (hs s h))) eqn:L; [|discriminate].
    cbn -[transfer] in H. apply absent_not_live in A. pose proof (is_live_live _ _ L) as L'. apply live_life in L.
    cbn in K. rewrite !andb_true_iff, !negb_true_iff in K. destruct K as (K1 & K2 & K3).
    assert (Aw : aw (hs s h) = None) by (unfold awaited in K2; destruct (aw (hs s h)); auto; discriminate).
    destruct (transfer_INV s _ true g h I A L' L Aw K3 K1) as (s1 & T & I1). rewrite T in H. injection H as <- <-. split; auto. cbn. auto.
  - (* assign 1 *)
    destruct (is_live (life_of (hs s g)) && is_live (life_of (hs s h)) && negb (g =? h)) eqn:G; [|discriminate].
    rewrite !andb_true_iff in G. destruct G as ((L & _) & _). pose proof (is_live_live _ _ L) as L'. cbn in K.
    destruct (from (hs s g)); [discriminate|].
    destruct (att (hs s g)).
    + destruct (cancel_ok s a g ct_all I L' K) as (ev1 & C & Vw & Pp & _). rewrite C in H. injection H as <- <-.
      rewrite view_app in Vw. rewrite Vw. split; auto. apply cosmetic0_INV; cbn; auto.
    + injection H as <- <-. cbn. split; auto. apply cosmetic0_INV; cbn; auto.
  - (* assign 2 *)
    cbn in K. destruct (from (hs s g)) as [h|] eqn:Fr; [|discriminate].
    destruct (is_live (life_of (hs s g)) && is_live (life_of (hs s h)) && negb (g =? h)) eqn:G; [|discriminate].
    rewrite !andb_true_iff in G. destruct G as ((Lg & L) & Ngh). apply negb_true_iff, Nat.eqb_neq in Ngh.
    rewrite !andb_true_iff, !negb_true_iff in K. destruct K as (((K1 & K2 & K3) & K4 & K5) & K6).
    assert (Aw : aw (hs s h) = None) by (unfold awaited in K2; destruct (aw (hs s h)); auto; discriminate).
    assert (Ag : aw (hs s g) = None) by (unfold awaited in K4; destruct (aw (hs s g)); auto; discriminate).
    pose proof (is_live_live _ _ Lg) as Lg'. pose proof (is_live_live _ _ L) as L'.
    assert (X : exists s1, (match ref (hs s g) with None => Some s | Some _ => unlink g s end) = Some s1 /\ dropped s s1 g).
    { destruct (ref (hs s g)) as [c|] eqn:Rf.
      - apply (unlink_dropped s _ g I Lg'). unfold has_frame. now rewrite Rf.
      - exists s. split; auto. repeat split; auto. intros c. destruct (rec (co s c)) as [k|] eqn:R; auto.
        destruct (Nat.eqb_spec k g) as [->|]; auto. apply (rec_live _ _ _ _ I) in R. destruct R as (_ & _ & R). congruence. }
    destruct X as (s1 & X & D). rewrite X, Ag in H. cbn -[transfer] in H.
    pose proof (drop_INV s _ g s1 (set_life Absent (hs s g)) I Lg' Ag K5 D eq_refl Ag) as I1.
    set (s2 := set_h g _ s1) in I1. destruct D as (D1 & D2 & D3).
    assert (Hh : hs s2 h = hs s h) by (unfold s2; cbn -[upd]; rewrite (upd_ne _ _ _ _ (not_eq_sym Ngh)); now rewrite D1).
    assert (T : exists s3, transfer false g h s2 = (s3, []) /\ INV s3 (observe (v_own (upd (own (view_of a)) g None) (view_of a)) (EMove g h))).
    { apply transfer_INV; auto; unfold live, returning, zombie in *; rewrite ?Hh; auto.
      - unfold s2. cbn -[upd]. now rewrite upd_eq.
      - now apply live_life.
      - destruct (ref (hs s h)) as [c|]; auto. unfold s2. cbn. rewrite D3.
        destruct (match rec (co s c) with Some k => k =? g | None => false end); auto. cbn. now destruct (cs (co s c)). }
    destruct T as (s3 & T & I3).
    assert (T' : exists s4, transfer false g h s1 = (s4, []) /\ (forall k, hs s4 k = hs s3 k) /\ (forall k, co s4 k = co s3 k) /\ (forall k, ws s4 k = ws s3 k)).
    { unfold transfer in *. rewrite Hh in T. rewrite D1. unfold frame in *. change (co s2) with (co s1) in T.
      destruct (done (hs s h)); [|destruct (exc (hs s h)); [|destruct (ref (hs s h)) as [c|]; [|discriminate]; destruct (match cs (co s1 c) with Running | Returning | Leaked => true | _ => false end); [|discriminate]]];
        injection T as <-; (eexists; split; [reflexivity|]); repeat split; intros k; cbn -[upd]; rewrite ?D1;
        (destruct (Nat.eq_dec k g) as [->|n]; rewrite ?upd_eq, ?(upd_ne _ _ _ _ n); auto);
        (destruct (Nat.eq_dec k h) as [->|n']; rewrite ?upd_eq, ?(upd_ne _ _ _ _ n'), ?(upd_ne _ _ _ _ n), ?D1; auto). }
    destruct T' as (s4 & T' & E1 & E2 & E3). rewrite T' in H. injection H as <- <-. cbn -[upd]. split; [|auto].
    eapply INV_ext; [|exact E1|exact E2|exact E3].
    eapply INV_vext; [exact I3|..]; auto; intros k; cbn -[upd].
    + destruct (Nat.eq_dec k h) as [->|n]; rewrite ?upd_eq, ?(upd_ne _ _ _ _ n); auto.
      destruct (Nat.eq_dec k g) as [->|n']; rewrite ?upd_eq, ?(upd_ne _ _ _ _ n'); auto. now rewrite (upd_ne _ _ _ _ (not_eq_sym Ngh)).
  - (* destroy 1 *)
    destruct (is_live (life_of (hs s h))) eqn:L; [|discriminate]. pose proof (is_live_live _ _ L) as L'. cbn in K.
    destruct (att (hs s h)).
    + destruct (cancel_ok s a h ct_all I L' K) as (ev1 & C & Vw & Pp & _). rewrite C in H. injection H as <- <-.
      rewrite view_app in Vw. rewrite Vw. split; auto. apply cosmetic0_INV; cbn; auto.
    + injection H as <- <-. cbn. split; auto. apply cosmetic0_INV; cbn; auto.
  - (* destroy 2 *)
    destruct (is_dying (life_of (hs s h))) eqn:L; [|discriminate]. cbn in K.
    assert (L' : live s h = true) by (unfold live; destruct (life_of (hs s h)); auto; discriminate).
    rewrite !andb_true_iff, !negb_true_iff in K. destruct K as ((K1 & K2) & K3).
    assert (Aw : aw (hs s h) = None) by (unfold awaited in K1; destruct (aw (hs s h)); auto; discriminate).
    assert (X : exists s1, (if done (hs s h) then Some s else unlink h s) = Some s1 /\ dropped s s1 h).
    { destruct (done (hs s h)) eqn:D.
      - exists s. split; auto. eapply refl_dropped; eauto.
      - eapply unlink_dropped; eauto. }
    destruct X as (s1 & X & D). rewrite X, Aw in H. cbn -[upd] in H. injection H as <- <-. cbn -[upd]. split; [|auto].
    apply (drop_INV s _ h s1); auto.
  - (* attach *)
    destruct (is_live (life_of (hs s h))) eqn:L; [|discriminate]. apply is_live_live in L. injection H as <- <-. cbn -[upd]. split; [|auto].
    apply cosmetic_INV; cbn; auto.
Qed.
End Step.
