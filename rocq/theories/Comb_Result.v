(** Consequences of the invariants, in terms of the trace. *)
From Coq Require Import List Bool Arith Lia Permutation.
From Verif Require Import Comb_Model Comb_Spec Comb_Core Comb_Trace Comb_Data Comb_Calm Comb_Signal Comb_Sent Comb_Final.
Import ListNotations.

Section Result.
Context {V E : Type}.
Notation state := (state V E).
Notation label := (label V E).
Notation event := (event V E).
Implicit Types (s : state).

(** *** Some child was started before anything else happened. *)
Definition NE s (tr : list event) : Prop := started tr = [] -> In KRdy (stk s).
Lemma step_NE c s tr l s' ev : wf c -> TI c s tr -> NE s tr -> step c l s = Some (s', ev) -> NE s' (tr ++ ev).
Proof.
  intros W T N H. pose proof (t_core _ _ _ T) as C.
  pose proof (step_TI c s tr l s' ev W T H) as T'.
  pose proof (step_move c s l s' ev W C H) as M. intros Q.
  pose proof Q as Q0. rewrite started_app in Q0. apply app_eq_nil in Q0 as [Q0 _]. specialize (N Q0).
  pose proof (t_start _ _ _ T) as A. pose proof (t_start _ _ _ T') as A'. rewrite Q0 in A. rewrite Q in A'. cbn in A, A'.
  destruct M as [ns U Z N0 Sf T0|k t0 ns Q1 Mk Z N0 Sf T0|k ns Q1 Mk Z N0 Sf T0|i0 l0 Q1 T1 T2 Z|i0 Q1 T0 G0 R0 Z|i0 Q1 T0 G0 Z|i0 Q1 T0 Z
                |i0 Q1 T0 U Z|i0 l0 Q1 T1 T2 Z|Q1 T1 T2 Z|i0 Q1 T0 U Z|i0 Q1 T0 G0 R0 Z|ns Q1 T0 Z N0 Z0];
    try (rewrite Q1 in N; destruct N as [N|[]]; discriminate).
  - rewrite Z. apply in_or_app. auto.
  - rewrite Z. apply in_or_app. right. rewrite Q1 in N. destruct N as [->|]; auto. discriminate.
  - exfalso. rewrite Q1 in N. destruct N as [->|[]].
    destruct l; cbn in H; unfold user in H; rewrite Q1 in H; cbn in H; try discriminate.
    destruct (todo s) as [|i l] eqn:Et; [now apply (wf_ne c W)|]. inj H.
    subst ns. unfold create in N0. destruct (is_race c); cbn in N0; specialize (N0 (KBeg i) (or_intror (or_introl eq_refl))); discriminate.
  - exfalso. rewrite T1 in A. rewrite T2 in A'. apply (f_equal (@length _)) in A, A'. cbn in A. lia.
Qed.
Lemma run_NE c ls s tr : wf c -> run c (init c) ls = Some (s, tr) -> NE s tr.
Proof.
  intros W H. cut (TI c s tr /\ NE s tr); [tauto|]. revert H. apply (run_ind c (fun s tr => TI c s tr /\ NE s tr)).
  - split; [now apply init_TI|]. intros _. cbn. apply in_or_app. right. now left.
  - intros s0 tr0 l s' ev [T N] Hs. split; [eapply step_TI; eauto|eapply step_NE; eauto].
Qed.

(** *** Cancelled only while suspended. *)
Definition AR s : Prop := armed s = true -> cnt main (stk s) = 0.
Lemma finish_armed c i rd x s : armed (finish c i rd x s) = armed s.
Proof.
  unfold finish. destruct (knd c); [reflexivity| |]; destruct x; unfold join_result, race_result, race_throw, store; cbn;
    repeat match goal with |- context [match ?b with _ => _ end] => destruct b; cbn end; auto.
Qed.
Lemma step_armed c s l s' ev : step c l s = Some (s', ev) -> armed s' = armed s \/ exists t, stk s = KArm2 :: t /\ stk s' = t.
Proof.
  intros H. destruct l; cbn in H.
  - destruct (stk s) as [|k t] eqn:Es; [discriminate|].
    destruct k; cbn in H; unfold settle, emit, create in H;
    repeat match type of H with
      | context [match todo s with _ => _ end] => destruct (todo s)
      | context [match lastf s with _ => _ end] => destruct (lastf s)
      | context [match knd c with _ => _ end] => destruct (knd c)
      | context [match err s with _ => _ end] => destruct (err s)
      | context [if ?b then _ else _] => destruct b
      end; try discriminate; inj H; cbn; auto. right. eauto.
  - destruct (stk s) as [|[] t] eqn:Es; try discriminate. injection H as H. left.
    destruct b as [x|e|]; cbn in H.
    + inj H. now rewrite finish_armed.
    + inj H. now rewrite finish_armed.
    + destruct (knd c); cbn in H; destruct (wired s); inj H; reflexivity.
  - destruct (user s && running s i); [|discriminate]. inj H. left. apply finish_armed.
  - destruct (user s); [|discriminate]. unfold transact in H. left.
    destruct (is_race c && running s i); [|discriminate]. destruct (idx s); inj H; reflexivity.
  - destruct (user s && armed s); [|discriminate]. left. destruct (fin s); inj H; reflexivity.
  - destruct (user s && coro s); [|discriminate]. left. inj H. reflexivity.
Qed.
Lemma nomain_cnt l : nomain l -> cnt main l = 0.
Proof. intros N. apply cnt_zero. intros k Hk. eapply nomain_main; eauto. Qed.
Lemma step_AR c s l s' ev : wf c -> Core c s -> AR s -> step c l s = Some (s', ev) -> AR s'.
Proof.
  intros W C A H. pose proof (step_armed c s l s' ev H) as [Z|(t & Z1 & Z2)].
  - pose proof (step_move c s l s' ev W C H) as M. intros Q. rewrite Z in Q. specialize (A Q).
    destruct M as [ns U Y N0 Sf T0|k t0 ns Q1 Mk Y N0 Sf T0|k ns Q1 Mk Y N0 Sf T0|i0 l0 Q1 T1 T2 Y|i0 Q1 T0 G0 R0 Y|i0 Q1 T0 G0 Y|i0 Q1 T0 Y
                |i0 Q1 T0 U Y|i0 l0 Q1 T1 T2 Y|Q1 T1 T2 Y|i0 Q1 T0 U Y|i0 Q1 T0 G0 R0 Y|ns Q1 T0 Y N0 Z0];
      try (rewrite Q1 in A; discriminate).
    + rewrite Y, cnt_app, (nomain_cnt _ N0), A. reflexivity.
    + rewrite Q1, cnt_cons, Mk in A. rewrite Y, cnt_app, (nomain_cnt _ N0). exact A.
    + rewrite Y. now apply nomain_cnt.
  - intros _. rewrite Z2. unfold Core in C. rewrite Z1 in C.
    destruct (main_top _ _ _ _ _ _ _ _ _ _ (eq_refl : main KArm2 = true) C) as (-> & _). reflexivity.
Qed.

Definition CX c s (tr : list event) : Prop :=
  AR s /\
  forall a u b, tr = a ++ ECancelled u :: b -> armed s = true /\
    forall i, In i (started a) -> running s i = true ->
      In (KFwd i u) (stk s) \/ In u (signals i b) \/ knd c <> Gather /\ canc s i = false.

Lemma armed_settled c s i : Core c s -> AR s -> armed s = true -> ph s i <> Starting /\ ph s i <> Parked.
Proof.
  intros C A H. specialize (A H). unfold Core in C.
  assert (Z : forall k, In k (stk s) -> main k = true -> False).
  { intros k Hk Mk. pose proof (cnt_pos main _ _ Hk Mk). lia. }
  split; intros P.
  - destruct (c_start _ _ _ _ _ _ _ _ _ C i P) as [Q|Q]; eapply Z; eauto.
  - destruct (c_park _ _ _ _ _ _ _ _ _ C i P) as [Q|Q]; eapply Z; eauto.
Qed.

Lemma split_end {A} (tr ev a b : list A) e : tr ++ ev = a ++ e :: b ->
  (exists b', tr = a ++ e :: b' /\ b = b' ++ ev) \/ (exists a', a = tr ++ a' /\ ev = a' ++ e :: b).
Proof.
  revert a. induction tr as [|x u IH]; intros a H; [right; exists a; auto|].
  destruct a as [|y a]; cbn in H; injection H as -> H.
  - left. exists u. auto.
  - destruct (IH a H) as [(b' & -> & ->)|(a' & -> & ->)]; [left; exists b'; auto|right; exists a'; auto].
Qed.
Lemma silent_cancelled (ev a b : list event) u : silent ev = true -> ev = a ++ ECancelled u :: b -> False.
Proof. intros S ->. unfold silent in S. rewrite forallb_app in S. apply andb_prop in S as [_ S]. discriminate. Qed.

Lemma cancel_armed c s l s' ev u : step c l s = Some (s', ev) -> In (ECancelled u) ev -> armed s = true.
Proof.
  intros H Q. destruct l; cbn in H.
  - exfalso. destruct (stk s) as [|k t] eqn:Es; [discriminate|].
    destruct k; cbn in H; unfold settle, emit, create in H;
    repeat match type of H with
      | context [match todo s with _ => _ end] => destruct (todo s)
      | context [match lastf s with _ => _ end] => destruct (lastf s)
      | context [match knd c with _ => _ end] => destruct (knd c)
      | context [match err s with _ => _ end] => destruct (err s)
      | context [if ?b then _ else _] => destruct b
      end; try discriminate; inj H; cbn in Q; repeat destruct Q as [Q|Q]; try discriminate; auto.
  - exfalso. destruct (stk s) as [|[] t] eqn:Es; try discriminate. injection H as H.
    destruct b as [x|e|]; cbn in H; [inj H|inj H|destruct (knd c); cbn in H; destruct (wired s); inj H];
      repeat destruct Q as [Q|Q]; try discriminate; auto.
  - destruct (user s && running s i); [|discriminate]. inj H. destruct Q as [Q|[]]. discriminate.
  - destruct (user s); [|discriminate]. unfold transact in H.
    destruct (is_race c && running s i); [|discriminate]. destruct (idx s); inj H; destruct Q as [Q|[]]; discriminate.
  - destruct (user s && armed s) eqn:Eu; [|discriminate]. now apply andb_prop in Eu.
  - destruct (user s && coro s); [|discriminate]. inj H. destruct Q as [Q|[]]. discriminate.
Qed.

Lemma step_CX c s tr l s' ev : wf c -> TI c s tr -> CX c s tr -> step c l s = Some (s', ev) -> CX c s' (tr ++ ev).
Proof.
  intros W T [A X] H. pose proof (t_core _ _ _ T) as C.
  pose proof (step_TI c s tr l s' ev W T H) as T'.
  pose proof (step_AR c s l s' ev W C A H) as A'. split; auto.
  pose proof (step_sig c s l s' ev W C H) as G.
  intros a u b Hs. apply split_end in Hs as [(b' & Q1 & ->)|(a' & -> & Q1)].
  - destruct (X a u b' Q1) as [X1 X2].
    assert (X3 : armed s' = true).
    { destruct (step_armed c s l s' ev H) as [Z|(t & Z1 & _)]; [congruence|].
      specialize (A X1). rewrite Z1 in A. discriminate. }
    split; auto. intros i Hi R.
    assert (SG : forall P Q R : Prop, P \/ In u (signals i b') \/ Q -> (P -> R) -> (Q -> knd c <> Gather /\ canc s' i = false) -> 
       (R -> In (KFwd i u) (stk s') \/ In u (signals i (b' ++ ev)) \/ knd c <> Gather /\ canc s' i = false) ->
       In (KFwd i u) (stk s') \/ In u (signals i (b' ++ ev)) \/ knd c <> Gather /\ canc s' i = false).
    { intros P Q R0 [HP|[HQ|HQ]] H1 H2 H3; auto. right. left. rewrite signals_app. apply in_or_app. auto. }
    destruct G as [j t Q1' Q2 Q3 Q4 Q5 Q6|j t Q1' Q2 Q3 Q4 Q5 Q6|j w t Q1' Q2 Q3 Q4 Q5|j w t Q1' Q2 Q3 Q4 Q5 Q6|j t Q1' Q2 Q3 Q4 Q5
     |j x t ns Q1' Q2 Q3 Q4 Q5 Q6 Q7 Q8 Q9 Q10 Q11|j ns Q1' Q2 Q3 Q4 Q5 Q6 Q7 Q8 Q9 Q10 Q11|j Q1' Q2 Q3 Q4 Q5 Q6|Q1' Q2 Q3 Q4 Q5 Q6 Q7|w ev' Q1' Q2 Q3 Q4 Q5 Q6|Q1' Q2 Q3 Q4 Q5 Q6 Q7].
    + assert (R0 : running s i = true) by (unfold running in *; now rewrite <- Q5). specialize (X2 i Hi R0).
      apply (SG _ _ (In (KFwd i u) t) X2); [ |intros [? ?]; split; auto; rewrite Q4; unfold upd; destruct (i =? j); auto|].
      * rewrite Q1'. intros [Z|Z]; [discriminate Z|exact Z].
      * intros Z. left. destruct Q6 as [(_ & _ & ->)|(_ & _ & ->)]; [now right|auto].
    + assert (R0 : running s i = true) by (unfold running in *; now rewrite <- Q4). specialize (X2 i Hi R0).
      apply (SG _ _ (In (KFwd i u) t) X2); [ |intros [? ?]; split; auto; now rewrite Q3|].
      * rewrite Q1'. intros [Z|Z]; [discriminate Z|exact Z].
      * intros Z. left. now rewrite Q6.
    + assert (R0 : running s i = true) by (unfold running in *; now rewrite <- Q3). specialize (X2 i Hi R0).
      apply (SG _ _ (KFwd j w = KFwd i u \/ In (KFwd i u) t) X2); [ |intros [? ?]; split; auto; now rewrite Q4|].
      * rewrite Q1'. intros Z. exact Z.
      * intros [Z|Z].
        -- injection Z as -> ->. destruct Q5 as [(_ & _ & -> & _)|([Y|Y] & _ & _)]; [|congruence|right; right; now rewrite Q4].
           right. left. rewrite signals_app. apply in_or_app. right. cbn. rewrite Nat.eqb_refl. now left.
        -- left. destruct Q5 as [(_ & _ & _ & ->)|(_ & _ & ->)]; [now right|auto].
    + exfalso. pose proof (fin_no_live c s W C (or_introl Q2) i) as Y. unfold running in R. rewrite Q3 in R.
      destruct (ph s i); cbn in Y; congruence.
    + exfalso. destruct (armed_settled c s j C A X1). contradiction.
    + assert (Nj : i <> j).
      { intros ->. unfold running in R. rewrite Q3, upd_same in R. discriminate. }
      assert (R0 : running s i = true) by (unfold running in *; now rewrite Q3, upd_other in R). specialize (X2 i Hi R0).
      apply (SG _ _ (In (KFwd i u) (stk s)) X2); [ |intros [? ?]; split; auto; now rewrite Q6|].
      * intros Z. exact Z.
      * intros Z. left. rewrite Q4. apply in_or_app. right. destruct Q2 as [[Y _]|[Y _]]; rewrite Y in Z; auto.
        destruct Z; [discriminate|auto].
    + assert (R0 : running s i = true) by (unfold running in *; now rewrite <- Q6). specialize (X2 i Hi R0).
      apply (SG _ _ (In (KFwd i u) (stk s)) X2); [intros Z; exact Z|intros [? ?]; split; auto; rewrite Q7; unfold upd; destruct (i =? j); auto|].
      intros Z. left. rewrite Q8. apply in_or_app. auto.
    + exfalso. destruct (armed_settled c s j C A X1). contradiction.
    + exfalso. specialize (A X1). rewrite Q1' in A. discriminate.
    + assert (R0 : running s i = true) by (unfold running in *; now rewrite <- Q5). specialize (X2 i Hi R0).
      apply (SG _ _ (In (KFwd i u) (stk s)) X2); [intros Z; exact Z|intros [? ?]; split; auto; now rewrite Q4|].
      intros Z. left. destruct Q6 as [[_ ->]|[_ ->]]; auto. apply in_or_app. auto.
    + assert (R0 : running s i = true) by now rewrite <- Q2. specialize (X2 i Hi R0).
      apply (SG _ _ (In (KFwd i u) (stk s)) X2); [intros Z; exact Z|intros [? ?]; split; auto; now rewrite Q1'|].
      intros Z. left. now apply (Q7 (KFwd i u) Logic.I).
  - destruct G as [j t Q1' Q2 Q3 Q4 Q5 Q6|j t Q1' Q2 Q3 Q4 Q5 Q6|j w t Q1' Q2 Q3 Q4 Q5|j w t Q1' Q2 Q3 Q4 Q5 Q6|j t Q1' Q2 Q3 Q4 Q5
     |j x t ns Q1' Q2 Q3 Q4 Q5 Q6 Q7 Q8 Q9 Q10 Q11|j ns Q1' Q2 Q3 Q4 Q5 Q6 Q7 Q8 Q9 Q10 Q11|j Q1' Q2 Q3 Q4 Q5 Q6|Q1' Q2 Q3 Q4 Q5 Q6 Q7|w ev' Q1' Q2 Q3 Q4 Q5 Q6|Q1' Q2 Q3 Q4 Q5 Q6 Q7];
      try (exfalso; eapply silent_cancelled; eauto; fail);
      try (exfalso; subst ev; destruct a' as [|? [|]]; discriminate).
    + exfalso. destruct Q6 as [(_ & -> & _)|(_ & -> & _)]; destruct a' as [|? [|]]; discriminate.
    + exfalso. destruct Q5 as [(_ & _ & -> & _)|(_ & -> & _)]; destruct a' as [|? [|]]; discriminate.
    + rewrite Q1' in Q1. destruct a' as [|y a']; cbn in Q1.
      2:{ exfalso. injection Q1 as _ Q1. eapply silent_cancelled; eauto. }
      injection Q1 as -> ->.
      assert (AR1 : armed s = true) by (eapply cancel_armed; eauto; rewrite Q1'; now left).
      split.
      * destruct (step_armed c s l s' ev H) as [Z|(t & Z1 & _)]; [congruence|].
        specialize (A AR1). rewrite Z1 in A. discriminate.
      * intros i Hi R. left. destruct Q6 as [[Y _]|[_ ->]].
        -- exfalso. pose proof (fin_no_live c s W C (or_introl Y) i) as Z. unfold running in R. rewrite Q5 in R.
           destruct (ph s i); cbn in Z; congruence.
        -- apply in_or_app. left. apply (in_map (fun i => KFwd i u)). apply in_seq. cbn. split; [lia|].
           apply (live_lt c s tr i W T). intros Y. unfold running in R. rewrite Q5, Y in R. discriminate.
Qed.

Lemma run_CX c ls s tr : wf c -> run c (init c) ls = Some (s, tr) -> CX c s tr.
Proof.
  intros W H. cut (TI c s tr /\ CX c s tr); [tauto|]. revert H. apply (run_ind c (fun s tr => TI c s tr /\ CX c s tr)).
  - split; [now apply init_TI|]. split; [discriminate|]. intros a u b Q. destruct a; discriminate.
  - intros s0 tr0 l s' ev [T N] Hs. split; [eapply step_TI; eauto|eapply step_CX; eauto].
Qed.

(** *** The child whose transaction won is not cancelled by the race. *)
Definition WT s (tr : list event) : Prop :=
  uncancelled tr ->
  (forall i, In i (transactions tr) -> signals i tr = [] /\ canc s i = false) /\
  (decided_by tr = None -> forall i, signals i tr = []).
Lemma step_undecided c s tr l s' ev : wf c -> knd c = Race -> ALL c s tr -> step c l s = Some (s', ev) -> uncancelled (tr ++ ev) ->
  decided_by (tr ++ ev) = None -> forall i, signals i ev = [].
Proof.
  intros W K AL H U Hd i. pose proof AL as [T D S I B P N X0 Y]. pose proof (t_core _ _ _ T) as C.
  pose proof (unc_app _ _ U) as U0. rewrite decided_app in Hd.
  pose proof (step_sig c s l s' ev W C H) as G. destruct (X0 K) as [_ B2].
  destruct G as [j t Q1' Q2 Q3 Q4 Q5 Q6|j t Q1' Q2 Q3 Q4 Q5 Q6|j w t Q1' Q2 Q3 Q4 Q5|j w t Q1' Q2 Q3 Q4 Q5 Q6|j t Q1' Q2 Q3 Q4 Q5
     |j x t ns Q1' Q2 Q3 Q4 Q5 Q6 Q7 Q8 Q9 Q10 Q11|j ns Q1' Q2 Q3 Q4 Q5 Q6 Q7 Q8 Q9 Q10 Q11|j Q1' Q2 Q3 Q4 Q5 Q6|Q1' Q2 Q3 Q4 Q5 Q6 Q7|w ev' Q1' Q2 Q3 Q4 Q5 Q6|Q1' Q2 Q3 Q4 Q5 Q6 Q7];
    try (now subst ev); try now apply silent_signals.
  - exfalso. destruct (decided_by tr); [discriminate|]. specialize (B2 eq_refl). rewrite Q1' in B2. now apply soft_cons in B2.
  - exfalso. apply (U0 w). apply (n_nof _ _ _ N j). rewrite Q1'. now left.
  - exfalso. apply (U w). apply in_or_app. right. rewrite Q1'. now left.
Qed.
Lemma step_WT c s tr l s' ev : wf c -> knd c = Race -> ALL c s tr -> WT s tr -> step c l s = Some (s', ev) -> WT s' (tr ++ ev).
Proof.
  intros W K AL X H U. pose proof AL as [T D S I B P N X0 Y]. pose proof (t_core _ _ _ T) as C.
  pose proof (unc_app _ _ U) as U0. specialize (X U0). destruct X as [X XU]. split.
  2:{ intros Hd i. rewrite signals_app. rewrite (step_undecided c s tr l s' ev W K AL H U Hd), app_nil_r.
      apply XU. rewrite decided_app in Hd. destruct (decided_by tr); auto; discriminate. }
  intros i Hi.
  pose proof (step_sig c s l s' ev W C H) as G. rewrite transactions_app in Hi. rewrite signals_app.
  destruct G as [j t Q1' Q2 Q3 Q4 Q5 Q6|j t Q1' Q2 Q3 Q4 Q5 Q6|j w t Q1' Q2 Q3 Q4 Q5|j w t Q1' Q2 Q3 Q4 Q5 Q6|j t Q1' Q2 Q3 Q4 Q5
     |j x t ns Q1' Q2 Q3 Q4 Q5 Q6 Q7 Q8 Q9 Q10 Q11|j ns Q1' Q2 Q3 Q4 Q5 Q6 Q7 Q8 Q9 Q10 Q11|j Q1' Q2 Q3 Q4 Q5 Q6|Q1' Q2 Q3 Q4 Q5 Q6 Q7|w ev' Q1' Q2 Q3 Q4 Q5 Q6|Q1' Q2 Q3 Q4 Q5 Q6 Q7].
  - assert (Hi' : In i (transactions tr)).
    { destruct Q6 as [(_ & Z & _)|(_ & Z & _)]; rewrite Z in Hi; cbn in Hi; now rewrite app_nil_r in Hi. }
    destruct (X i Hi') as [X1 X2]. assert (Nj : j <> i) by congruence.
    rewrite Q4, upd_other, X1 by auto. split; auto.
    destruct Q6 as [(_ & -> & _)|(_ & -> & _)]; cbn; auto. destruct (Nat.eqb_spec j i); congruence.
  - rewrite (silent_transactions ev) in Hi by auto. rewrite app_nil_r in Hi. rewrite (silent_signals ev), Q3, app_nil_r by auto. auto.
  - exfalso. apply (U0 w). apply (n_nof _ _ _ N j). rewrite Q1'. now left.
  - exfalso. apply (U0 w). apply (n_nof _ _ _ N j). rewrite Q1'. now left.
  - subst ev. cbn in *. rewrite app_nil_r in *. destruct (X i Hi) as [X1 X2]. split; auto.
    destruct (n_tx _ _ _ N) as [Z|(q & Z & Zd)]; rewrite Z in Hi; [destruct Hi|]. destruct Hi as [->|[]].
    unfold DI in D. rewrite K in D. destruct D as [_ D]. destruct (D i Zd) as [_ D1].
    assert (Nj : i <> j).
    { intros ->. unfold running in D1. rewrite Q2 in D1. destruct D1; discriminate. }
    rewrite Q4, upd_other by (auto; rewrite K; discriminate). auto.
  - subst ev. cbn in *. rewrite app_nil_r in *. destruct (X i Hi) as [X1 X2]. split; auto.
    destruct (Nat.eq_dec i j) as [->|Nj]; [destruct Q7; congruence|]. now rewrite Q6.
  - subst ev. cbn in *. rewrite app_nil_r in *. rewrite Q7.
    assert (Z : transactions tr = []).
    { unfold DI in D. rewrite K in D. destruct D as [D _]. rewrite Q5 in D. symmetry in D. now apply undecided_fin in D. }
    rewrite Z in Hi. destruct Hi as [->|[]]. rewrite upd_same. split; auto.
    apply XU. unfold DI in D. rewrite K in D. destruct D as [D _]. congruence.
  - subst ev. cbn in *. rewrite app_nil_r in *. rewrite Q5. auto.
  - congruence.
  - exfalso. apply (U w). apply in_or_app. right. rewrite Q1'. now left.
  - rewrite (silent_transactions ev) in Hi by auto. rewrite app_nil_r in Hi. rewrite (silent_signals ev), Q1', app_nil_r by auto. auto.
Qed.
Lemma run_WT c ls s tr : wf c -> knd c = Race -> run c (init c) ls = Some (s, tr) -> WT s tr.
Proof.
  intros W K H. cut (ALL c s tr /\ WT s tr); [tauto|]. revert H. apply (run_ind c (fun s tr => ALL c s tr /\ WT s tr)).
  - split; [now apply init_ALL|]. intros _. split; [intros i []|reflexivity].
  - intros s0 tr0 l s' ev [T N] Hs. split; [eapply step_ALL; eauto|eapply step_WT; eauto].
Qed.

(** *** gather and join interrupt children only when interrupted themselves. *)
Definition IN s (tr : list event) : Prop :=
  In EInterrupted tr \/
  ((forall k, In k (stk s) -> match k with KInt _ | KIntG _ => False | _ => True end) /\ forall i, interrupts i tr = 0).
Definition nint (k : item) : Prop := match k with KInt _ | KIntG _ => False | _ => True end.
Lemma step_IN c s tr l s' ev : knd c <> Race -> IN s tr -> step c l s = Some (s', ev) -> IN s' (tr ++ ev).
Proof.
  intros K [X|[X1 X2]] H; [left; apply in_or_app; auto|].
  assert (R : is_race c = false) by (unfold is_race; destruct (knd c); congruence).
  assert (CA : forall k, In k (cancel_all c) -> nint k).
  { intros k Q. apply in_cancel_all in Q as (a & [[-> Q]| ->]); [congruence|exact Logic.I]. }
  assert (FI : forall j rd x (z : state), (forall k, In k (stk z) -> nint k) -> forall k, In k (stk (finish c j rd x z)) -> nint k).
  { intros j rd x z Hz k. unfold finish. destruct (knd c); [|destruct x; unfold join_result|now elim K]; cbn.
    - intros [<-|Q]; [exact Logic.I|auto].
    - intros [<-|Q]; [exact Logic.I|auto].
    - destruct (err _); cbn; rewrite !in_app_iff; cbn; intros [[Q|[<-|[]]]|Q]; auto; exact Logic.I.
    - destruct (err _); cbn; rewrite !in_app_iff; cbn; intros [[Q|[<-|[]]]|Q]; auto; exact Logic.I. }
  assert (OK : forall ns t, (forall k, In k ns -> nint k) -> (forall k, In k t -> nint k) -> forall k, In k (ns ++ t) -> nint k).
  { intros ns t A B k Q. apply in_app_or in Q as []; auto. }
  assert (GO : (forall i, interrupts i ev = 0) -> (forall k, In k (stk s') -> nint k) -> IN s' (tr ++ ev)).
  { intros A B. right. split; auto. intros i. now rewrite interrupts_app, X2, A. }
  change (forall k, In k (stk s) -> nint k) in X1.
  destruct l; cbn in H.
  - destruct (stk s) as [|k t] eqn:Es; [discriminate|].
    assert (Xt : forall k, In k t -> nint k) by (intros q Hq; apply X1; now right).
    pose proof (X1 k (or_introl eq_refl)) as Xk.
    destruct k; cbn in H, Xk; try contradiction; unfold settle, emit in H;
    repeat match type of H with
      | context [match todo s with _ => _ end] => destruct (todo s)
      | context [match lastf s with _ => _ end] => destruct (lastf s)
      | context [match knd c with _ => _ end] => destruct (knd c)
      | context [match err s with _ => _ end] => destruct (err s)
      | context [if ?b then _ else _] => destruct b
      end; try discriminate; inj H; (apply GO; [reflexivity|unfold create; rewrite ?R]); cbn; auto;
      try (intros q Hq; repeat (destruct Hq as [<-|Hq]; [exact Logic.I|]); auto; fail).
    apply OK; auto. apply OK; auto. intros q [<-|[]]. exact Logic.I.
  - destruct (stk s) as [|[] t] eqn:Es; try discriminate. injection H as H.
    assert (Xt : forall k, In k t -> nint k) by (intros q Hq; apply X1; now right).
    destruct b as [x|e|]; cbn in H; [inj H|inj H|destruct (knd c); cbn in H; destruct (wired s); inj H]; (apply GO; [reflexivity|]); auto.
    all: try (apply FI; exact Xt); cbn; auto; try (intros q [<-|Q]; [exact Logic.I|auto]).
  - destruct (user s && running s i); [|discriminate]. inj H. apply GO; [reflexivity|apply FI; exact X1].
  - destruct (user s); [|discriminate]. unfold transact in H. rewrite R in H. discriminate.
  - destruct (user s && armed s); [|discriminate]. destruct (fin s); inj H; (apply GO; [reflexivity|]); auto.
    cbn. apply OK; auto. intros k Q. apply in_map_iff in Q as (j & <- & _). exact Logic.I.
  - destruct (user s && coro s); [|discriminate]. inj H. left. apply in_or_app. right. now left.
Qed.
Lemma run_IN c ls s tr : knd c <> Race -> run c (init c) ls = Some (s, tr) -> IN s tr.
Proof.
  intros K. apply (run_ind c IN).
  - right. split; [|reflexivity]. intros k. cbn. intros H. apply in_app_or in H as [H|[<-|[]]]; [|exact Logic.I].
    destruct (ranged c && negb (is_race c)); [|destruct H]. apply in_map_iff in H as (i & <- & _). exact Logic.I.
  - intros. eapply step_IN; eauto.
Qed.

(** *** Race results over a range of void awaitables, in calm runs. *)
Lemma run_RD_calm c ls s tr : wf c -> knd c = Race -> run c (init c) ls = Some (s, tr) -> calm tr -> race_data c s tr.
Proof.
  intros W K H. cut (ALL c s tr /\ (calm tr -> race_data c s tr)); [tauto|]. revert H.
  apply (run_ind c (fun s tr => ALL c s tr /\ (calm tr -> race_data c s tr))).
  - split; [now apply init_ALL|]. intros _. cbn. auto.
  - intros s0 tr0 l s' ev [A R] H. split; [eapply step_ALL; eauto|]. intros Hc. pose proof (calm_app _ _ Hc) as Hc0.
    pose proof A as [T D S I B P N X0 Y].
    eapply step_RD; eauto. intros i x -> Hr Hv Hp. destruct (idx s0) eqn:Ei; auto. exfalso.
    eapply decided_no_begin; eauto. pose proof D as D'. unfold DI in D'. rewrite K in D'. destruct D' as [D' _]. congruence.
Qed.
End Result.
