(** Invariants about the signals sent to children. *)
From Coq Require Import List Bool Arith Lia Permutation.
From Verif Require Import Comb_Model Comb_Spec Comb_Core Comb_Trace Comb_Data Comb_Calm Comb_Signal.
Import ListNotations.

Section Sent.
Context {V E : Type}.
Notation state := (state V E).
Notation label := (label V E).
Notation event := (event V E).
Implicit Types (s : state).

Lemma unc_app (a b : list event) : uncancelled (a ++ b) -> uncancelled a.
Proof. intros H t Q. apply (H t), in_or_app. auto. Qed.
Lemma nothrow_app (a b : list event) : nothrow (a ++ b) -> nothrow a.
Proof. intros H i x Q. apply (H i x). rewrite finished_app. apply in_or_app. auto. Qed.

Lemma split_nomain (ns l a t : list item) i : nomain ns -> ns ++ l = a ++ KBeg i :: t -> exists a', l = a' ++ KBeg i :: t.
Proof.
  revert a. induction ns as [|k ns IH]; cbn; intros a N H; [eauto|].
  destruct a as [|k' a]; cbn in H; injection H as -> H.
  - specialize (N (KBeg i) (or_introl eq_refl)). discriminate.
  - apply (IH a); auto. intros q Hq. apply N. now right.
Qed.
Lemma split_one (k : item) a b t : [k] = a ++ b :: t -> k = b /\ t = [].
Proof.
  destruct a as [|x a]; cbn; intros H; injection H as -> H; auto. destruct a; discriminate.
Qed.

Definition BB s : Prop := forall a i t, stk s = a ++ KBeg i :: t -> t = [KRdyChk i] \/ t = [KChk i].

Lemma step_BB c s l s' ev : wf c -> Core c s -> BB s -> step c l s = Some (s', ev) -> BB s'.
Proof.
  intros W C B H a i t Hs. pose proof (step_move c s l s' ev W C H) as M.
  destruct M as [ns U Q N _ T|k t0 ns Q1 Mk Q N _ T|k ns Q1 Mk Q N _ T|i0 l0 Q1 T1 T2 Q|i0 Q1 T G R Q|i0 Q1 T G Q|i0 Q1 T Q
                |i0 Q1 T U Q|i0 l0 Q1 T1 T2 Q|Q1 T1 T2 Q|i0 Q1 T U Q|i0 Q1 T G R Q|ns Q1 T Q N _];
    rewrite Hs in Q; symmetry in Q.
  - apply split_nomain in Q as [a' Q]; eauto.
  - apply split_nomain in Q as [a' Q]; auto. apply (B (k :: a') i t). cbn. congruence.
  - exfalso. subst ns. specialize (N (KBeg i)). rewrite in_app_iff in N. specialize (N (or_intror (or_introl eq_refl))). discriminate.
  - destruct a as [|x [|y [|z a]]]; cbn in Q; try discriminate.
    + injection Q as <- <- <-. auto.
    + injection Q as _ _ Q. destruct a; discriminate.
  - apply split_one in Q as [Q _]. discriminate.
  - apply split_one in Q as [Q _]. discriminate.
  - destruct a as [|x [|y a]]; cbn in Q; try discriminate. injection Q as _ _ Q. destruct a; discriminate.
  - apply split_one in Q as [Q _]. discriminate.
  - destruct a as [|x [|y [|z a]]]; cbn in Q; try discriminate.
    + injection Q as <- <- <-. auto.
    + injection Q as _ _ Q. destruct a; discriminate.
  - apply split_one in Q as [Q _]. discriminate.
  - apply split_one in Q as [Q _]. discriminate.
  - apply split_one in Q as [Q _]. discriminate.
  - apply split_nomain in Q as [a' Q]; auto. apply split_one in Q as [Q _]. discriminate.
Qed.

Definition PK s : Prop := forall i, ph s i = Parked -> stk s = [KRdyChk i] \/ stk s = [KGo i].

Lemma step_PK c s l s' ev : wf c -> Core c s -> BB s -> PK s -> step c l s = Some (s', ev) -> PK s'.
Proof.
  intros W C B P H i Hi. pose proof (step_move c s l s' ev W C H) as M.
  pose proof (step_sig c s l s' ev W C H) as G.
  assert (OLD : ph s i = Parked -> stk s' = [KRdyChk i] \/ stk s' = [KGo i]).
  { intros Hp. destruct (P i Hp) as [Q0|Q0].
    - unfold step in H. assert (U : user s = false) by (unfold user; now rewrite Q0).
      destruct l; rewrite ?U in H; cbn in H; try discriminate; rewrite Q0 in H; [|discriminate].
      cbn in H. change (gone (set_stk [] s) i) with (gone s i) in H. unfold gone in H. rewrite Hp in H.
      inj H. cbn. auto.
    - exfalso. unfold step in H. assert (U : user s = false) by (unfold user; now rewrite Q0).
      destruct l; rewrite ?U in H; cbn in H; try discriminate; rewrite Q0 in H; [|discriminate].
      cbn in H. inj H. cbn in Hi. rewrite upd_same in Hi. discriminate. }
  destruct G as [j t Q1 Q2 Q3 Q4 Q5 Q6|j t Q1 Q2 Q3 Q4 Q5 Q6|j u t Q1 Q2 Q3 Q4 Q5|j u t Q1 Q2 Q3 Q4 Q5 Q6|j t Q1 Q2 Q3 Q4 Q5
     |j x t ns Q1 Q2 Q3 Q4 Q5 Q6 Q7 Q8 Q9 Q10 Q11|j ns Q1 Q2 Q3 Q4 Q5 Q6 Q7 Q8 Q9 Q10 Q11|j Q1 Q2 Q3 Q4 Q5 Q6|Q1 Q2 Q3 Q4 Q5 Q6 Q7|u ev' Q1 Q2 Q3 Q4 Q5 Q6|Q1 Q2 Q3 Q4 Q5 Q6 Q7];
    try (apply OLD; congruence).
  - destruct (Nat.eq_dec i j).
    + subst j. destruct Q5 as [(A1 & A2 & A3)|(A1 & A2 & A3)]; rewrite A2, upd_same in Hi; [discriminate|].
      rewrite A3. destruct (B [] i t Q1) as [->| ->]; auto. exfalso.
      assert (wired s = true) by (apply (c_wired _ _ _ _ _ _ _ _ _ C (KChk i)); [rewrite Q1; right; now left|reflexivity]).
      congruence.
    + apply OLD. destruct Q5 as [(A1 & A2 & A3)|(A1 & A2 & A3)]; rewrite A2, upd_other in Hi; auto.
  - apply OLD. destruct (Nat.eq_dec i j); [subst; rewrite Q3, upd_same in Hi; discriminate|].
    now rewrite Q3, upd_other in Hi.
  - apply OLD. destruct (Nat.eq_dec i j); [subst; rewrite Q4, upd_same in Hi; discriminate|].
    now rewrite Q4, upd_other in Hi.
  - apply OLD. now apply Q5.
Qed.

Record SN c s (tr : list event) : Prop := {
  n_park : knd c <> Gather -> forall i, ph s i = Parked -> canc s i = true;
  n_pre : forall i, pre (ph s i) = true -> signals i tr = [];
  n_nof : forall i u, In (KFwd i u) (stk s) -> In (ECancelled u) tr;
  n_canc : uncancelled tr -> forall i, canc s i = true -> signals i tr = [];
  n_one : uncancelled tr -> forall i, signals i tr = [] \/ signals i tr = [own c];
  n_run : knd c <> Gather -> forall i, running s i = true -> canc s i = false ->
          In (own c) (signals i tr) \/ In i (transactions tr);
  n_late : calm tr -> forall k, In (KEmit k) (stk s) -> forall j, ph s j <> Entering;
  n_race : knd c = Race -> calm tr -> nothrow tr -> decided_by tr <> None ->
           forall i, running s i = true -> canc s i = true -> In (KEmit i) (stk s);
  n_join : knd c = Join -> first_error (finished tr) <> None ->
           forall i, running s i = true -> canc s i = true ->
           In (KEmit i) (stk s) \/ exists k, In k (stk s) /\ (looping k = true \/ k = KArm);
  n_gather : knd c = Gather -> forall i, ~ In (KEmit i) (stk s);
  n_nosig : uncancelled tr -> knd c = Gather -> forall i, signals i tr = [];
  n_not : uncancelled tr -> calm tr -> forall i t b, In (EEmit i t b) tr -> b = false /\ t = own c;
  n_tx : transactions tr = [] \/ exists i, transactions tr = [i] /\ decided_by tr = Some i }.

Lemma silent_signals (ev : list event) i : silent ev = true -> signals i ev = [].
Proof. induction ev as [|[] ev IH]; cbn; auto; discriminate. Qed.
Lemma silent_transactions (ev : list event) : silent ev = true -> transactions ev = [].
Proof. induction ev as [|[] ev IH]; cbn; auto; discriminate. Qed.
Lemma silent_finished (ev : list event) : silent ev = true -> finished ev = [].
Proof. induction ev as [|[] ev IH]; cbn; auto; discriminate. Qed.
Lemma silent_decided (ev : list event) : silent ev = true -> decided_by ev = None.
Proof. induction ev as [|[] ev IH]; cbn; auto; discriminate. Qed.
Lemma silent_emit (ev : list event) i t b : silent ev = true -> ~ In (EEmit i t b) ev.
Proof. unfold silent. rewrite forallb_forall. intros H Q. specialize (H _ Q). discriminate. Qed.

Lemma live_lt c s tr i : wf c -> TI c s tr -> ph s i <> Idle -> i < size c.
Proof.
  intros W T H. apply (live_ord c s tr i T) in H. apply (Permutation_in _ (wf_perm c W)), in_seq in H. lia.
Qed.
Lemma running_live s i : running s i = true -> ph s i <> Idle.
Proof. unfold running. intros H Q. rewrite Q in H. discriminate. Qed.
Lemma running_pre s i : running s i = true -> pre (ph s i) = false.
Proof. unfold running. destruct (ph s i); auto; discriminate. Qed.

(** In a decided calm race nothing enters any more. *)
Lemma decided_no_begin c s tr i : TI c s tr -> DI c s tr -> CI c s tr -> knd c = Race -> calm tr -> decided_by tr <> None ->
  ph s i = Starting -> False.
Proof.
  intros T D I K Hc Hd Hi. unfold DI in D. rewrite K in D. destruct D as [D _].
  assert (R : is_race c = true) by (unfold is_race; now rewrite K).
  assert (Hx : idx s <> None) by congruence.
  destruct (c_start _ _ _ _ _ _ _ _ _ (t_core _ _ _ T) i Hi) as [Q|Q];
    destruct (ci_stop _ _ _ I R Hc Hx _ Q eq_refl) as (j & [Z|[Z|[Z|Z]]] & _ & Z2); try discriminate;
    injection Z as <-; rewrite Hi in Z2; discriminate.
Qed.
Lemma decided_no_go c s tr i : TI c s tr -> DI c s tr -> CI c s tr -> knd c = Race -> calm tr -> decided_by tr <> None ->
  In (KGo i) (stk s) -> False.
Proof.
  intros T D I K Hc Hd Hi. unfold DI in D. rewrite K in D. destruct D as [D _].
  assert (R : is_race c = true) by (unfold is_race; now rewrite K).
  assert (Hx : idx s <> None) by congruence.
  destruct (ci_stop _ _ _ I R Hc Hx _ Hi eq_refl) as (j & [Z|[Z|[Z|Z]]] & Z3 & _); try discriminate; congruence.
Qed.

(** A join under way keeps its loop until every child is cancelled. *)
Lemma join_wait c s l s' ev : wf c -> Core c s -> knd c = Join -> step c l s = Some (s', ev) ->
  (exists k, In k (stk s) /\ (looping k = true \/ k = KArm)) ->
  (exists k, In k (stk s') /\ (looping k = true \/ k = KArm)) \/ (forall i, running s i = false) \/
  stk s = [KArm].
Proof.
  intros W C K H (k & Hk & Lk).
  assert (Mk : main k = true) by (destruct Lk as [Lk| ->]; [now apply loop_main|reflexivity]).
  pose proof (step_move c s l s' ev W C H) as M. unfold is_race in M.
  destruct M as [ns U Q N _ T|k0 t0 ns Q1 Mk0 Q N _ T|k0 ns Q1 Mk0 Q N _ T|i0 l0 Q1 T1 T2 Q|i0 Q1 T G R Q|i0 Q1 T G Q|i0 Q1 T Q
                |i0 Q1 T U Q|i0 l0 Q1 T1 T2 Q|Q1 T1 T2 Q|i0 Q1 T U Q|i0 Q1 T G R Q|ns Q1 T Q N _].
  - left. exists k. rewrite Q. split; auto. apply in_or_app. auto.
  - left. exists k. rewrite Q. split; auto. apply in_or_app. right. rewrite Q1 in Hk. destruct Hk as [<-|]; auto. congruence.
  - rewrite Q1 in Hk. destruct Hk as [<-|[]].
    assert (U : user s = false) by (unfold user; rewrite Q1; destruct k0; auto; discriminate).
    destruct l; cbn in H; rewrite ?U in H; cbn in H; try discriminate; rewrite Q1 in H; [|destruct k0; discriminate].
    destruct k0; try discriminate Mk0; cbn in H; rewrite ?K in H; destruct Lk as [Lk|Lk]; try discriminate.
    + right. left. intros i.
      assert (Hw : wired s = false) by (apply (c_wired _ _ _ _ _ _ _ _ _ C KRdy); [rewrite Q1; now left|reflexivity]).
      destruct (c_unwired _ _ _ _ _ _ _ _ _ C Hw i). unfold running. destruct (ph s i); auto; congruence.
    + destruct (gone _ i); inj H; cbn in Q; subst ns; specialize (N _ (or_introl eq_refl)); discriminate.
    + inj H. cbn in Q. subst ns. specialize (N (KOut i) (or_intror (or_introl eq_refl))). discriminate.
    + destruct (settle _ _); inj H. cbn in Q. subst ns. specialize (N _ (or_introl eq_refl)); discriminate.
    + destruct (todo s); inj H; cbn in Q; subst ns; [specialize (N _ (or_introl eq_refl)); discriminate|].
      specialize (N (KBeg n) (or_intror (or_introl eq_refl))); discriminate.
    + destruct (settle _ _); inj H. cbn in Q. subst ns. specialize (N _ (or_introl eq_refl)); discriminate.
    + auto.
  - left. exists (KRdyChk i0). rewrite Q. split; [right; right; now left|auto].
  - left. exists KRdy. rewrite Q. split; [now left|auto].
  - left. exists (KGo i0). rewrite Q. split; [now left|auto].
  - left. exists (KOut i0). rewrite Q. split; [right; now left|auto].
  - left. exists KStart. rewrite Q. split; [now left|auto].
  - left. exists (KChk i0). rewrite Q. split; [right; right; now left|auto].
  - left. exists KArm. rewrite Q. split; [now left|auto].
  - left. exists KStart. rewrite Q. split; [now left|auto].
  - left. exists KArm. rewrite Q. split; [now left|auto].
  - auto.
Qed.

Lemma calm_susp_last (tr : list event) e : calm (tr ++ [e]) -> calm tr.
Proof. apply calm_app. Qed.

Lemma enter_window c s tr j : TI c s tr -> CI c s tr -> calm tr -> ph s j = Entering -> window tr = Some (Some j).
Proof.
  intros T I Hc Hj. unfold calm in Hc. destruct (window tr) as [cur|] eqn:Ew; [|now elim Hc].
  f_equal. destruct (c_enter _ _ _ _ _ _ _ _ _ (t_core _ _ _ T) j Hj) as [Q|Q];
    apply (ci_cur _ _ _ I cur Ew _ j Q); try (red; auto); now rewrite Hj.
Qed.

Theorem step_SN c s tr l s' ev : wf c -> TI c s tr -> DI c s tr -> CI c s tr -> BB s -> PK s -> SN c s tr ->
  step c l s = Some (s', ev) -> SN c s' (tr ++ ev).
Proof.
  intros W T D I B P N H.
  pose proof (t_core _ _ _ T) as C.
  pose proof (step_sig c s l s' ev W C H) as G.
  pose proof (join_wait c s l s' ev W C) as JW.
  (* facts for steps whose events are neither completions nor transactions *)
  assert (GEN : finished ev = [] -> transactions ev = [] -> decided_by ev = None ->
    finished (tr ++ ev) = finished tr /\ transactions (tr ++ ev) = transactions tr /\ decided_by (tr ++ ev) = decided_by tr).
  { intros A1 A2 A3. rewrite finished_app, transactions_app, decided_app, A1, A2, A3, !app_nil_r.
    split; auto. split; auto. destruct (decided_by tr); auto. }
  assert (RUN0 : forall i, running s i = true -> i < size c)
    by (intros i Hi; apply (live_lt c s tr i W T), running_live, Hi).
  destruct G as [j t Q1 Q2 Q3 Q4 Q5 Q6|j t Q1 Q2 Q3 Q4 Q5 Q6|j u t Q1 Q2 Q3 Q4 Q5|j u t Q1 Q2 Q3 Q4 Q5 Q6|j t Q1 Q2 Q3 Q4 Q5
     |j x t ns Q1 Q2 Q3 Q4 Q5 Q6 Q7 Q8 Q9 Q10 Q11|j ns Q1 Q2 Q3 Q4 Q5 Q6 Q7 Q8 Q9 Q10 Q11|j Q1 Q2 Q3 Q4 Q5 Q6|Q1 Q2 Q3 Q4 Q5 Q6 Q7|u ev' Q1 Q2 Q3 Q4 Q5 Q6|Q1 Q2 Q3 Q4 Q5 Q6 Q7].
  - (* own signal *)
    assert (GEN' := GEN ltac:(destruct Q6 as [(_ & -> & _)|(_ & -> & _)]; reflexivity)
                        ltac:(destruct Q6 as [(_ & -> & _)|(_ & -> & _)]; reflexivity)
                        ltac:(destruct Q6 as [(_ & -> & _)|(_ & -> & _)]; reflexivity)).
    destruct GEN' as (G1 & G2 & G3).
    assert (SUB : forall k, In k (stk s') -> k = KUser \/ In k t).
    { destruct Q6 as [(_ & _ & ->)|(_ & _ & ->)]; cbn; intros k Hk; [destruct Hk|]; auto. }
    assert (SUP : forall k, In k t -> In k (stk s')).
    { destruct Q6 as [(_ & _ & ->)|(_ & _ & ->)]; cbn; auto. }
    assert (Hunc : uncancelled (tr ++ ev) -> uncancelled tr) by apply unc_app.
    assert (Hsig : forall i, i <> j -> signals i (tr ++ ev) = signals i tr).
    { intros i Hi. rewrite signals_app. destruct Q6 as [(_ & -> & _)|(_ & -> & _)]; cbn; [|now rewrite app_nil_r].
      destruct (Nat.eqb_spec j i); [congruence|]. now rewrite app_nil_r. }
    assert (Hsigj : signals j (tr ++ ev) = signals j tr ++ (if running s j then [own c] else [])).
    { rewrite signals_app. destruct Q6 as [(-> & -> & _)|(-> & -> & _)]; cbn; auto. now rewrite Nat.eqb_refl. }
    assert (NP : forall i, ph s i <> Parked).
    { intros i Hi. destruct (P i Hi) as [Z|Z]; rewrite Q1 in Z; discriminate. }
    constructor.
    + intros _ i Hi. rewrite Q5 in Hi. now apply NP in Hi.
    + intros i Hi. rewrite Q5 in Hi. destruct (Nat.eq_dec i j).
      * subst. rewrite Hsigj, (n_pre _ _ _ N j Hi). destruct (running s j) eqn:Er; auto.
        apply running_pre in Er. congruence.
      * rewrite Hsig by auto. now apply (n_pre _ _ _ N).
    + intros i u Hi. apply SUB in Hi as [|Hi]; [discriminate|]. apply in_or_app. left.
      apply (n_nof _ _ _ N i u). rewrite Q1. now right.
    + intros U i Hi. rewrite Q4 in Hi. destruct (Nat.eq_dec i j); [subst; rewrite upd_same in Hi; discriminate|].
      rewrite upd_other in Hi by auto. rewrite Hsig by auto. apply (n_canc _ _ _ N); auto.
    + intros U i. destruct (Nat.eq_dec i j); [|rewrite Hsig by auto; apply (n_one _ _ _ N); auto].
      subst. rewrite Hsigj, (n_canc _ _ _ N (Hunc U) j Q3). destruct (running s j); auto.
    + intros K i Hi Hc. unfold running in Hi. rewrite Q5 in Hi. rewrite G2. destruct (Nat.eq_dec i j).
      * subst. left. rewrite Hsigj. unfold running. rewrite Hi. apply in_or_app. right. now left.
      * rewrite Q4, upd_other in Hc by auto. rewrite Hsig by auto. now apply (n_run _ _ _ N).
    + intros Hc k Hk i. rewrite Q5. apply SUB in Hk as [|Hk]; [discriminate|].
      apply (n_late _ _ _ N (calm_app _ _ Hc) k). rewrite Q1. now right.
    + intros K Hc Hn Hd i Hi Hcc. rewrite G3 in Hd. rewrite Q4 in Hcc. unfold running in Hi. rewrite Q5 in Hi.
      destruct (Nat.eq_dec i j); [subst; rewrite upd_same in Hcc; discriminate|]. rewrite upd_other in Hcc by auto.
      apply SUP. pose proof (n_race _ _ _ N K (calm_app _ _ Hc) (nothrow_app _ _ Hn) Hd i Hi Hcc) as Z.
      rewrite Q1 in Z. destruct Z as [[= <-]|]; auto. congruence.
    + intros K Hf i Hi Hcc. rewrite G1 in Hf. rewrite Q4 in Hcc. unfold running in Hi. rewrite Q5 in Hi.
      destruct (Nat.eq_dec i j); [subst; rewrite upd_same in Hcc; discriminate|]. rewrite upd_other in Hcc by auto.
      destruct (n_join _ _ _ N K Hf i Hi Hcc) as [Z|(k & Z & Lk)].
      * left. apply SUP. rewrite Q1 in Z. destruct Z as [[= <-]|]; auto. congruence.
      * right. exists k. split; auto. apply SUP. rewrite Q1 in Z. destruct Z as [<-|]; auto.
        destruct Lk; discriminate.
    + intros K i Hi. apply SUB in Hi as [|Hi]; [discriminate|]. apply (n_gather _ _ _ N K i). rewrite Q1. now right.
    + intros U K i. elim (n_gather _ _ _ N K j). rewrite Q1. now left.
    + intros U Hc i t0 b Hi. apply in_app_or in Hi as [Hi|Hi]; [eapply (n_not _ _ _ N); eauto using calm_app|].
      destruct Q6 as [(R & Ev & _)|(_ & Ev & _)]; rewrite Ev in Hi; [|destruct Hi].
      destruct Hi as [[= <- <- <-]|[]]. split; auto. unfold entering.
      destruct (ph s j) eqn:Ep; auto. exfalso. eapply (n_late _ _ _ N (calm_app _ _ Hc) j); eauto. rewrite Q1. now left.
    + rewrite G2, G3. apply (n_tx _ _ _ N).
  - (* nothing to signal *)
    destruct (GEN (silent_finished _ Q5) (silent_transactions _ Q5) (silent_decided _ Q5)) as (G1 & G2 & G3).
    assert (Hsig : forall i, signals i (tr ++ ev) = signals i tr)
      by (intros i; rewrite signals_app, (silent_signals ev) by auto; apply app_nil_r).
    assert (Hkeep : forall i, running s i = true -> canc s i = true -> i <> j).
    { intros i Hr Hc ->. destruct Q2 as [Q2|Q2]; [|congruence].
      apply (fin_no_live c s W C (or_introl Q2) j). unfold running in Hr. destruct (ph s j); try discriminate; reflexivity. }
    assert (NP : forall i, ph s i <> Parked).
    { intros i Hi. destruct (P i Hi) as [Z|Z]; rewrite Q1 in Z; discriminate. }
    constructor.
    + intros _ i Hi. rewrite Q4 in Hi. now apply NP in Hi.
    + intros i. rewrite Q4, Hsig. apply (n_pre _ _ _ N).
    + intros i u Hi. rewrite Q6 in Hi. apply in_or_app. left. apply (n_nof _ _ _ N i u). rewrite Q1. now right.
    + intros U i. rewrite Q3, Hsig. apply (n_canc _ _ _ N). eapply unc_app; eauto.
    + intros U i. rewrite Hsig. apply (n_one _ _ _ N). eapply unc_app; eauto.
    + intros K i. unfold running. rewrite Q3, Q4, G2, Hsig. apply (n_run _ _ _ N K).
    + intros Hc k Hk i. rewrite Q4. rewrite Q6 in Hk. apply (n_late _ _ _ N (calm_app _ _ Hc) k). rewrite Q1. now right.
    + intros K Hc Hn Hd i. unfold running. rewrite G3 in Hd. rewrite Q3, Q4, Q6. intros Hi Hcc.
      pose proof (n_race _ _ _ N K (calm_app _ _ Hc) (nothrow_app _ _ Hn) Hd i Hi Hcc) as Z.
      rewrite Q1 in Z. destruct Z as [[= <-]|]; auto. now elim (Hkeep j Hi Hcc).
    + intros K Hf i. unfold running. rewrite G1 in Hf. rewrite Q3, Q4, Q6. intros Hi Hcc.
      destruct (n_join _ _ _ N K Hf i Hi Hcc) as [Z|(k & Z & Lk)]; rewrite Q1 in Z.
      * left. destruct Z as [[= <-]|]; auto. now elim (Hkeep j Hi Hcc).
      * right. exists k. split; auto. destruct Z as [<-|]; auto. destruct Lk; discriminate.
    + intros K i Hi. rewrite Q6 in Hi. apply (n_gather _ _ _ N K i). rewrite Q1. now right.
    + intros U K i. rewrite Hsig. apply (n_nosig _ _ _ N); auto. eapply unc_app; eauto.
    + intros U Hc i t0 b Hi. apply in_app_or in Hi as [Hi|Hi]; [eapply (n_not _ _ _ N); eauto using calm_app, unc_app|].
      now apply silent_emit in Hi.
    + rewrite G2, G3. apply (n_tx _ _ _ N).
  - (* forwarded signal *)
    assert (HF : In (ECancelled u) tr) by (apply (n_nof _ _ _ N j u); rewrite Q1; now left).
    assert (NU : forall e, ~ uncancelled (tr ++ e)) by (intros e U; apply (U u), in_or_app; auto).
    assert (GEN' := GEN ltac:(destruct Q5 as [(_ & _ & -> & _)|(_ & -> & _)]; reflexivity)
                        ltac:(destruct Q5 as [(_ & _ & -> & _)|(_ & -> & _)]; reflexivity)
                        ltac:(destruct Q5 as [(_ & _ & -> & _)|(_ & -> & _)]; reflexivity)).
    destruct GEN' as (G1 & G2 & G3).
    assert (SUB : forall k, In k (stk s') -> k = KUser \/ In k t).
    { destruct Q5 as [(_ & _ & _ & ->)|(_ & _ & ->)]; cbn; intros k Hk; [destruct Hk|]; auto. }
    assert (SUP : forall k, In k t -> In k (stk s')).
    { destruct Q5 as [(_ & _ & _ & ->)|(_ & _ & ->)]; cbn; auto. }
    assert (NP : forall i, ph s i <> Parked).
    { intros i Hi. destruct (P i Hi) as [Z|Z]; rewrite Q1 in Z; discriminate. }
    constructor; try (intros U; now elim (NU _ U)).
    + intros _ i Hi. rewrite Q3 in Hi. now apply NP in Hi.
    + intros i Hi. rewrite Q3 in Hi. rewrite signals_app, (n_pre _ _ _ N i Hi).
      destruct Q5 as [(R & _ & -> & _)|(_ & -> & _)]; cbn; auto.
      destruct (Nat.eqb_spec j i); auto. subst. apply running_pre in R. congruence.
    + intros i v Hi. apply SUB in Hi as [|Hi]; [discriminate|]. apply in_or_app. left.
      apply (n_nof _ _ _ N i v). rewrite Q1. now right.
    + intros K i. unfold running. rewrite Q3, Q4, G2, signals_app, in_app_iff. intros Hi Hcc.
      destruct (n_run _ _ _ N K i Hi Hcc); auto.
    + intros Hc k Hk i. rewrite Q3. apply SUB in Hk as [|Hk]; [discriminate|].
      apply (n_late _ _ _ N (calm_app _ _ Hc) k). rewrite Q1. now right.
    + intros K Hc Hn Hd i. unfold running. rewrite G3 in Hd. rewrite Q3, Q4. intros Hi Hcc. apply SUP.
      pose proof (n_race _ _ _ N K (calm_app _ _ Hc) (nothrow_app _ _ Hn) Hd i Hi Hcc) as Z.
      rewrite Q1 in Z. destruct Z as [|]; auto. discriminate.
    + intros K Hf i. unfold running. rewrite G1 in Hf. rewrite Q3, Q4. intros Hi Hcc.
      destruct (n_join _ _ _ N K Hf i Hi Hcc) as [Z|(k & Z & Lk)]; rewrite Q1 in Z.
      * left. apply SUP. destruct Z as [|]; auto. discriminate.
      * right. exists k. split; auto. apply SUP. destruct Z as [<-|]; auto. destruct Lk; discriminate.
    + intros K i Hi. apply SUB in Hi as [|Hi]; [discriminate|]. apply (n_gather _ _ _ N K i). rewrite Q1. now right.
    + rewrite G2, G3. apply (n_tx _ _ _ N).
  - (* forwarding after the combinator is gone *)
    assert (HF : In (ECancelled u) tr) by (apply (n_nof _ _ _ N j u); rewrite Q1; now left).
    assert (NU : forall e, ~ uncancelled (tr ++ e)) by (intros e U; apply (U u), in_or_app; auto).
    subst ev. destruct (GEN eq_refl eq_refl eq_refl) as (G1 & G2 & G3).
    assert (Hsig : forall i, signals i (tr ++ [EDangling]) = signals i tr)
      by (intros i; rewrite signals_app; apply app_nil_r).
    assert (NP : forall i, ph s i <> Parked).
    { intros i Hi. destruct (P i Hi) as [Z|Z]; rewrite Q1 in Z; discriminate. }
    constructor; try (intros U; now elim (NU _ U)).
    + intros _ i Hi. rewrite Q3 in Hi. now apply NP in Hi.
    + intros i. rewrite Q3, Hsig. apply (n_pre _ _ _ N).
    + intros i v Hi. rewrite Q6 in Hi. apply in_or_app. left. apply (n_nof _ _ _ N i v). rewrite Q1. now right.
    + intros K i. unfold running. rewrite Q3, Q4, G2, Hsig. apply (n_run _ _ _ N K).
    + intros Hc k Hk i. rewrite Q3. rewrite Q6 in Hk. apply (n_late _ _ _ N (calm_app _ _ Hc) k). rewrite Q1. now right.
    + intros K Hc Hn Hd i. unfold running. rewrite G3 in Hd. rewrite Q3, Q4, Q6. intros Hi Hcc.
      pose proof (n_race _ _ _ N K (calm_app _ _ Hc) (nothrow_app _ _ Hn) Hd i Hi Hcc) as Z.
      rewrite Q1 in Z. destruct Z as [|]; auto. discriminate.
    + intros K Hf i. unfold running. rewrite G1 in Hf. rewrite Q3, Q4, Q6. intros Hi Hcc.
      destruct (n_join _ _ _ N K Hf i Hi Hcc) as [Z|(k & Z & Lk)]; rewrite Q1 in Z.
      * left. destruct Z as [|]; auto. discriminate.
      * right. exists k. split; auto. destruct Z as [<-|]; auto. destruct Lk; discriminate.
    + intros K i Hi. rewrite Q6 in Hi. apply (n_gather _ _ _ N K i). rewrite Q1. now right.
    + rewrite G2, G3. apply (n_tx _ _ _ N).
  - (* a child is not ready *)
    subst ev. rewrite app_nil_r.
    destruct (B [] j t Q1) as [Ht|Ht].
    all: assert (SUB : forall k, In k (stk s') -> k = KUser \/ In k t)
      by (destruct Q5 as [(_ & _ & ->)|(_ & _ & ->)]; cbn; intros k Hk; [destruct Hk|]; auto).
    all: assert (SUP : forall k, In k t -> In k (stk s'))
      by (destruct Q5 as [(_ & _ & ->)|(_ & _ & ->)]; cbn; auto).
    all: assert (NE : forall k, ~ In (KEmit k) (stk s'))
      by (intros k Z; apply SUB in Z as [|Z]; [discriminate|]; rewrite Ht in Z; destruct Z as [|[]]; discriminate).
    all: assert (Hph : forall i, i <> j -> ph s' i = ph s i)
      by (intros i Hi; destruct Q5 as [(_ & -> & _)|(_ & -> & _)]; now apply upd_other).
    all: assert (Hphj : ph s' j = Entering \/ ph s' j = Parked)
      by (destruct Q5 as [(_ & -> & _)|(_ & -> & _)]; rewrite upd_same; auto).
    all: assert (NP : forall i, ph s i <> Parked)
      by (intros i Hi; destruct (P i Hi) as [Z|Z]; rewrite Q1 in Z; discriminate).
    all: assert (Spre : signals j tr = []) by (apply (n_pre _ _ _ N); now rewrite Q2).
    all: constructor;
      [ intros K i Hi; rewrite (Q4 K); destruct (Nat.eq_dec i j); [subst; apply upd_same|];
        rewrite Hph in Hi by auto; now apply NP in Hi
      | intros i Hi; destruct (Nat.eq_dec i j); [subst; auto|]; rewrite Hph in Hi by auto; now apply (n_pre _ _ _ N)
      | intros i v Hi; apply SUB in Hi as [|Hi]; [discriminate|]; rewrite Ht in Hi; destruct Hi as [|[]]; discriminate
      | intros U i Hi; destruct (Nat.eq_dec i j); [subst; auto|]; destruct (knd c) eqn:K;
        [now apply (n_nosig _ _ _ N)| |];
        (rewrite Q4 in Hi by discriminate); (rewrite upd_other in Hi by auto); now apply (n_canc _ _ _ N)
      | apply (n_one _ _ _ N)
      | intros K i Hi Hcc; rewrite (Q4 K) in Hcc; destruct (Nat.eq_dec i j);
        [subst; rewrite upd_same in Hcc; discriminate|]; rewrite upd_other in Hcc by auto;
        unfold running in Hi; rewrite Hph in Hi by auto; now apply (n_run _ _ _ N)
      | intros _ k Hk; now apply NE in Hk
      | intros K Hc Hn Hd i Hi Hcc; exfalso; eapply decided_no_begin; eauto
      | intros K Hf i Hi Hcc; right; rewrite Ht in SUP; eexists; split; [apply SUP; now left|auto]
      | intros K i Hi; now apply NE in Hi
      | apply (n_nosig _ _ _ N)
      | apply (n_not _ _ _ N)
      | apply (n_tx _ _ _ N) ].
  - (* a child finishes *)
    subst ev.
    assert (Hsig : forall i, signals i (tr ++ [EDone j x]) = signals i tr)
      by (intros i; rewrite signals_app; apply app_nil_r).
    assert (Htx : transactions (tr ++ [EDone j x]) = transactions tr) by (rewrite transactions_app; apply app_nil_r).
    assert (Hunc : uncancelled (tr ++ [EDone j x]) -> uncancelled tr) by apply unc_app.
    assert (Hcc : forall i, canc s' i = true -> canc s i = true).
    { intros i Hi. destruct (Nat.eq_dec i j); [subst; destruct Q7; congruence|]. now rewrite <- Q6. }
    assert (Hrun : forall i, running s' i = true -> running s i = true /\ i <> j).
    { unfold running. intros i Hi. rewrite Q3 in Hi. destruct (Nat.eq_dec i j); [subst; rewrite upd_same in Hi; discriminate|].
      now rewrite upd_other in Hi. }
    assert (SUB : forall k, In k t -> In k (stk s)).
    { intros k Hk. destruct Q2 as [[-> _]|[-> _]]; auto. now right. }
    assert (SUP : forall k, match k with KBeg _ => False | _ => True end -> In k (stk s) -> In k (stk s')).
    { intros k Hk Hi. rewrite Q4. apply in_or_app. right. destruct Q2 as [[Z _]|[Z _]]; rewrite Z in Hi; auto.
      destruct Hi as [<-|]; auto. contradiction. }
    assert (NP : forall i, ph s i <> Parked).
    { intros i Hi. destruct Q2 as [[Z _]|[Z [U _]]].
      - destruct (P i Hi) as [Z2|Z2]; rewrite Z in Z2; discriminate.
      - unfold user in U. destruct (P i Hi) as [Z2|Z2]; rewrite Z2 in U; discriminate. }
    constructor.
    + intros K i Hi. rewrite Q3 in Hi. destruct (Nat.eq_dec i j); [subst; rewrite upd_same in Hi; discriminate|].
      rewrite upd_other in Hi by auto. now apply NP in Hi.
    + intros i Hi. rewrite Q3 in Hi. destruct (Nat.eq_dec i j); [subst; rewrite upd_same in Hi; discriminate|].
      rewrite upd_other in Hi by auto. rewrite Hsig. now apply (n_pre _ _ _ N).
    + intros i u Hi. rewrite Q4 in Hi. apply in_or_app. left. apply in_app_or in Hi as [Hi|Hi]; [now apply Q10 in Hi|].
      apply (n_nof _ _ _ N i u). auto.
    + intros U i Hi. rewrite Hsig. apply (n_canc _ _ _ N); auto.
    + intros U i. rewrite Hsig. apply (n_one _ _ _ N); auto.
    + intros K i Hi Hc2. destruct (Hrun i Hi) as [R Hij]. rewrite Hsig, Htx. apply (n_run _ _ _ N); auto. now rewrite <- Q6.
    + intros Hc k Hk i Hi. rewrite Q3 in Hi. destruct (Nat.eq_dec i j); [subst; rewrite upd_same in Hi; discriminate|].
      rewrite upd_other in Hi by auto.
      pose proof (enter_window _ _ _ _ T I (calm_app _ _ Hc) Hi) as Z. unfold calm in Hc.
      rewrite window_app, Z in Hc. cbn in Hc. destruct (Nat.eqb_spec i j); [congruence|]. now elim Hc.
    + intros K Hc Hn Hd i Hi Hc2. rewrite Q4. apply in_or_app. left. apply Q8.
      * apply RUN0. now apply Hrun.
      * right. split; auto. apply (Hn j x). rewrite finished_app. apply in_or_app. right. now left.
    + intros K Hf i Hi Hc2. destruct (Hrun i Hi) as [R Hij]. destruct (is_err x) eqn:Ex.
      * left. rewrite Q4. apply in_or_app. left. apply Q8; auto.
      * rewrite finished_app, first_error_app in Hf. destruct x; try discriminate Ex. cbn in Hf.
        assert (Hf' : first_error (finished tr) <> None) by (destruct (first_error (finished tr)); congruence).
        destruct (n_join _ _ _ N K Hf' i R (Hcc i Hc2)) as [Z|(k & Z & Lk)].
        -- left. now apply SUP.
        -- right. exists k. split; auto. apply SUP; auto. destruct k; auto. destruct Lk; discriminate.
    + intros K i Hi. rewrite Q4 in Hi. apply in_app_or in Hi as [Hi|Hi]; [now apply Q11 in Hi|].
      apply (n_gather _ _ _ N K i). auto.
    + intros U K i. rewrite Hsig. apply (n_nosig _ _ _ N); auto.
    + intros U Hc i t0 b Hi. apply in_app_or in Hi as [Hi|[|[]]]; [|discriminate].
      eapply (n_not _ _ _ N); eauto using calm_app.
    + rewrite Htx, decided_app. destruct (n_tx _ _ _ N) as [Z|(i & Z1 & Z2)]; auto. right. exists i. rewrite Z2. auto.
  - (* a transaction begins *)
    subst ev.
    assert (Hd0 : decided_by tr = None).
    { unfold DI in D. rewrite Q4 in D. destruct D as [D _]. congruence. }
    assert (Hsig : forall i, signals i (tr ++ [ETxBegin j]) = signals i tr)
      by (intros i; rewrite signals_app; apply app_nil_r).
    assert (Htx : transactions (tr ++ [ETxBegin j]) = transactions tr ++ [j]) by (rewrite transactions_app; reflexivity).
    assert (Hunc : uncancelled (tr ++ [ETxBegin j]) -> uncancelled tr) by apply unc_app.
    assert (Hcc : forall i, canc s' i = true -> canc s i = true /\ i <> j).
    { intros i Hi. rewrite Q7 in Hi. destruct (Nat.eq_dec i j); [subst; rewrite upd_same in Hi; discriminate|].
      now rewrite upd_other in Hi. }
    assert (NP : forall i, ph s i <> Parked).
    { intros i Hi. unfold user in Q2. destruct (P i Hi) as [Z2|Z2]; rewrite Z2 in Q2; discriminate. }
    assert (SUP : forall k, In k (stk s) -> In k (stk s')) by (intros k Hk; rewrite Q8; apply in_or_app; auto).
    constructor.
    + intros K i Hi. rewrite Q6 in Hi. now apply NP in Hi.
    + intros i. rewrite Q6, Hsig. apply (n_pre _ _ _ N).
    + intros i u Hi. rewrite Q8 in Hi. apply in_or_app. left. apply in_app_or in Hi as [Hi|Hi].
      * apply in_app_or in Hi as [Hi|[|[]]]; [now apply Q11 in Hi|discriminate].
      * now apply (n_nof _ _ _ N i u).
    + intros U i Hi. rewrite Hsig. apply (n_canc _ _ _ N); auto. now apply Hcc.
    + intros U i. rewrite Hsig. apply (n_one _ _ _ N); auto.
    + intros K i Hi Hc2. unfold running in Hi. rewrite Q6 in Hi. rewrite Hsig, Htx, in_app_iff.
      destruct (Nat.eq_dec i j); [subst; right; right; now left|]. rewrite Q7, upd_other in Hc2 by auto.
      destruct (n_run _ _ _ N K i Hi Hc2); auto.
    + intros Hc k Hk i Hi. rewrite Q6 in Hi.
      pose proof (enter_window _ _ _ _ T I (calm_app _ _ Hc) Hi) as Z. unfold calm in Hc.
      rewrite window_app, Z in Hc. now elim Hc.
    + intros K Hc Hn Hd i Hi Hc2. rewrite Q8. apply in_or_app. left. apply in_or_app. left. apply Q9. apply RUN0.
      unfold running in *. now rewrite Q6 in Hi.
    + intros K. congruence.
    + intros K. congruence.
    + intros U K i. rewrite Hsig. apply (n_nosig _ _ _ N); auto.
    + intros U Hc i t0 b Hi. apply in_app_or in Hi as [Hi|[|[]]]; [|discriminate].
      eapply (n_not _ _ _ N); eauto using calm_app.
    + right. exists j. rewrite Htx, decided_app, Hd0. apply undecided_fin in Hd0 as [_ ->]. auto.
  - (* the first child is resumed *)
    subst ev. rewrite app_nil_r.
    assert (NE : forall k, ~ In (KEmit k) (stk s')) by (intros k Z; rewrite Q6 in Z; destruct Z as [|[|[]]]; discriminate).
    constructor.
    + intros K i Hi. rewrite Q5. destruct (Nat.eq_dec i j); [subst; now apply (n_park _ _ _ N)|].
      rewrite Q4, upd_other in Hi by auto. now apply (n_park _ _ _ N).
    + intros i Hi. destruct (Nat.eq_dec i j); [subst; apply (n_pre _ _ _ N); now rewrite Q3|].
      rewrite Q4, upd_other in Hi by auto. now apply (n_pre _ _ _ N).
    + intros i v Hi. rewrite Q6 in Hi. destruct Hi as [|[|[]]]; discriminate.
    + intros U i. rewrite Q5. now apply (n_canc _ _ _ N).
    + apply (n_one _ _ _ N).
    + intros K i Hi Hc2. rewrite Q5 in Hc2. destruct (Nat.eq_dec i j).
      * subst. rewrite (n_park _ _ _ N K j Q3) in Hc2. discriminate.
      * unfold running in Hi. rewrite Q4, upd_other in Hi by auto. now apply (n_run _ _ _ N).
    + intros _ k Hk. now apply NE in Hk.
    + intros K Hc Hn Hd. exfalso. eapply decided_no_go; eauto. rewrite Q1. now left.
    + intros K Hf i Hi Hcc. right. exists (KOut j). rewrite Q6. split; [right; now left|auto].
    + intros K i Hi. now apply NE in Hi.
    + apply (n_nosig _ _ _ N).
    + apply (n_not _ _ _ N).
    + apply (n_tx _ _ _ N).
  - (* join cancels after its loop *)
    subst ev. rewrite app_nil_r.
    constructor.
    + intros K i. rewrite Q5, Q6. now apply (n_park _ _ _ N).
    + intros i. rewrite Q6. apply (n_pre _ _ _ N).
    + intros i v Hi. rewrite Q7 in Hi. apply in_app_or in Hi as [Hi|[|[]]]; [|discriminate].
      apply in_cancel_all in Hi as (a & [[Hi _]|Hi]); discriminate.
    + intros U i. rewrite Q5. now apply (n_canc _ _ _ N).
    + apply (n_one _ _ _ N).
    + intros K i. unfold running. rewrite Q5, Q6. apply (n_run _ _ _ N K).
    + intros _ k Hk i Hi. rewrite Q6 in Hi.
      destruct (c_enter _ _ _ _ _ _ _ _ _ C i Hi) as [Z|Z]; rewrite Q1 in Z; destruct Z as [|[]]; discriminate.
    + intros K. congruence.
    + intros K Hf i Hi Hcc. left. rewrite Q7. apply in_or_app. left. apply in_emit. apply RUN0. unfold running in *. now rewrite <- Q6.
    + intros K. congruence.
    + apply (n_nosig _ _ _ N).
    + apply (n_not _ _ _ N).
    + apply (n_tx _ _ _ N).
  - (* the awaiting coroutine is cancelled *)
    subst ev.
    assert (NU : ~ uncancelled (tr ++ ECancelled u :: ev')) by (intros U; apply (U u), in_or_app; right; now left).
    destruct (GEN) as (G1 & G2 & G3); cbn; auto using silent_finished, silent_transactions, silent_decided.
    assert (Hsig : forall i, signals i (tr ++ ECancelled u :: ev') = signals i tr)
      by (intros i; rewrite signals_app; cbn; rewrite (silent_signals ev') by auto; apply app_nil_r).
    assert (SUB : forall k, match k with KFwd _ _ => False | _ => True end -> In k (stk s') -> In k (stk s)).
    { intros k Hk Hi. destruct Q6 as [[_ Z]|[_ Z]]; rewrite Z in Hi; auto. apply in_app_or in Hi as [Hi|]; auto.
      apply in_map_iff in Hi as (a & <- & _). contradiction. }
    assert (SUP : forall k, In k (stk s) -> In k (stk s')).
    { intros k Hk. destruct Q6 as [[_ Z]|[_ Z]]; rewrite Z; auto. apply in_or_app. auto. }
    constructor; try (intros U; now elim (NU U)).
    + intros K i. rewrite Q4, Q5. now apply (n_park _ _ _ N).
    + intros i. rewrite Q5, Hsig. apply (n_pre _ _ _ N).
    + intros i v Hi. apply in_or_app. destruct Q6 as [[_ Z]|[_ Z]]; rewrite Z in Hi.
      * left. now apply (n_nof _ _ _ N i v).
      * apply in_app_or in Hi as [Hi|Hi]; [|left; now apply (n_nof _ _ _ N i v)].
        apply in_map_iff in Hi as (a & [= <- <-] & _). right. now left.
    + intros K i. unfold running. rewrite Q4, Q5, G2, Hsig. apply (n_run _ _ _ N K).
    + intros Hc k Hk i. rewrite Q5. apply SUB in Hk; [|exact Logic.I]. now apply (n_late _ _ _ N (calm_app _ _ Hc) k).
    + intros K Hc Hn Hd i. unfold running. rewrite G3 in Hd. rewrite Q4, Q5. intros Hi Hcc. apply SUP.
      apply (n_race _ _ _ N K (calm_app _ _ Hc) (nothrow_app _ _ Hn) Hd i Hi Hcc).
    + intros K Hf i. unfold running. rewrite G1 in Hf. rewrite Q4, Q5. intros Hi Hcc.
      destruct (n_join _ _ _ N K Hf i Hi Hcc) as [Z|(k & Z & Lk)]; [left; auto|right; exists k; auto].
    + intros K i Hi. apply SUB in Hi; [|exact Logic.I]. now apply (n_gather _ _ _ N K i).
    + rewrite G2, G3. apply (n_tx _ _ _ N).
  - (* everything else *)
    destruct (GEN (silent_finished _ Q6) (silent_transactions _ Q6) (silent_decided _ Q6)) as (G1 & G2 & G3).
    assert (Hsig : forall i, signals i (tr ++ ev) = signals i tr)
      by (intros i; rewrite signals_app, (silent_signals ev) by auto; apply app_nil_r).
    constructor.
    + intros K i Hi. rewrite Q1. apply Q5 in Hi. now apply (n_park _ _ _ N).
    + intros i. rewrite Q4, Hsig. apply (n_pre _ _ _ N).
    + intros i v Hi. apply Q7 in Hi; [|exact Logic.I]. apply in_or_app. left. now apply (n_nof _ _ _ N i v).
    + intros U i. rewrite Q1, Hsig. apply (n_canc _ _ _ N). eapply unc_app; eauto.
    + intros U i. rewrite Hsig. apply (n_one _ _ _ N). eapply unc_app; eauto.
    + intros K i. rewrite Q1, Q2, G2, Hsig. apply (n_run _ _ _ N K).
    + intros Hc k Hk i Hi. apply Q7 in Hk; [|exact Logic.I].
      apply (n_late _ _ _ N (calm_app _ _ Hc) k Hk i).
      assert (Z : entering s i = true) by (apply Q3; unfold entering; now rewrite Hi).
      unfold entering in Z. destruct (ph s i); auto; discriminate.
    + intros K Hc Hn Hd i. rewrite G3 in Hd. rewrite Q1, Q2. intros Hi Hcc. apply Q7; [exact Logic.I|].
      apply (n_race _ _ _ N K (calm_app _ _ Hc) (nothrow_app _ _ Hn) Hd i Hi Hcc).
    + intros K Hf i. rewrite G1 in Hf. rewrite Q1, Q2. intros Hi Hcc.
      destruct (n_join _ _ _ N K Hf i Hi Hcc) as [Z|Z]; [left; now apply Q7|].
      destruct (JW K H Z) as [Z2|[Z2|Z2]]; [auto|rewrite Z2 in Hi; discriminate|].
      exfalso. unfold DI in D. rewrite K in D. destruct D as [D _].
      assert (U : user s = false) by (unfold user; now rewrite Z2).
      destruct l; cbn in H; rewrite ?U in H; cbn in H; try discriminate; rewrite Z2 in H; [|discriminate].
      cbn in H. rewrite K in H. destruct (err s) eqn:Ee; [|congruence]. inj H.
      assert (Z3 : In (KEmit i) (stk s)).
      { apply Q7; [exact Logic.I|]. cbn. rewrite app_nil_r. apply in_or_app. left. apply in_emit. auto. }
      rewrite Z2 in Z3. destruct Z3 as [|[]]; discriminate.
    + intros K i Hi. apply Q7 in Hi; [|exact Logic.I]. now apply (n_gather _ _ _ N K i).
    + intros U K i. rewrite Hsig. apply (n_nosig _ _ _ N); auto. eapply unc_app; eauto.
    + intros U Hc i t0 b Hi. apply in_app_or in Hi as [Hi|Hi]; [eapply (n_not _ _ _ N); eauto using calm_app, unc_app|].
      now apply silent_emit in Hi.
    + rewrite G2, G3. apply (n_tx _ _ _ N).
Qed.
End Sent.
