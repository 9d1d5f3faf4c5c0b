(** What a step does, seen from the trace; invariants tying state to trace. *)
From Coq Require Import List Bool Arith Lia Permutation.
From Verif Require Import Comb_Model Comb_Spec Comb_Core.
Import ListNotations.

Ltac inj H := injection H as <- <-.

Section Trace.
Context {V E : Type}.
Notation state := (state V E).
Notation label := (label V E).
Notation event := (event V E).
Implicit Types (s : state).

Definition inert1 (e : event) : bool :=
  match e with EStart _ | EDone _ _ | EResume _ | ETxBegin _ => false | _ => true end.
Definition inert (ev : list event) : bool := forallb inert1 ev.
Definition cls (p : phase) : nat := match p with Idle => 0 | Ending | Gone => 2 | _ => 1 end.

Lemma inert_finished (ev : list event) : inert ev = true -> finished ev = [].
Proof. induction ev as [|[] ev IH]; cbn; auto; discriminate. Qed.
Lemma inert_started (ev : list event) : inert ev = true -> started ev = [].
Proof. induction ev as [|[] ev IH]; cbn; auto; discriminate. Qed.
Lemma inert_resumptions (ev : list event) : inert ev = true -> resumptions ev = [].
Proof. induction ev as [|[] ev IH]; cbn; auto; discriminate. Qed.
Lemma inert_transactions (ev : list event) : inert ev = true -> transactions ev = [].
Proof. induction ev as [|[] ev IH]; cbn; auto; discriminate. Qed.
Lemma inert_decided (ev : list event) : inert ev = true -> decided_by ev = None.
Proof. induction ev as [|[] ev IH]; cbn; auto; discriminate. Qed.

(** Data part of [finish]. *)
Definition data s := (idx s, win s, slot s, err s).
Definition after c i rd x s := data (finish c i rd x s).

Inductive effect c s (l : label) s' ev : Prop :=
| eff_done i rd x :
    (rd = true /\ ph s i = Starting \/ rd = false /\ (ph s i = Entering \/ ph s i = Susp)) ->
    ev = [EDone i x] -> data s' = after c i rd x s ->
    ph s' = upd (ph s) i Ending -> fin s' = fin s -> todo s' = todo s -> effect c s l s' ev
| eff_tx i :
    is_race c = true -> running s i = true -> idx s = None -> ev = [ETxBegin i] ->
    data s' = (Some i, win s, slot s, err s) ->
    ph s' = ph s -> fin s' = fin s -> todo s' = todo s -> effect c s l s' ev
| eff_resume fr :
    inert fr = true -> ev = EResume (result c s) :: fr -> fin s = false -> fin s' = true -> uc s = 0 ->
    data s' = data s -> ph s' = ph s -> todo s' = todo s -> effect c s l s' ev
| eff_start i :
    ev = [EStart i; EProbe i] -> ph s i = Idle -> ph s' = upd (ph s) i Starting ->
    todo s = i :: todo s' -> data s' = data s -> fin s' = fin s -> effect c s l s' ev
| eff_other :
    inert ev = true -> (forall i, cls (ph s' i) = cls (ph s i)) ->
    (forall i, running s i = true -> running s' i = true) -> data s' = data s ->
    fin s' = fin s -> todo s' = todo s -> effect c s l s' ev.

Lemma cls_upd (f : nat -> phase) i p : cls p = cls (f i) -> forall j, cls (upd f i p j) = cls (f j).
Proof. intros H j. unfold upd. destruct (Nat.eqb_spec j i); subst; auto. Qed.

Lemma run_upd s s' i p : ph s' = upd (ph s) i p -> (p = Susp \/ p = Entering \/ running s i = false) ->
  forall j, running s j = true -> running s' j = true.
Proof.
  intros H Hp j. unfold running. rewrite H. unfold upd. destruct (Nat.eqb_spec j i); auto. subst.
  destruct Hp as [->|[->|Hp]]; auto. unfold running in Hp. now rewrite Hp.
Qed.

Lemma data_stk t s : data (set_stk t s) = data s. Proof. reflexivity. Qed.
Lemma finish_stk c i rd x t s : data (finish c i rd x (set_stk t s)) = data (finish c i rd x s).
Proof.
  unfold data, finish. destruct (knd c).
  - reflexivity.
  - destruct x; cbn; auto; destruct (err s); reflexivity.
  - destruct x; cbn [set_stk]; unfold race_result, race_throw; cbn [idx set_ph set_stk];
      destruct (idx s) as [j|]; cbn [idx set_ph set_stk set_idx];
      repeat match goal with |- context [if ?b then _ else _] => destruct b end; reflexivity.
Qed.

Ltac other := apply eff_other; cbn; auto; try (intros ? QQ; exact QQ).

Theorem step_effect c s l s' ev : wf c -> Core c s -> LF c s -> step c l s = Some (s', ev) ->
  effect c s l s' ev.
Proof.
  intros W C L H. unfold Core, LF in *. destruct l; cbn in H.
  - destruct (stk s) as [|k t] eqn:Es; [discriminate|].
    destruct k; cbn in H.
    + inj H. other.
    + destruct (todo s) as [|i l] eqn:Et.
      * destruct (lastf s); inj H; other.
      * pose proof (main_top c _ _ _ _ _ _ _ KRdy _ eq_refl C) as (-> & _).
        destruct (core_create c _ _ _ _ _ _ _ KRdy i l (KRdyChk i) W (or_introl (conj eq_refl eq_refl)) eq_refl C) as [Hi _].
        inj H. unfold create. destruct (is_race c); eapply eff_start; cbn; eauto.
    + assert (Q : inert (match lastf (set_stk t s) with Some j => [EFree j] | None => [] end : list event) = true)
        by (cbn; destruct (lastf s); auto).
      cbn in Q. unfold gone in H. cbn in H. destruct (ph s i); destruct (knd c); inj H; other.
    + inj H. other; [apply cls_upd|eapply run_upd; [reflexivity|auto]].
      pose proof (c_at _ _ _ _ _ _ _ _ _ C (KGo i) (or_introl eq_refl)) as Hat. cbn in Hat. now rewrite Hat.
    + unfold settle, entering in H. cbn in H.
      destruct (ph s i) eqn:Ep; destruct (knd c); inj H; other; try (apply cls_upd; now rewrite Ep); (eapply run_upd; [reflexivity|auto]).
    + destruct (todo s) as [|i l] eqn:Et.
      * inj H; other.
      * pose proof (main_top c _ _ _ _ _ _ _ KStart _ eq_refl C) as (-> & _).
        destruct (core_create c _ _ _ _ _ _ _ KStart i l (KChk i) W (or_intror (conj eq_refl eq_refl)) eq_refl C) as [Hi _].
        inj H. unfold create. destruct (is_race c); eapply eff_start; cbn; eauto.
    + discriminate.
    + unfold settle, entering in H. cbn in H.
      destruct (ph s i) eqn:Ep; destruct (knd c); inj H; other; try (apply cls_upd; now rewrite Ep); (eapply run_upd; [reflexivity|auto]).
    + destruct (knd c); try (destruct (err s)); inj H; other.
    + destruct (uc s =? 0); inj H; other.
    + inj H; other.
    + apply core_resume in C as (_ & Hf & Hu). inj H.
      eapply eff_resume with (fr := match lastf s with Some j => [EFree j] | None => [] end); cbn; auto.
      destruct (lastf s); auto.
    + destruct (fin s) eqn:Ef; [|destruct (work s i && intr c i)]; inj H; other.
    + destruct (fin s) eqn:Ef; [|destruct (intr c i && _)]; inj H; other.
    + destruct (fin s) eqn:Ef; [|destruct (canc s i)]; [|unfold emit in H; destruct (running _ i)|];
        inj H; other.
    + destruct (fin s) eqn:Ef; [|destruct (match knd c with Gather => true | _ => canc s i end)];
        [|unfold emit in H; destruct (running _ i)|]; inj H; other.
    + inj H; other.
    + inj H; other.
    + assert (Hp : cls Gone = cls (ph s i) /\ running s i = false).
      { unfold running. pose proof (c_end _ _ _ _ _ _ _ _ _ C i) as H0. rewrite cnt_cons in H0. cbn in H0.
        rewrite Nat.eqb_refl in H0. destruct (ph s i); cbn in H0; auto; discriminate. }
      destruct (uc s =? 1); [destruct (coro s)|]; inj H; other;
        try (apply cls_upd, Hp); (eapply run_upd; [reflexivity|]; right; right; apply Hp).
  - destruct (stk s) as [|[] t] eqn:Es; try discriminate. injection H as H.
    assert (Hp : ph s i = Starting).
    { pose proof (c_beg _ _ _ _ _ _ _ _ _ C i) as H0. rewrite cnt_cons in H0. cbn in H0.
      rewrite Nat.eqb_refl in H0. destruct (ph s i); cbn in H0; auto; discriminate. }
    destruct b as [x|e|]; cbn in H.
    + inj H. destruct (finish_shape c i true x (set_stk t s)) as (ns & N & Q1 & Q2 & Q3 & Q4 & Q5 & Q6 & Q7 & _).
      eapply eff_done with (rd := true); eauto. unfold after. now rewrite finish_stk.
    + inj H. destruct (finish_shape c i true (CThrow e) (set_stk t s)) as (ns & N & Q1 & Q2 & Q3 & Q4 & Q5 & Q6 & Q7 & _).
      eapply eff_done with (rd := true); eauto. unfold after. now rewrite finish_stk.
    + destruct (wired s) eqn:Ew; destruct (knd c); cbn in H; rewrite Ew in H; inj H;
        other;
        try (apply cls_upd; now rewrite Hp);
        (eapply run_upd; [reflexivity|]; right; right; unfold running; cbn; now rewrite Hp).
  - destruct (user s && running s i) eqn:Eu; [|discriminate]. inj H.
    apply andb_prop in Eu as [_ Er].
    assert (Hp : ph s i = Entering \/ ph s i = Susp)
      by (unfold running in Er; destruct (ph s i); try discriminate; auto).
    destruct (finish_shape c i false x s) as (ns & N & Q1 & Q2 & Q3 & Q4 & Q5 & Q6 & Q7 & _).
    eapply eff_done with (rd := false); eauto.
  - destruct (user s); [|discriminate]. unfold transact in H.
    destruct (is_race c && running s i) eqn:Er; [|discriminate]. apply andb_prop in Er as [E1 E2].
    destruct (idx s) eqn:Ei; inj H.
    + other.
    + eapply eff_tx; eauto; reflexivity.
  - destruct (user s && armed s); [|discriminate]. destruct (fin s); inj H; other.
  - destruct (user s && coro s); [|discriminate]. inj H. other.
Qed.

(** *** Invariants of state and trace. *)
Record TI c s (tr : list event) : Prop := {
  t_core : Core c s;
  t_lf : LF c s;
  t_nd : NoDup (map fst (finished tr));
  t_fin : forall i, In i (map fst (finished tr)) <-> cls (ph s i) = 2;
  t_start : ord c = started tr ++ todo s;
  t_idle : forall i, ph s i = Idle <-> ~ In i (started tr);
  t_res : resumptions tr = if fin s then [result c s] else [] }.

Lemma result_data c s s' : data s' = data s -> result c s' = result c s.
Proof.
  unfold data. intros H. injection H as H1 H2 H3 H4. unfold result. now rewrite H1, H2, H3, H4.
Qed.

Lemma fin_no_live c s : wf c -> Core c s -> (fin s = true \/ uc s = 0) -> forall i, cls (ph s i) <> 1.
Proof.
  intros W C Hf i Hi.
  assert (U : uc s = 0).
  { destruct Hf as [Hf|]; auto. apply (c_res _ _ _ _ _ _ _ _ _ C). rewrite Hf. cbn. lia. }
  destruct (c_pre _ _ _ _ _ _ _ _ _ C) as (pre & Eo & Hpre).
  assert (Hin : In i pre).
  { destruct (in_dec Nat.eq_dec i pre); auto. apply Hpre in n. rewrite n in Hi. discriminate. }
  destruct (pre_in c pre (todo s) W Eo i Hin) as [Ho _].
  pose proof (c_uc _ _ _ _ _ _ _ _ _ C) as Hc. rewrite U in Hc. symmetry in Hc.
  pose proof (cnt_zero_inv _ _ Hc i Ho) as Q. cbn in Q. destruct (ph s i); discriminate.
Qed.

Theorem step_TI c s tr l s' ev : wf c -> TI c s tr -> step c l s = Some (s', ev) -> TI c s' (tr ++ ev).
Proof.
  intros W [C L T1 T2 T3 T4 T5] H.
  destruct (step_core c s l s' ev W C L H) as [C' L'].
  pose proof (step_effect c s l s' ev W C L H) as F.
  destruct F as [i rd x Hp -> Hd Hph Hf Ht|i Hr Hrun Hi -> Hd Hph Hf Ht|fr Hin -> Hf Hf' Hu Hd Hph Ht
                |i -> Hi Hph Ht Hd Hf|Hin Hcls Hrr Hd Hf Ht]; constructor; auto;
    rewrite ?finished_app, ?started_app, ?resumptions_app; cbn [finished started resumptions];
    rewrite ?app_nil_r; auto.
  - rewrite map_app. cbn.
    assert (Hni : ~ In i (map fst (finished tr))).
    { intros Q. apply T2 in Q. destruct Hp as [[_ Hp]|[_ [Hp|Hp]]]; rewrite Hp in Q; discriminate. }
    apply (Permutation_NoDup (Permutation_app_comm [i] _)). cbn. now constructor.
  - intros j. rewrite map_app, in_app_iff, T2, Hph. cbn. unfold upd.
    destruct (Nat.eqb_spec j i); subst; cbn; split; auto. intros [|[Q|[]]]; [auto|congruence].
  - congruence.
  - intros j. rewrite <- T4, Hph. unfold upd. destruct (Nat.eqb_spec j i); [subst|tauto].
    destruct Hp as [[_ Hp]|[_ [Hp|Hp]]]; rewrite Hp; split; discriminate.
  - rewrite T5, Hf. destruct (fin s) eqn:Ef; auto. exfalso.
    apply (fin_no_live c s W C (or_introl Ef) i).
    destruct Hp as [[_ Hp]|[_ [Hp|Hp]]]; rewrite Hp; reflexivity.
  - now rewrite Hph.
  - congruence.
  - now rewrite Hph.
  - rewrite T5, Hf. destruct (fin s) eqn:Ef; auto. exfalso.
    apply (fin_no_live c s W C (or_introl Ef) i). unfold running in Hrun.
    destruct (ph s i); try discriminate; reflexivity.
  - rewrite (inert_finished _ Hin). now rewrite app_nil_r.
  - rewrite (inert_finished _ Hin). rewrite app_nil_r. now rewrite Hph.
  - rewrite (inert_started _ Hin). rewrite app_nil_r. congruence.
  - rewrite (inert_started _ Hin). rewrite app_nil_r. now rewrite Hph.
  - rewrite T5, Hf, Hf', (inert_resumptions _ Hin). cbn. now rewrite (result_data c s s' Hd).
  - intros j. rewrite T2, Hph. unfold upd. destruct (Nat.eqb_spec j i); subst; [|tauto].
    rewrite Hi. cbn. split; discriminate.
  - rewrite T3, Ht. now rewrite <- app_assoc.
  - intros j. rewrite in_app_iff, Hph. unfold upd. cbn. destruct (Nat.eqb_spec j i); subst.
    + split; [discriminate|tauto].
    + rewrite T4. split; [|tauto]. intros Q [|[Q2|[]]]; [auto|congruence].
  - rewrite T5, Hf. destruct (fin s); auto. now rewrite (result_data c s s' Hd).
  - rewrite (inert_finished _ Hin). now rewrite app_nil_r.
  - intros j. rewrite (inert_finished _ Hin). rewrite app_nil_r, Hcls. apply T2.
  - rewrite (inert_started _ Hin). rewrite app_nil_r. congruence.
  - intros j. rewrite (inert_started _ Hin). rewrite app_nil_r, <- T4. specialize (Hcls j).
    split; intros Q; rewrite Q in Hcls; cbn in Hcls; [destruct (ph s j)|destruct (ph s' j)]; auto; discriminate.
  - rewrite (inert_resumptions _ Hin). rewrite app_nil_r, T5, Hf. destruct (fin s); auto.
    now rewrite (result_data c s s' Hd).
Qed.

Lemma init_TI c : wf c -> TI c (init c) [].
Proof.
  intros W. destruct (init_core (V := V) (E := E) c W). constructor; cbn; auto.
  - constructor.
  - intros i; split; [intros []|discriminate].
  - intros i; split; auto.
Qed.

(** Induction over runs. *)
Lemma run_ind c (P : state -> list event -> Prop) :
  P (init c) [] ->
  (forall s tr l s' ev, P s tr -> step c l s = Some (s', ev) -> P s' (tr ++ ev)) ->
  forall ls s tr, run c (init c) ls = Some (s, tr) -> P s tr.
Proof.
  intros H0 Hs.
  assert (G : forall ls s s' tr0 tr, P s tr0 -> run c s ls = Some (s', tr) -> P s' (tr0 ++ tr)).
  { induction ls as [|l ls IH]; cbn; intros s s' tr0 tr HP HR.
    - injection HR as <- <-. now rewrite app_nil_r.
    - destruct (step c l s) as [[s1 e1]|] eqn:Es; [|discriminate].
      destruct (run c s1 ls) as [[s2 e2]|] eqn:Er; [|discriminate]. injection HR as <- <-.
      rewrite app_assoc. eapply IH; eauto. }
  intros ls s tr HR. apply (G ls (init c) s [] tr); auto.
Qed.

Theorem run_TI c ls s tr : wf c -> run c (init c) ls = Some (s, tr) -> TI c s tr.
Proof.
  intros W. apply (run_ind c (TI c)); [now apply init_TI|]. intros. eapply step_TI; eauto.
Qed.

End Trace.
