(** The statements used by Comb_Props.v. *)
From Coq Require Import List Bool Arith Lia Permutation.
From Verif Require Import Comb_Model Comb_Spec Comb_Core Comb_Trace Comb_Data Comb_Calm Comb_Signal Comb_Sent.
Import ListNotations.

Section Final.
Context {V E : Type}.
Notation state := (state V E).
Notation label := (label V E).
Notation event := (event V E).
Implicit Types (s : state).

(** Nothing is left to signal or commit below a commit, and before the decision. *)
Definition TB s (tr : list event) : Prop :=
  (forall a i b, stk s = a ++ KTx i :: b -> In i (transactions tr) /\ soft b) /\
  (decided_by tr = None -> soft (stk s)).

Lemma soft_app a b : soft (a ++ b) <-> soft a /\ soft b.
Proof.
  split.
  - intros H. split; intros k Hk; apply (H k), in_or_app; auto.
  - intros [A B] k Hk. apply in_app_or in Hk as []; [now apply A|now apply B].
Qed.
Lemma soft_cons k b : soft (k :: b) <-> match k with KEmit _ | KTx _ => False | _ => True end /\ soft b.
Proof.
  split.
  - intros H. split; [apply (H k); now left|intros q Hq; apply (H q); now right].
  - intros [A B] q [<-|Hq]; auto. now apply B.
Qed.
Lemma soft_nil : soft []. Proof. intros k []. Qed.

Lemma split_tx (ns l a b : list item) i : (forall j, ~ In (KTx j) ns) -> ns ++ l = a ++ KTx i :: b -> exists a', l = a' ++ KTx i :: b.
Proof.
  revert a. induction ns as [|k ns IH]; cbn; intros a N H; [eauto|].
  destruct a as [|k' a]; cbn in H; injection H as -> H.
  - elim (N i). now left.
  - apply (IH a); auto. intros q Hq. apply (N q). now right.
Qed.
Lemma soft_notx ns : soft ns -> forall j, ~ In (KTx j) ns.
Proof. intros S j Hj. apply (S _ Hj). Qed.

Lemma step_TB c s tr l s' ev : wf c -> knd c = Race -> TI c s tr -> DI c s tr -> TB s tr -> step c l s = Some (s', ev) -> TB s' (tr ++ ev).
Proof.
  intros W K T D [B1 B2] H. pose proof (t_core _ _ _ T) as C.
  assert (R : is_race c = true) by (unfold is_race; now rewrite K).
  pose proof (step_move c s l s' ev W C H) as M. pose proof (step_sig c s l s' ev W C H) as G.
  assert (D1 : decided_by (tr ++ ev) = None -> decided_by tr = None).
  { rewrite decided_app. destruct (decided_by tr); auto; discriminate. }
  assert (TX : forall i, In i (transactions tr) -> In i (transactions (tr ++ ev))).
  { intros i Hi. rewrite transactions_app. apply in_or_app. auto. }
  assert (DEC : decides ev -> TB s' (tr ++ ev)).
  { intros (i & Hd).
    assert (D2 : decided_by (tr ++ ev) <> None).
    { rewrite decided_app. destruct Hd as [->|[x ->]]; cbn; destruct (decided_by tr); discriminate. }
    split; [|now intros Q].
    intros a k b Hs.
    destruct G as [j t Q1 Q2 Q3 Q4 Q5 Q6|j t Q1 Q2 Q3 Q4 Q5 Q6|j u t Q1 Q2 Q3 Q4 Q5|j u t Q1 Q2 Q3 Q4 Q5 Q6|j t Q1 Q2 Q3 Q4 Q5
     |j x t ns Q1 Q2 Q3 Q4 Q5 Q6 Q7 Q8 Q9 Q10 Q11|j ns Q1 Q2 Q3 Q4 Q5 Q6 Q7 Q8 Q9 Q10 Q11|j Q1 Q2 Q3 Q4 Q5 Q6|Q1 Q2 Q3 Q4 Q5 Q6 Q7|u ev' Q1 Q2 Q3 Q4 Q5 Q6|Q1 Q2 Q3 Q4 Q5 Q6 Q7];
     try (exfalso; destruct Hd as [->|[x0 ->]]; discriminate).
    - destruct Q6 as [(_ & Z & _)|(_ & Z & _)]; exfalso; rewrite Z in Hd; destruct Hd as [|[? ?]]; discriminate.
    - destruct Q5 as [(_ & _ & Z & _)|(_ & Z & _)]; exfalso; rewrite Z in Hd; destruct Hd as [|[? ?]]; discriminate.
    - subst ev. rewrite Hs in Q4. symmetry in Q4. apply split_tx in Q4 as [a' Q4]; auto.
      destruct Q2 as [[Q2 _]|[Q2 _]].
      + destruct (B1 (KBeg j :: a') k b); [cbn; congruence|auto].
      + destruct (B1 a' k b); [cbn; congruence|auto].
    - subst ev. rewrite Hs in Q8. symmetry in Q8. rewrite <- app_assoc in Q8. apply split_tx in Q8 as [a' Q8]; auto.
      assert (S0 : soft (stk s)).
      { apply B2. unfold DI in D. rewrite K in D. destruct D as [D _]. congruence. }
      cbn in Q8. destruct a' as [|y a']; cbn in Q8; injection Q8 as Q0 Q8.
      + subst j b. split; auto. rewrite transactions_app. apply in_or_app. right. now left.
      + exfalso. apply (soft_notx _ S0 k). rewrite Q8. apply in_or_app. right. now left. }
  assert (SOFT1 : forall ns, soft ns -> stk s' = ns ++ stk s -> TB s' (tr ++ ev)).
  { intros ns S Q. split.
    - intros a i b Hs. rewrite Hs in Q. symmetry in Q. apply split_tx in Q as [a' Q]; [|now apply soft_notx].
      destruct (B1 a' i b Q). auto.
    - intros Q0. rewrite Q. apply soft_app. auto. }
  assert (SOFT2 : forall k t ns, soft ns -> stk s = k :: t -> stk s' = ns ++ t -> TB s' (tr ++ ev)).
  { intros k t ns S Q1 Q. split.
    - intros a i b Hs. rewrite Hs in Q. symmetry in Q. apply split_tx in Q as [a' Q]; [|now apply soft_notx].
      destruct (B1 (k :: a') i b); [cbn; congruence|auto].
    - intros Q0. rewrite Q. apply soft_app. split; auto. specialize (B2 (D1 Q0)). rewrite Q1 in B2. now apply soft_cons in B2. }
  assert (SOFT3 : soft (stk s') -> TB s' (tr ++ ev)).
  { intros S. split; auto. intros a i b Hs. exfalso. apply (soft_notx _ S i). rewrite Hs. apply in_or_app. right. now left. }
  destruct M as [ns U Q N [Sf|Sf] T0|k t0 ns Q1 Mk Q N [Sf|Sf] T0|k ns Q1 Mk Q N Sf T0|i0 l0 Q1 T1 T2 Q|i0 Q1 T0 G0 R0 Q|i0 Q1 T0 G0 Q|i0 Q1 T0 Q
                |i0 Q1 T0 U Q|i0 l0 Q1 T1 T2 Q|Q1 T1 T2 Q|i0 Q1 T0 U Q|i0 Q1 T0 G0 R0 Q|ns Q1 T0 Q N Z]; auto; eauto;
    apply SOFT3; rewrite Q; auto; try (repeat (apply soft_cons; split; [exact Logic.I|]); apply soft_nil).
  rewrite (Z R). apply soft_cons. split; [exact Logic.I|apply soft_nil].
Qed.

(** Only a race has transactions. *)
Lemma step_NT c s l s' ev i : knd c <> Race -> step c l s = Some (s', ev) -> In (KTx i) (stk s') -> In (KTx i) (stk s).
Proof.
  intros K H.
  assert (CA : forall ks, In (KTx i) (cancel_all c ++ ks) -> In (KTx i) ks).
  { intros ks Q. apply in_app_or in Q as [Q|]; auto. apply in_cancel_all in Q as (a & [[Q _]|Q]); discriminate. }
  assert (FI : forall j rd x (z : state), In (KTx i) (stk (finish c j rd x z)) -> In (KTx i) (stk z)).
  { intros j rd x z. destruct (finish_sig c j rd x z) as (ns & -> & _ & _ & _ & _ & _ & N & _).
    intros Q. apply in_app_or in Q as [Q|]; auto. now elim (N i). }
  assert (MP : forall f ks, (forall j, f j <> KTx i) -> In (KTx i) (map f (idxs c) ++ ks) -> In (KTx i) ks).
  { intros f ks N Q. apply in_app_or in Q as [Q|]; auto. apply in_map_iff in Q as (j & Q & _). now elim (N j). }
  destruct l; cbn in H.
  - destruct (stk s) as [|k t] eqn:Es; [discriminate|]. intros Q. right.
    destruct k; cbn in H; unfold settle, emit in H;
    repeat match type of H with
      | context [match todo s with _ => _ end] => destruct (todo s)
      | context [match lastf s with _ => _ end] => destruct (lastf s)
      | context [match knd c with _ => _ end] => destruct (knd c)
      | context [match err s with _ => _ end] => destruct (err s)
      | context [if ?b then _ else _] => destruct b
      end; try discriminate; inj H; cbn in Q; try (rewrite <- app_assoc in Q; apply CA in Q); cbn in Q;
      repeat match type of Q with _ \/ _ => destruct Q as [Q|Q]; [try discriminate|] end; auto;
      unfold create in Q; repeat match type of Q with context [if ?b then _ else _] => destruct b end; cbn in Q; auto.
  - destruct (stk s) as [|[] t] eqn:Es; try discriminate. injection H as H. intros Q. right.
    destruct b as [x|e|]; cbn in H.
    + inj H. now apply FI in Q.
    + inj H. now apply FI in Q.
    + destruct (knd c); cbn in H; destruct (wired s); inj H; cbn in Q; try (destruct Q as [Q|Q]; [discriminate|]); auto.
  - destruct (user s && running s i0); [|discriminate]. inj H. apply FI.
  - destruct (user s); [|discriminate]. unfold transact in H.
    destruct (is_race c && running s i0) eqn:Er; [|discriminate]. apply andb_prop in Er as [R _]. unfold is_race in R.
    destruct (knd c); try discriminate R. now elim K.
  - destruct (user s && armed s); [|discriminate]. destruct (fin s); inj H; auto. cbn. apply MP. discriminate.
  - destruct (user s && coro s); [|discriminate]. inj H. cbn. apply MP. intros j. destruct (is_race c); discriminate.
Qed.

(** Everything that holds of every run. *)
Record ALL c s (tr : list event) : Prop := {
  a_ti : TI c s tr; a_di : DI c s tr; a_sh : SH c s; a_ci : CI c s tr; a_bb : BB s; a_pk : PK s; a_sn : SN c s tr;
  a_tb : knd c = Race -> TB s tr; a_nt : knd c <> Race -> forall i, ~ In (KTx i) (stk s) }.

Lemma init_SN c : SN c (init c) ([] : list event).
Proof.
  assert (NK : forall k, In k (stk (init (V := V) (E := E) c)) -> k = KRdy \/ exists i, k = KProbe i).
  { intros k. cbn. intros H. apply in_app_or in H as [H|[H|[]]]; auto.
    destruct (ranged c && negb (is_race c)); [|destruct H]. apply in_map_iff in H as (i & <- & _). eauto. }
  constructor.
  - intros _ i H. discriminate.
  - reflexivity.
  - intros i u H. apply NK in H as [|[]]; discriminate.
  - reflexivity.
  - intros _ i. now left.
  - intros _ i H. discriminate.
  - intros _ k H. apply NK in H as [|[]]; discriminate.
  - intros _ _ _ H. now elim H.
  - intros _ H. now elim H.
  - intros _ i H. apply NK in H as [|[]]; discriminate.
  - reflexivity.
  - intros _ _ i t b [].
  - now left.
Qed.

Lemma init_ALL c : wf c -> ALL c (init c) ([] : list event).
Proof.
  assert (NK : forall k, In k (stk (init (V := V) (E := E) c)) -> k = KRdy \/ exists i, k = KProbe i).
  { intros k. cbn. intros H. apply in_app_or in H as [H|[H|[]]]; auto.
    destruct (ranged c && negb (is_race c)); [|destruct H]. apply in_map_iff in H as (i & <- & _). eauto. }
  intros W. constructor.
  - now apply init_TI.
  - apply init_DI.
  - apply init_SH.
  - apply init_CI.
  - intros a i t H. exfalso. destruct (NK (KBeg i)) as [|[]]; try discriminate. rewrite H. apply in_or_app. right. now left.
  - intros i H. discriminate.
  - apply init_SN.
  - intros _. split.
    + intros a i b H. exfalso. destruct (NK (KTx i)) as [|[]]; try discriminate. rewrite H. apply in_or_app. right. now left.
    + intros _ k H. apply NK in H as [->|[? ->]]; exact Logic.I.
  - intros _ i H. apply NK in H as [|[]]; discriminate.
Qed.

Lemma step_ALL c s tr l s' ev : wf c -> ALL c s tr -> step c l s = Some (s', ev) -> ALL c s' (tr ++ ev).
Proof.
  intros W [T D S I B P N X Y] H. constructor.
  - eapply step_TI; eauto.
  - eapply step_DI; eauto.
  - eapply step_SH; eauto; apply (t_core _ _ _ T).
  - eapply step_CI; eauto.
  - eapply step_BB; eauto; apply (t_core _ _ _ T).
  - eapply step_PK; eauto; apply (t_core _ _ _ T).
  - eapply step_SN; eauto.
  - intros K. eapply step_TB; eauto.
  - intros K i Q. eapply step_NT in Q; eauto. now apply (Y K i).
Qed.

Theorem run_ALL c ls s tr : wf c -> run c (init c) ls = Some (s, tr) -> ALL c s tr.
Proof.
  intros W. apply (run_ind c (ALL c)); [now apply init_ALL|]. intros. eapply step_ALL; eauto.
Qed.

(** *** Statements about positions in the trace. *)
Definition always (P : list event -> event -> Prop) (tr : list event) : Prop :=
  forall a e b, tr = a ++ e :: b -> P a e.
Lemma always_nil P : always P []. Proof. intros a e b H. destruct a; discriminate. Qed.
Lemma always_app P tr ev : always P tr -> (forall a e b, ev = a ++ e :: b -> P (tr ++ a) e) -> always P (tr ++ ev).
Proof.
  intros A B a e b H. revert a H. 
  assert (G : forall (u : list event) a, u ++ ev = a ++ e :: b ->
     (exists b', u = a ++ e :: b' ) \/ (exists a', a = u ++ a' /\ ev = a' ++ e :: b)).
  { induction u as [|x u IH]; intros a H; [right; exists a; auto|].
    destruct a as [|y a]; cbn in H; injection H as -> H.
    - left. exists u. reflexivity.
    - destruct (IH a H) as [[b' ->]|(a' & -> & ->)]; [left; exists b'; auto|right; exists a'; auto]. }
  intros a H. destruct (G tr a H) as [[b' Q]|(a' & -> & Q)]; [eapply A; eauto|eapply B; eauto].
Qed.
Lemma always_one P e0 tr : always P tr -> P tr e0 -> always P (tr ++ [e0]).
Proof.
  intros A B. apply always_app; auto. intros a e b H. destruct a as [|x a]; cbn in H; injection H as -> H.
  - now rewrite app_nil_r.
  - destruct a; discriminate.
Qed.

Lemma run_always c (P : list event -> event -> Prop) : wf c ->
  (forall s tr l s' ev, ALL c s tr -> step c l s = Some (s', ev) -> forall a e b, ev = a ++ e :: b -> P (tr ++ a) e) ->
  forall ls s tr, run c (init c) ls = Some (s, tr) -> always P tr.
Proof.
  intros W HS ls s tr H.
  cut (ALL c s tr /\ always P tr); [tauto|]. revert H.
  apply (run_ind c (fun s tr => ALL c s tr /\ always P tr)).
  - split; [now apply init_ALL|apply always_nil].
  - intros s0 tr0 l s' ev [A B] Hs. split; [eapply step_ALL; eauto|]. apply always_app; auto. eapply HS; eauto.
Qed.

(** A step's events: where each kind comes from. *)
Lemma started_iff c s tr i : TI c s tr -> In i (started tr) <-> ph s i <> Idle.
Proof.
  intros T. split.
  - intros H Q. apply (t_idle _ _ _ T) in Q. contradiction.
  - intros H. destruct (in_dec Nat.eq_dec i (started tr)); auto. apply (t_idle _ _ _ T) in n. contradiction.
Qed.
Lemma finished_iff c s tr i : TI c s tr -> In i (map fst (finished tr)) <-> cls (ph s i) = 2.
Proof. intros T. apply (t_fin _ _ _ T). Qed.

Definition P_sound c (a : list event) (e : event) : Prop :=
  match e with
  | EStart i => ~ In i (started a) /\ (knd c = Race -> calm a -> decided_by a = None)
  | EEmit i _ _ => In i (started a) /\ ~ In i (map fst (finished a))
  | EDone i _ => In i (started a) /\ ~ In i (map fst (finished a))
  | ETxBegin i => decided_by a = None /\ In i (started a) /\ ~ In i (map fst (finished a))
  | ETxReject i => decided_by a <> None
  | ETxCommit i => In i (transactions a) /\
      (calm a -> nothrow a -> forall j, j <> i -> In j (started a) -> ~ In j (map fst (finished a)) ->
       In (rct c) (signals j a))
  | EWait => exists i, In i (started a) /\ ~ In i (map fst (finished a))
  | EResume _ => (forall i, In i (started a) -> In i (map fst (finished a))) /\
                 (knd c <> Race -> started a = ord c) /\ resumptions a = []
  | _ => True
  end.

Lemma running_fin c s tr i : TI c s tr -> running s i = true -> In i (started tr) /\ ~ In i (map fst (finished tr)).
Proof.
  intros T H. rewrite (started_iff c s tr i T), (finished_iff c s tr i T). unfold running in H.
  destruct (ph s i); try discriminate; split; discriminate.
Qed.

Lemma one_split {A} (x e : A) a b : [x] = a ++ e :: b -> a = [] /\ e = x.
Proof. destruct a as [|y a]; cbn; intros H; injection H as -> H; auto. destruct a; discriminate. Qed.

Lemma free_split (o : option nat) (a : list event) e b : (match o with Some j => [EFree j] | None => [] end) = a ++ e :: b -> exists j, e = EFree j.
Proof. destruct o; intros H; [apply one_split in H as [-> ->]; eauto|]. destruct a; discriminate. Qed.

Lemma create_sound c s tr i l k0 : wf c -> ALL c s tr -> todo s = i :: l -> stk s = [k0] -> main k0 = true -> k0 = KRdy \/ k0 = KStart ->
  P_sound c tr (EStart i).
Proof.
  intros W [T D S I B P N X Y] Ht Es Mk Hk. cbn. split.
  - intros Q. pose proof (t_start _ _ _ T) as Z. rewrite Ht in Z. pose proof (ord_nodup c W) as ND.
    rewrite Z in ND. apply NoDup_remove_2 in ND. apply ND, in_or_app. auto.
  - intros K Hc. destruct (decided_by tr) eqn:Ed; auto. exfalso.
    unfold DI in D. rewrite K in D. destruct D as [D _].
    assert (R : is_race c = true) by (unfold is_race; now rewrite K).
    assert (Hx : idx s <> None) by congruence.
    destruct (ci_stop _ _ _ I R Hc Hx k0) as (j & [Z|[Z|[Z|Z]]] & _); try (destruct Hk; subst; discriminate).
    + rewrite Es. now left.
    + destruct Hk; subst; reflexivity.
Qed.

Lemma step_sound c s tr l s' ev : wf c -> ALL c s tr -> step c l s = Some (s', ev) ->
  forall a e b, ev = a ++ e :: b -> P_sound c (tr ++ a) e.
Proof.
  intros W AL H a e b He. pose proof AL as [T D S I B P N X Y]. pose proof (t_core _ _ _ T) as C. pose proof C as C0. unfold Core in C.
  assert (NIL : ev = [] -> P_sound c (tr ++ a) e) by (intros ->; destruct a; discriminate).
  assert (ONE : forall e0, ev = [e0] -> P_sound c tr e0 -> P_sound c (tr ++ a) e).
  { intros e0 -> Q. apply one_split in He as [-> ->]. now rewrite app_nil_r. }
  destruct l; cbn in H.
  - destruct (stk s) as [|k t] eqn:Es; [discriminate|].
    assert (M : main k = true -> t = []) by (intros M; now apply (main_top _ _ _ _ _ _ _ _ _ _ M C)).
    destruct k; try (rewrite (M eq_refl) in *; clear M); cbn in H.
    + inj H. auto.
    + destruct (todo s) as [|i l] eqn:Et.
      * destruct (lastf s); inj H; [auto|]. apply (ONE ENull); auto. exact Logic.I.
      * inj H. destruct a as [|x a]; cbn in He; injection He as <- He.
        -- rewrite app_nil_r. eapply create_sound; eauto.
        -- apply one_split in He as [-> ->]. exact Logic.I.
    + destruct (gone _ i); [destruct (knd c)|]; inj H; apply free_split in He as [? ->]; exact Logic.I.
    + inj H. auto.
    + unfold settle in H. destruct (entering _ i).
      * destruct (knd c); inj H; apply (ONE (ESusp i)); auto; exact Logic.I.
      * destruct (knd c); inj H; auto.
    + destruct (todo s) as [|i l] eqn:Et.
      * inj H. auto.
      * inj H. destruct a as [|x a]; cbn in He; injection He as <- He.
        -- rewrite app_nil_r. eapply create_sound; eauto.
        -- apply one_split in He as [-> ->]. exact Logic.I.
    + discriminate.
    + unfold settle in H. destruct (entering _ i).
      * destruct (knd c); inj H; apply (ONE (ESusp i)); auto; exact Logic.I.
      * destruct (knd c); inj H; auto.
    + destruct (knd c); try destruct (err s); inj H; auto.
    + destruct (uc s =? 0) eqn:U; inj H; auto. apply (ONE EWait); auto. cbn.
      apply Nat.eqb_neq in U.
      assert (Z : exists i, In i (ord c) /\ alive (ph s i) = true).
      { rewrite (c_uc _ _ _ _ _ _ _ _ _ C) in U. clear -U. induction (ord c) as [|x l IH]; [now elim U|].
        rewrite cnt_cons in U. destruct (alive (ph s x)) eqn:Ea.
        - exists x. split; [now left|auto].
        - cbn in U. destruct (IH U) as (i & Hi & Hj). exists i. split; [now right|auto]. }
      destruct Z as (i & _ & Ha).
      destruct (main_top _ _ _ _ _ _ _ _ _ _ (eq_refl : main KArm2 = true) C) as (_ & _ & _ & Z & _). destruct (Z i) as [Z1 Z2].
      exists i. rewrite (started_iff c s tr i T), (finished_iff c s tr i T).
      destruct (ph s i); try discriminate; try congruence; split; discriminate.
    + inj H. apply (ONE (EProbe i)); auto. exact Logic.I.
    + pose proof (core_resume _ _ _ _ _ _ _ _ _ C) as (_ & Hf & Hu). inj H.
      destruct a as [|x a]; cbn in He; injection He as <- He; [|apply free_split in He as [? ->]; exact Logic.I].
      rewrite app_nil_r. cbn. split; [|split].
      * intros i Hi. apply (started_iff c s tr i T) in Hi. apply (finished_iff c s tr i T).
        pose proof (fin_no_live c s W C0 (or_intror Hu) i) as Z. destruct (ph s i); cbn in *; try reflexivity; congruence.
      * intros K. rewrite (t_start _ _ _ T). rewrite (c_todo _ _ _ _ _ _ _ _ _ C K); [now rewrite app_nil_r|].
        pose proof (c_tok _ _ _ _ _ _ _ _ _ C) as Z. rewrite !cnt_cons in Z. cbn in Z.
        apply cnt_zero. intros q Hq. destruct (looping q) eqn:Lq; auto. apply loop_main in Lq.
        destruct Hq as [<-|Hq]; [discriminate|]. pose proof (cnt_pos main t q Hq Lq). lia.
      * rewrite (t_res _ _ _ T), Hf. reflexivity.
    + destruct (fin s); [|destruct (work s i && intr c i)]; inj H; auto;
        [apply (ONE EDangling)|apply (ONE (EInterrupt i))]; auto; exact Logic.I.
    + destruct (fin s); [|destruct (intr c i && _)]; inj H; auto;
        [apply (ONE EDangling)|apply (ONE (EInterrupt i))]; auto; exact Logic.I.
    + destruct (fin s); [|destruct (canc s i)]; [|unfold emit in H; destruct (running _ i) eqn:Er|]; inj H; auto.
      * apply (ONE EDangling); auto. exact Logic.I.
      * eapply ONE; [reflexivity|]. cbn. eapply running_fin; eauto.
    + destruct (fin s); [|destruct (match knd c with Gather => true | _ => canc s i end)];
        [|unfold emit in H; destruct (running _ i) eqn:Er|]; inj H; auto.
      * apply (ONE EDangling); auto. exact Logic.I.
      * eapply ONE; [reflexivity|]. cbn. eapply running_fin; eauto.
    + inj H. apply (ONE (ETxCommit i)); auto. cbn.
      destruct (knd c) eqn:K.
      * exfalso; apply (Y ltac:(discriminate) i); rewrite ?Es; now left.
      * exfalso; apply (Y ltac:(discriminate) i); rewrite ?Es; now left.
      * destruct (X eq_refl) as [B1 B2]. destruct (B1 [] i t Es) as [Z1 Z2]. split; auto.
        intros Hc Hn j Hj Hst Hnf.
        assert (Hd : decided_by tr <> None).
        { destruct (n_tx _ _ _ N) as [Z|(q & _ & Z)]; [rewrite Z in Z1; destruct Z1|congruence]. }
        apply (started_iff c s tr j T) in Hst. rewrite (finished_iff c s tr j T) in Hnf.
        assert (R : running s j = true).
        { unfold running. destruct (ph s j) eqn:Ep; auto; try congruence; cbn in Hnf; try congruence.
          - elim (decided_no_begin c s tr j T D I K Hc Hd Ep).
          - destruct (P j Ep) as [Z|Z]; rewrite Es in Z; discriminate. }
        assert (Ho : own c = rct c) by (unfold own, is_race; now rewrite K).
        destruct (canc s j) eqn:Ec.
        -- pose proof (n_race _ _ _ N K Hc Hn Hd j R Ec) as Z. rewrite Es in Z. destruct Z as [|Z]; [discriminate|].
           elim (Z2 _ Z).
        -- destruct (n_run _ _ _ N) with (i := j) as [Z|Z]; auto; [congruence|now rewrite <- Ho|].
           destruct (n_tx _ _ _ N) as [Z3|(q & Z3 & _)]; rewrite Z3 in *; [destruct Z|].
           destruct Z as [<-|[]], Z1 as [<-|[]]. congruence.
    + inj H. auto.
    + destruct (uc s =? 1); [destruct (coro s)|]; inj H; apply (ONE (EFree i)); auto; exact Logic.I.
  - destruct (stk s) as [|[] t] eqn:Es; try discriminate. injection H as H.
    assert (Hp : ph s i = Starting).
    { pose proof (c_beg _ _ _ _ _ _ _ _ _ C i) as H0. rewrite cnt_cons in H0. cbn in H0.
      rewrite Nat.eqb_refl in H0. destruct (ph s i); cbn in H0; auto; discriminate. }
    assert (Z : forall x, P_sound c tr (EDone i x)).
    { intros x. cbn. rewrite (started_iff c s tr i T), (finished_iff c s tr i T), Hp. split; discriminate. }
    destruct b0 as [x|e0|]; cbn in H.
    + inj H. eapply ONE; eauto.
    + inj H. eapply ONE; eauto.
    + destruct (wired s) eqn:Ew; destruct (knd c) eqn:K; cbn in H; rewrite Ew in H; inj H; auto.
  - destruct (user s && running s i) eqn:Eu; [|discriminate]. inj H. apply andb_prop in Eu as [U R].
    eapply ONE; eauto. cbn. eapply running_fin; eauto.
  - destruct (user s) eqn:U; [|discriminate]. unfold transact in H.
    destruct (is_race c && running s i) eqn:Er; [|discriminate]. apply andb_prop in Er as [R Er].
    unfold is_race in R. destruct (knd c) eqn:K; try discriminate R.
    unfold DI in D. rewrite K in D. destruct D as [D _].
    destruct (idx s) eqn:Ei; inj H; eapply ONE; eauto; cbn; [congruence|].
    split; [congruence|]. eapply running_fin; eauto.
  - destruct (user s && armed s) eqn:Eu; [|discriminate].
    destruct (fin s) eqn:Ef; inj H.
    + destruct a as [|x a]; cbn in He; injection He as <- He; [exact Logic.I|]. apply one_split in He as [-> ->]. exact Logic.I.
    + eapply ONE; eauto. exact Logic.I.
  - destruct (user s && coro s) eqn:Eu; [|discriminate]. inj H. eapply ONE; eauto. exact Logic.I.
Qed.
End Final.
