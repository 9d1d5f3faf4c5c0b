(** How often a fork is destroyed, a child asked and interrupted. *)
From Coq Require Import List Bool Arith Lia Permutation.
From Verif Require Import Comb_Model Comb_Spec Comb_Core Comb_Trace Comb_Data Comb_Calm Comb_Signal Comb_Sent Comb_Final Comb_Result Comb_Tidy Comb_Claims.
Import ListNotations.

Section Once.
Context {V E : Type}.
Notation state := (state V E).
Notation label := (label V E).
Notation event := (event V E).
Implicit Types (s : state) (tr ev : list event).

Definition isprobe (i : nat) (k : item) : bool := match k with KProbe j => i =? j | _ => false end.
Definition idle (p : phase) : bool := match p with Idle => true | _ => false end.
Definition isgone (p : phase) : bool := match p with Gone => true | _ => false end.
Definition freed (o : option nat) : list event := match o with Some j => [EFree j] | None => [] end.
Definition quiet1 (e : event) : bool :=
  match e with EStart _ | EProbe _ | EFree _ | ESusp _ | ENull => false | _ => true end.
Definition quiet (ev : list event) : bool := forallb quiet1 ev.
Definition noprobe (ns : list item) : bool := forallb (fun k => match k with KProbe _ => false | _ => true end) ns.
Definition nordy (ns : list item) : bool := forallb (fun k => match k with KRdy | KRdyChk _ | KGo _ => false | _ => true end) ns.

Inductive acts c s s' ev : Prop :=
| ac_probe i t : stk s = KProbe i :: t -> ev = [EProbe i] -> stk s' = KUser :: t -> ph s' = ph s ->
    lastf s' = lastf s -> wired s' = wired s -> acts c s s' ev
| ac_start i k k' : stk s = [k] -> (k = KRdy /\ k' = KRdyChk i \/ k = KStart /\ k' = KChk i) ->
    ev = [EStart i; EProbe i] -> ph s i = Idle -> ph s' = upd (ph s) i Starting ->
    stk s' = [KUser; KBeg i; k'] -> lastf s' = lastf s -> wired s' = wired s -> acts c s s' ev
| ac_check i k' : stk s = [KRdyChk i] -> ev = freed (lastf s) -> lastf s' = Some i -> ph s' = ph s -> wired s' = wired s ->
    stk s' = [k'] -> (ph s i = Gone /\ (k' = KRdy \/ k' = KResume) \/ k' = KGo i) -> acts c s s' ev
| ac_go i : stk s = [KGo i] -> ev = [] -> lastf s' = None -> wired s' = true -> ph s i = Parked ->
    ph s' = upd (ph s) i Entering -> stk s' = [KUser; KOut i] -> acts c s s' ev
| ac_settle i k k' : stk s = [k] -> (k = KOut i \/ k = KChk i) -> ev = [ESusp i] -> ph s i = Entering ->
    ph s' = upd (ph s) i Susp -> lastf s' = lastf s -> wired s' = wired s -> stk s' = [k'] ->
    (k' = KResume \/ k' = KStart \/ k' = KArm) -> acts c s s' ev
| ac_release : stk s = [KRdy] -> todo s = [] -> ev = [] -> lastf s <> None -> lastf s' = None -> wired s' = wired s -> ph s' = ph s ->
    stk s' = [KResume] -> acts c s s' ev
| ac_resume t : stk s = KResume :: t -> ev = EResume (result c s) :: freed (lastf s) -> lastf s' = None ->
    wired s' = wired s -> ph s' = ph s -> stk s' = t -> acts c s s' ev
| ac_end i t ns : stk s = KEnd i :: t -> ev = [EFree i] -> ph s i = Ending -> ph s' = upd (ph s) i Gone -> lastf s' = lastf s -> wired s' = wired s ->
    stk s' = ns ++ t -> (ns = [] \/ ns = [KResume]) -> acts c s s' ev
| ac_quiet ms ns t : (forall j, stk s <> [KGo j]) -> stk s = ms ++ t -> stk s' = ns ++ t -> noprobe ms = true -> noprobe ns = true -> nordy ns = true -> quiet ev = true ->
    (forall i, idle (ph s' i) = idle (ph s i)) -> (forall i, isgone (ph s' i) = isgone (ph s i)) ->
    lastf s' = lastf s -> wired s' = wired s -> acts c s s' ev.

Lemma idle_upd (f : nat -> phase) i p : idle p = idle (f i) -> forall j, idle (upd f i p j) = idle (f j).
Proof. intros H j. unfold upd. destruct (Nat.eqb_spec j i); subst; auto. Qed.
Lemma isgone_upd (f : nat -> phase) i p : isgone p = isgone (f i) -> forall j, isgone (upd f i p j) = isgone (f j).
Proof. intros H j. unfold upd. destruct (Nat.eqb_spec j i); subst; auto. Qed.
Lemma neutral_nordy ns : forallb neutral ns = true -> nordy ns = true.
Proof. unfold nordy. induction ns as [|[] ns IH]; cbn; auto; discriminate. Qed.
Lemma all_noprobe (f : nat -> item) l : (forall i j, f i <> KProbe j) -> noprobe (map f l) = true.
Proof. intros H. induction l as [|a l IH]; cbn; auto. unfold noprobe in IH. rewrite IH. specialize (H a). destruct (f a); auto. now elim (H i). Qed.
Lemma cancel_all_noprobe c : noprobe (cancel_all c) = true.
Proof.
  unfold cancel_all, noprobe. rewrite forallb_app. apply andb_true_intro. split; [destruct (is_race c); auto|];
    apply all_noprobe; discriminate.
Qed.
Lemma ends_noprobe c i rd (x : comp V E) : noprobe (ends c i rd x ++ [KEnd i]) = true /\ nordy (ends c i rd x ++ [KEnd i]) = true.
Proof.
  pose proof (cancel_all_noprobe c) as A. pose proof (neutral_nordy _ (cancel_all_neutral c)) as B.
  unfold ends, noprobe, nordy in *. rewrite !forallb_app. cbn. rewrite !andb_true_r.
  destruct (knd c); auto; destruct x; cbn; rewrite ?forallb_app; auto; rewrite A, B; auto.
Qed.

Lemma user_nogo s : user s = true -> forall j, stk s <> [KGo j].
Proof. unfold user. intros H j Q. rewrite Q in H. discriminate. Qed.

Lemma acts_finish c i rd x t s : ph s i <> Idle -> ph s i <> Gone -> (forall j, stk s <> [KGo j]) -> forall ms, stk s = ms ++ t -> noprobe ms = true ->
  acts c s (finish c i rd x (set_stk t s)) [EDone i x].
Proof.
  intros Hi Hg Hk ms Hs Hm. destruct (finish_stk c i rd x (set_stk t s)) as [F1 _].
  destruct (finish_shape c i rd x (set_stk t s)) as (ns & _ & P1 & _ & _ & P4 & _ & _ & _ & P8 & _).
  destruct (ends_noprobe c i rd x) as [A B].
  apply (ac_quiet c s _ _ ms (ends c i rd x ++ [KEnd i]) t); auto.
  - rewrite F1, <- app_assoc. reflexivity.
  - rewrite P1. apply idle_upd. destruct (ph s i) eqn:Q; auto; congruence.
  - rewrite P1. apply isgone_upd. destruct (ph s i) eqn:Q; auto; congruence.
Qed.

Lemma step_acts c s l s' ev : wf c -> Core c s -> LF c s -> step c l s = Some (s', ev) -> acts c s s' ev.
Proof.
  intros W C L H. unfold Core in C. destruct l; cbn in H.
  - destruct (stk s) as [|k t] eqn:Es; [discriminate|].
    assert (M : main k = true -> t = []) by (intros M; now apply (main_top _ _ _ _ _ _ _ _ _ _ M C)).
    assert (Q : forall ns, stk s' = ns ++ t -> ph s' = ph s -> lastf s' = lastf s -> wired s' = wired s ->
       match k with KGo _ => false | _ => true end = true -> noprobe [k] = true -> noprobe ns = true -> nordy ns = true -> quiet ev = true -> acts c s s' ev).
    { intros ns Q1 Q2 Q3 Q4 Q0 Q5 Q6 Q7 Q8. apply (ac_quiet c s s' ev [k] ns t); auto; try (rewrite Q2; auto).
      intros j Hj. rewrite Es in Hj. injection Hj as -> _. discriminate. }
    destruct k; try (rewrite (M eq_refl) in *; clear M); cbn in H.
    + inj H. now apply (Q []).
    + destruct (todo s) as [|i l] eqn:Et.
      * destruct (lastf s) as [j|] eqn:El; inj H.
        -- apply ac_release; auto; congruence.
        -- exfalso. apply (wf_ne c W). rewrite <- (L ltac:(rewrite Es; now left) El). exact Et.
      * destruct (core_create c _ _ _ _ _ _ _ KRdy i l (KRdyChk i) W (or_introl (conj eq_refl eq_refl)) eq_refl C) as [Hi _].
        inj H. apply (ac_start c s _ _ i KRdy (KRdyChk i)); auto; unfold create; destruct (is_race c); reflexivity.
    + destruct (gone (set_stk [] s) i) eqn:G; [destruct (knd c)|]; inj H;
        [eapply (ac_check c s _ _ i KRdy)|eapply (ac_check c s _ _ i KRdy)|eapply (ac_check c s _ _ i KResume)|eapply (ac_check c s _ _ i (KGo i))];
        auto; left; unfold gone in G; cbn in G; destruct (ph s i); try discriminate; auto.
    + pose proof (c_at _ _ _ _ _ _ _ _ _ C (KGo i) (or_introl eq_refl)) as Hat. cbn in Hat. inj H.
      apply (ac_go c s _ _ i); auto.
    + unfold settle, entering in H. cbn in H. destruct (ph s i) eqn:Ep;
        try solve [destruct (knd c); [| |destruct (uc _ =? 0)]; inj H; [apply (Q [KStart])|apply (Q [KStart])|apply (Q [KResume])|apply (Q [KStart])]; reflexivity].
      destruct (knd c); [| |destruct (uc _ =? 0)]; inj H; (eapply (ac_settle c s _ _ i (KOut i)); [eassumption|auto|reflexivity|eassumption|reflexivity|reflexivity|reflexivity|reflexivity|auto]).
    + destruct (todo s) as [|i l] eqn:Et.
      * inj H. now apply (Q [KArm]).
      * destruct (core_create c _ _ _ _ _ _ _ KStart i l (KChk i) W (or_intror (conj eq_refl eq_refl)) eq_refl C) as [Hi _].
        inj H. apply (ac_start c s _ _ i KStart (KChk i)); auto; unfold create; destruct (is_race c); reflexivity.
    + discriminate.
    + unfold settle, entering in H. cbn in H. destruct (ph s i) eqn:Ep;
        try solve [destruct (knd c); [| |destruct (gone _ i)]; inj H; [apply (Q [KStart])|apply (Q [KStart])|apply (Q [KArm])|apply (Q [KStart])]; reflexivity].
      destruct (knd c); [| |destruct (gone _ i)]; inj H; (eapply (ac_settle c s _ _ i (KChk i)); [eassumption|auto|reflexivity|eassumption|reflexivity|reflexivity|reflexivity|reflexivity|auto]).
    + assert (Z : acts c s (push (cancel_all c ++ [KArm2]) (set_stk [] s)) []).
      { apply (ac_quiet c s _ _ [KArm] (cancel_all c ++ [KArm2]) []); auto; [rewrite Es; discriminate| |].
        - unfold noprobe. rewrite forallb_app. pose proof (cancel_all_noprobe c) as A. unfold noprobe in A. now rewrite A.
        - unfold nordy. rewrite forallb_app. pose proof (neutral_nordy _ (cancel_all_neutral c)) as A. unfold nordy in A. now rewrite A. }
      destruct (knd c); try destruct (err s); inj H; try (apply (Q [KArm2]); reflexivity). exact Z.
    + destruct (uc s =? 0); inj H; [now apply (Q [KResume])|now apply (Q [])].
    + inj H. now apply (ac_probe c s _ _ i t).
    + inj H. now apply (ac_resume c s _ _ t).
    + destruct (fin s); [|destruct (work s i && intr c i)]; inj H; [apply (Q [])|apply (Q [KUser])|apply (Q [])]; reflexivity.
    + destruct (fin s); [|destruct (intr c i && _)]; inj H; [apply (Q [])|apply (Q [KUser])|apply (Q [])]; reflexivity.
    + destruct (fin s); [|destruct (canc s i); [unfold emit in H; destruct (running _ _)|]]; inj H;
        [apply (Q [])|apply (Q [KUser])|apply (Q [])|apply (Q [])]; reflexivity.
    + destruct (fin s); [|destruct (match knd c with Gather => true | _ => canc s i end); [unfold emit in H; destruct (running _ _)|]]; inj H;
        [apply (Q [])|apply (Q [KUser])|apply (Q [])|apply (Q [])]; reflexivity.
    + inj H. now apply (Q []).
    + inj H. now apply (Q []).
    + pose proof (c_end _ _ _ _ _ _ _ _ _ C i) as He. rewrite cnt_cons in He. cbn in He. rewrite Nat.eqb_refl in He. cbn in He.
      assert (Hp : ph s i = Ending) by (destruct (ph s i); cbn in He; auto; discriminate).
      destruct (uc s =? 1); [destruct (coro s)|]; inj H;
        [apply (ac_end c s _ _ i t [KResume])|apply (ac_end c s _ _ i t [])|apply (ac_end c s _ _ i t [])]; auto.
  - destruct (stk s) as [|[] t] eqn:Es; try discriminate.
    pose proof (c_beg _ _ _ _ _ _ _ _ _ C i) as Hb. rewrite cnt_cons in Hb. cbn in Hb. rewrite Nat.eqb_refl in Hb. cbn in Hb.
    assert (Hp : ph s i = Starting) by (destruct (ph s i); cbn in Hb; auto; discriminate).
    injection H as H. destruct b; cbn in H.
    1,2: inj H; apply acts_finish with (ms := [KBeg i]); auto; try congruence; rewrite Es; discriminate.
    assert (Z : forall p, p = Entering \/ p = Parked -> (forall j, idle (upd (ph s) i p j) = idle (ph s j)) /\
       (forall j, isgone (upd (ph s) i p j) = isgone (ph s j))).
    { intros p Hq. split; [apply idle_upd|apply isgone_upd]; rewrite Hp; destruct Hq; subst; reflexivity. }
    destruct (Z Entering (or_introl eq_refl)), (Z Parked (or_intror eq_refl)).
    assert (NG : forall j, stk s <> [KGo j]) by (rewrite Es; discriminate).
    destruct (knd c), (wired s) eqn:Ew; cbn in H; rewrite ?Ew in H; inj H;
     
      ((apply (ac_quiet c s _ _ [KBeg i] [KUser] t); auto; fail) || apply (ac_quiet c s _ _ [KBeg i] [] t); auto).
  - destruct (user s && running s i) eqn:U; [|discriminate]. apply andb_prop in U as [Us U]. pose proof (user_nogo s Us) as NG. unfold running in U.
    inj H. replace s with (set_stk (stk s) s) at 2 by now destruct s.
    apply acts_finish with (ms := []); auto; intros Q; rewrite Q in U; discriminate.
  - destruct (user s) eqn:Us; [|discriminate]. pose proof (user_nogo s Us) as NG. unfold transact in H.
    destruct (is_race c && running s i); [|discriminate]. destruct (idx s); inj H.
    + now apply (ac_quiet c s _ _ [] [] (stk s)).
    + apply (ac_quiet c s _ _ [] (cancel_all c ++ [KTx i]) (stk s)); auto.
      * unfold noprobe. rewrite forallb_app. pose proof (cancel_all_noprobe c) as A. unfold noprobe in A. now rewrite A.
      * unfold nordy. rewrite forallb_app. pose proof (neutral_nordy _ (cancel_all_neutral c)) as A. unfold nordy in A. now rewrite A.
  - destruct (user s && armed s) eqn:Us; [|discriminate]. apply andb_prop in Us as [Us _]. pose proof (user_nogo s Us) as NG. destruct (fin s); inj H.
    + now apply (ac_quiet c s _ _ [] [] (stk s)).
    + apply (ac_quiet c s _ _ [] (map (fun i => KFwd i t) (idxs c)) (stk s)); auto.
      * apply all_noprobe. discriminate.
      * apply neutral_nordy, forallb_map_neutral. auto.
  - destruct (user s && coro s) eqn:Us; [|discriminate]. apply andb_prop in Us as [Us _]. pose proof (user_nogo s Us) as NG. inj H.
    apply (ac_quiet c s _ _ [] (map (if is_race c then KInt else KIntG) (idxs c)) (stk s)); auto.
    + destruct (is_race c); apply all_noprobe; discriminate.
    + apply neutral_nordy, forallb_map_neutral. destruct (is_race c); auto.
Qed.

(** *** C55: a null handle is released only if there is nothing to await. *)
Lemma freed_null o : ~ In (ENull : event) (freed o).
Proof. destruct o; cbn; [intros [|[]]; discriminate|auto]. Qed.
Lemma quiet_in ev e : quiet ev = true -> In e ev -> quiet1 e = true.
Proof. unfold quiet. rewrite forallb_forall. auto. Qed.
Lemma acts_null c s s' ev : acts c s s' ev -> ~ In ENull ev.
Proof.
  intros A. destruct A as [i t _ -> _ _ _ _|i k k' _ _ -> _ _ _ _ _|i k' _ -> _ _ _ _ _|i _ -> _ _ _ _ _|i k k' _ _ -> _ _ _ _ _ _
    |_ _ -> _ _ _ _ _|t _ -> _ _ _ _|i t ns _ -> _ _ _ _ _ _|ms ns t _ _ _ _ _ _ Q _ _ _ _].
  1,2,5,8: cbn; intuition discriminate.
  - apply freed_null.
  - auto.
  - auto.
  - cbn. intros [|H]; [discriminate|now apply freed_null in H].
  - intros H. apply (quiet_in _ _ Q) in H. discriminate.
Qed.
Theorem no_null c ls s tr : wf c -> run c (init c) ls = Some (s, tr) -> ~ In ENull tr.
Proof.
  intros W H. refine (proj2 (run_ind c (fun s tr => TI c s tr /\ ~ In ENull tr) _ _ ls s tr H)).
  - split; [now apply init_TI|auto].
  - intros s0 tr0 l s1 ev [T N] St. split; [eapply step_TI; eauto|]. intros X. apply in_app_or in X as [X|X]; auto.
    eapply acts_null; eauto. eapply step_acts; eauto; apply T.
Qed.

(** *** C57: how often await_ready is called. *)
Lemma cnt_noprobe i ns : noprobe ns = true -> cnt (isprobe i) ns = 0.
Proof. unfold noprobe. intros H. apply cnt_zero. intros k Hk. rewrite forallb_forall in H. specialize (H k Hk). destruct k; auto; discriminate. Qed.
Lemma quiet_probes i ev : quiet ev = true -> probes i ev = 0.
Proof. unfold quiet. induction ev as [|[] ev IH]; cbn; auto; discriminate. Qed.
Lemma quiet_frees i ev : quiet ev = true -> frees i ev = 0.
Proof. unfold quiet. induction ev as [|[] ev IH]; cbn; auto; discriminate. Qed.
Lemma freed_probes i o : probes i (freed o) = 0.
Proof. destruct o; reflexivity. Qed.
Lemma frees_freed i o : frees i (freed o) = match o with Some j => if j =? i then 1 else 0 | None => 0 end.
Proof. destruct o; cbn; auto. Qed.
Definition asked c i : nat := cnt (isprobe i) (if ranged c && negb (is_race c) then map KProbe (idxs c) else []).
Lemma asked_le c i : asked c i <= (if ranged c && negb (is_race c) then 1 else 0).
Proof.
  unfold asked. destruct (ranged c && negb (is_race c)); [|auto].
  assert (G : forall n k, cnt (isprobe i) (map KProbe (seq k n)) <= 1 /\ (i < k -> cnt (isprobe i) (map KProbe (seq k n)) = 0)).
  { induction n as [|n IH]; intros k; cbn [seq map]; [auto|]. rewrite !cnt_cons. cbn [isprobe]. destruct (IH (S k)) as [I1 I2].
    destruct (Nat.eqb_spec i k); cbn; split; try lia; intros; apply I2; lia. }
  apply G.
Qed.

Record PB c s tr : Prop := {
  pb_n : forall i, probes i tr + cnt (isprobe i) (stk s) = asked c i + b2n (negb (idle (ph s i)));
  pb_s : forall i, In (KProbe i) (stk s) -> started tr = [] /\ ranged c = true /\ knd c <> Race;
  pb_a : always (fun a e => match e with
           | EProbe i => (exists a', a = a' ++ [EStart i]) \/ started a = [] /\ ranged c = true /\ knd c <> Race
           | _ => True end) tr }.

Lemma quiet_started ev : quiet ev = true -> started ev = [].
Proof. unfold quiet. induction ev as [|[] ev IH]; cbn; auto; discriminate. Qed.
Lemma freed_started o : started (freed o) = [].
Proof. destruct o; reflexivity. Qed.

Lemma step_PB c s tr l s' ev : wf c -> TI c s tr -> PB c s tr -> step c l s = Some (s', ev) -> PB c s' (tr ++ ev).
Proof.
  intros W T [P S A] St. pose proof (step_acts c s l s' ev W (t_core _ _ _ T) (t_lf _ _ _ T) St) as X.
  assert (KEEP : (forall i, probes i ev = 0) -> started ev = [] -> (forall i, cnt (isprobe i) (stk s') = cnt (isprobe i) (stk s)) ->
     (forall i, idle (ph s' i) = idle (ph s i)) -> (forall i, In (KProbe i) (stk s') -> In (KProbe i) (stk s)) ->
     (forall a e b, ev = a ++ e :: b -> forall i, e <> EProbe i) -> PB c s' (tr ++ ev)).
  { intros Q1 Q2 Q3 Q4 Q5 Q6. constructor.
    - intros i. rewrite probes_app, Q1, Q3, Q4, <- P. lia.
    - intros i Hi. rewrite started_app, Q2, app_nil_r. apply (S i). auto.
    - apply always_app; auto. intros a e b Hab. specialize (Q6 a e b Hab). destruct e; auto. now elim (Q6 i). }
  assert (NP : forall e0 : list event, (forall j, ~ In (EProbe j) e0) -> forall a e b, e0 = a ++ e :: b -> forall i, e <> EProbe i).
  { intros e0 N a e b -> i ->. apply (N i). apply in_or_app. right. now left. }
  destruct X as [i t Q1 -> Q2 Q3 _ _|i k k' Q1 Q2 -> Q3 Q4 Q5 _ _|i k' Q1 -> _ Q2 _ Q3 Q4|i Q1 -> _ _ Q2 Q3 Q4|i k k' Q1 Q0 -> Q2 Q3 _ _ Q4 Q5
    |Q1 _ -> _ _ _ Q2 Q3|t Q1 -> _ _ Q2 Q3|i t ns Q1 -> Q2 Q3 _ _ Q4 Q5|ms ns t _ Q1 Q2 Q3 Q4 _ Q5 Q6 Q7 _ _].
  - assert (Hi : started tr = [] /\ ranged c = true /\ knd c <> Race) by (apply (S i); rewrite Q1; now left). constructor.
    + intros j. specialize (P j). rewrite Q1, cnt_cons in P. rewrite probes_app, Q2, Q3, cnt_cons. cbn in P |- *.
      rewrite (Nat.eqb_sym i j). destruct (j =? i); cbn in *; lia.
    + intros j Hj. rewrite started_app. cbn. rewrite app_nil_r. apply (S j). rewrite Q1. rewrite Q2 in Hj. destruct Hj as [|]; [discriminate|now right].
    + apply always_one; auto.
  - constructor.
    + intros j. specialize (P j). rewrite Q1, cnt_cons in P. rewrite probes_app, Q5, Q4, !cnt_cons.
      assert (Z : isprobe j k = false /\ isprobe j k' = false) by (destruct Q2 as [[-> ->]|[-> ->]]; auto). destruct Z as [Z1 Z2].
      rewrite Z1 in P. rewrite Z2. cbn in P |- *.
      unfold upd. rewrite (Nat.eqb_sym j i). destruct (Nat.eqb_spec i j); cbn in *; [subst; rewrite Q3 in P; cbn in P|]; lia.
    + intros j Hj. rewrite Q5 in Hj. destruct Q2 as [[-> ->]|[-> ->]]; repeat (destruct Hj as [Hj|Hj]; [discriminate|]); contradiction.
    + apply always_app; auto. intros a e b Hab. destruct a as [|y a]; cbn in Hab; injection Hab as <- Hab; auto.
      destruct a as [|y a]; cbn in Hab; [injection Hab as <- <-; eauto|]. destruct a; discriminate.
  - apply KEEP; intros; auto using freed_probes, freed_started.
    + rewrite Q1, Q3, !cnt_cons. destruct Q4 as [[_ [-> | ->]]| ->]; reflexivity.
    + now rewrite Q2.
    + rewrite Q3 in H. destruct H as [H|[]]. subst k'. destruct Q4 as [[_ [|]]|]; discriminate.
    + eapply NP; eauto. intros j. destruct (lastf s); cbn; [intros [|[]]; discriminate|auto].
  - apply KEEP; intros; auto.
    + now rewrite Q1, Q4.
    + rewrite Q3. apply idle_upd. now rewrite Q2.
    + rewrite Q4 in H. destruct H as [|[|[]]]; discriminate.
    + eapply NP; eauto; now intros.
  - apply KEEP; intros; auto.
    + rewrite Q1, Q4, !cnt_cons. destruct Q0 as [-> | ->]; destruct Q5 as [-> |[-> | ->]]; reflexivity.
    + rewrite Q3. apply idle_upd. now rewrite Q2.
    + rewrite Q4 in H. destruct H as [H|[]]. subst k'. destruct Q5 as [|[|]]; discriminate.
    + eapply NP; eauto. intros j [|[]]; discriminate.
  - apply KEEP; intros; auto.
    + now rewrite Q1, Q3.
    + now rewrite Q2.
    + rewrite Q3 in H. destruct H as [|[]]; discriminate.
    + eapply NP; eauto; now intros.
  - apply KEEP; intros; cbn; auto using freed_probes, freed_started.
    + now rewrite Q1, Q3.
    + now rewrite Q2.
    + rewrite Q1. rewrite Q3 in H. now right.
    + eapply NP; eauto. intros j. destruct (lastf s); cbn; [intros [|[|[]]]; discriminate|intros [|[]]; discriminate].
  - apply KEEP; intros; auto.
    + rewrite Q1, Q4. destruct Q5 as [-> | ->]; reflexivity.
    + rewrite Q3. apply idle_upd. now rewrite Q2.
    + rewrite Q1. rewrite Q4 in H. destruct Q5 as [-> | ->]; [now right|]. destruct H; [discriminate|now right].
    + eapply NP; eauto. intros j [|[]]; discriminate.
  - apply KEEP; intros; auto using quiet_probes, quiet_started.
    + rewrite Q1, Q2, !cnt_app, (cnt_noprobe i ms Q3), (cnt_noprobe i ns Q4). reflexivity.
    + rewrite Q1. rewrite Q2 in H. apply in_or_app. right. apply in_app_or in H as [H|H]; auto.
      unfold noprobe in Q4. rewrite forallb_forall in Q4. specialize (Q4 _ H). discriminate.
    + eapply NP; eauto. intros j Hj. apply (quiet_in _ _ Q5) in Hj. discriminate.
Qed.

Lemma run_PB c ls s tr : wf c -> run c (init c) ls = Some (s, tr) -> TI c s tr /\ PB c s tr.
Proof.
  intros W. apply (run_ind c (fun s tr => TI c s tr /\ PB c s tr)).
  - split; [now apply init_TI|]. constructor.
    + intros i. cbn [probes init stk ph idle negb b2n]. rewrite cnt_app. reflexivity.
    + intros i H. cbn in H. apply in_app_or in H as [H|[|[]]]; [|discriminate].
      destruct (ranged c && negb (is_race c)) eqn:R; [|destruct H]. apply andb_prop in R as [R1 R2]. unfold is_race in R2.
      split; auto. split; auto. intros Q. now rewrite Q in R2.
    + apply always_nil.
  - intros s0 tr0 l s1 ev [T P] St. split; [eapply step_TI|eapply step_PB]; eauto.
Qed.

Theorem probes_bound c ls s tr i : wf c -> run c (init c) ls = Some (s, tr) ->
  probes i tr <= (if ranged c && negb (is_race c) then 2 else 1).
Proof.
  intros W H. destruct (run_PB c ls s tr W H) as [_ P]. pose proof (pb_n _ _ _ P i) as Q. pose proof (asked_le c i).
  destruct (ranged c && negb (is_race c)), (idle (ph s i)); cbn in *; lia.
Qed.
Theorem probes_when c ls s tr : wf c -> run c (init c) ls = Some (s, tr) -> forall a i b, tr = a ++ EProbe i :: b ->
  (exists a', a = a' ++ [EStart i]) \/ started a = [] /\ ranged c = true /\ knd c <> Race.
Proof. intros W H a i b Ht. destruct (run_PB c ls s tr W H) as [_ P]. exact (pb_a _ _ _ P a (EProbe i) b Ht). Qed.

(** *** C56: how often the frame of a fork is destroyed. *)
Record FI s tr : Prop := {
  fi_w : forall j, In (ESusp j) tr -> wired s = true;
  fi_l : wired s = true -> lastf s = None;
  fi_i : forall j, lastf s = Some j -> ph s j <> Idle /\ ~ In (KRdyChk j) (stk s) /\
          (ph s j = Gone /\ frees j tr = 1 \/ stk s = [KGo j]);
  fi_n : forall j, frees j tr = b2n (isgone (ph s j)) \/
          frees j tr = 2 /\ ph s j = Gone /\ ~ late j tr /\ lastf s <> Some j /\ ~ In (KRdyChk j) (stk s) }.

Lemma late_app j tr ev : late j (tr ++ ev) -> ~ In (ESusp j) ev -> ~ In (EStart j) ev -> late j tr.
Proof.
  intros [H|(a & b & k & H & Hk)] N1 N2.
  - apply in_app_or in H as [H|H]; [now left|contradiction].
  - right. revert a b H Hk. induction tr as [|e tr IH]; intros a b H Hk.
    + elim N2. cbn in H. rewrite H. apply in_or_app. right. now left.
    + destruct a as [|y a]; cbn in H; injection H as He H; [destruct Hk|]. subst y.
      destruct Hk as [->|Hk].
      * assert (Q : In (EStart j) tr).
        { assert (Z : In (EStart j) (tr ++ ev)) by (rewrite H; apply in_or_app; right; now left).
          apply in_app_or in Z as [|]; auto; contradiction. }
        apply in_split in Q as (x & y & ->). exists (ESusp k :: x), y, k. split; [reflexivity|now left].
      * destruct (IH a b H Hk) as (x & y & z & -> & Hz). exists (e :: x), y, z. split; [reflexivity|now right].
Qed.
Lemma quiet_late j tr ev : quiet ev = true -> late j (tr ++ ev) -> late j tr.
Proof. intros Q H. apply late_app in H; auto; intros X; apply (quiet_in _ _ Q) in X; discriminate. Qed.
Lemma quiet_susp j ev : quiet ev = true -> ~ In (ESusp j) ev.
Proof. intros Q X. apply (quiet_in _ _ Q) in X. discriminate. Qed.
Lemma freed_susp j o : ~ In (ESusp j : event) (freed o).
Proof. destruct o; cbn; [intros [|[]]; discriminate|auto]. Qed.
Lemma freed_start j o : ~ In (EStart j : event) (freed o).
Proof. destruct o; cbn; [intros [|[]]; discriminate|auto]. Qed.

Lemma step_FI c s tr l s' ev : wf c -> TI c s tr -> FI s tr -> step c l s = Some (s', ev) -> FI s' (tr ++ ev).
Proof.
  intros W T [FW FL FJ FN] St. pose proof (t_core _ _ _ T) as C.
  pose proof (step_acts c s l s' ev W C (t_lf _ _ _ T) St) as X.
  assert (UW : forall k, In k (stk s) -> wiredness k = Some false -> wired s = false) by (intros k; apply (c_wired _ _ _ _ _ _ _ _ _ C)).
  assert (NL : forall j, wired s = false -> ~ late j tr).
  { intros j Hw [H|(a & b & k & -> & H)]; [apply FW in H; congruence|].
    rewrite (FW k) in Hw by (apply in_or_app; now left). discriminate. }
  assert (GO : forall j, stk s = [KGo j] -> frees j tr = 0).
  { intros j Hj. pose proof (c_at _ _ _ _ _ _ _ _ _ C (KGo j)) as Q. rewrite Hj in Q. specialize (Q (or_introl eq_refl)). cbn in Q.
    destruct (FN j) as [Z|(_ & Z & _)]; [|congruence]. rewrite Q in Z. exact Z. }
  destruct X as [i t Q1 -> Q2 Q3 Q4 Q5|i k k' Q1 Q2 -> Q3 Q4 Q5 Q6 Q7|i k' Q1 -> Q2 Q3 Q4 Q5 Q6|i Q1 -> Q2 Q3 Q4 Q5 Q6|i k k' Q1 Q0 -> Q2 Q3 Q4 Q5 Q6 Q7
    |Q1 _ -> Q0 Q2 Q3 Q4 Q5|t Q1 -> Q2 Q3 Q4 Q5|i t ns Q1 -> Q2 Q3 Q4 Q5 Q6 Q7|ms ns t Q0 Q1 Q2 Q3 Q4 Q5 Q6 Q7 Q8 Q9 Q10].
  - (* the constructor asks a child *)
    constructor.
    + intros j H. rewrite Q5. apply in_app_or in H as [H|[|[]]]; [eauto|discriminate].
    + now rewrite Q4, Q5.
    + intros j. rewrite Q3, Q4, frees_app. cbn. rewrite Nat.add_0_r. intros H. destruct (FJ j H) as (A & B & [D|D]); [|rewrite D in Q1; discriminate].
      split; auto. split; auto. rewrite Q2. intros [|Z]; [discriminate|]. apply B. rewrite Q1. now right.
    + intros j. rewrite Q3, Q4, frees_app. cbn. rewrite Nat.add_0_r. destruct (FN j) as [|(A & B & D & F & N)]; auto. right.
      split; auto. split; auto. split; [|split; auto].
      * intros Z. apply D. apply late_app in Z; auto; intros [|[]]; discriminate.
      * rewrite Q2. intros [|Z]; [discriminate|]. apply N. rewrite Q1. now right.
  - (* a child is started *)
    constructor.
    + intros j H. rewrite Q7. apply in_app_or in H as [H|[|[|[]]]]; try discriminate. eauto.
    + now rewrite Q6, Q7.
    + intros j. rewrite Q4, Q6, frees_app. cbn. rewrite Nat.add_0_r. intros H. destruct (FJ j H) as (A & B & [[D1 D2]|D]); [|rewrite D in Q1; destruct Q2 as [[-> _]|[-> _]]; discriminate].
      assert (Hj : j <> i) by congruence. rewrite upd_other by auto. split; auto. split; auto. rewrite Q5.
      intros Z. repeat (destruct Z as [Z|Z]; [try discriminate|]); [|contradiction].
      destruct Q2 as [[_ ->]|[_ ->]]; [injection Z as ->; auto|discriminate].
    + intros j. rewrite Q4, Q6, frees_app. cbn. rewrite Nat.add_0_r. destruct (FN j) as [Z|(A & B & D & F & N)].
      * left. rewrite Z. unfold upd. destruct (Nat.eqb_spec j i) as [Ej|]; auto. subst j. now rewrite Q3.
      * right. assert (Hj : j <> i) by congruence. rewrite upd_other by auto. split; auto. split; auto. split; [|split; auto].
        -- intros Z. apply D. apply late_app in Z; auto; intros Y; repeat (destruct Y as [Y|Y]; [try discriminate|]); try contradiction. congruence.
        -- rewrite Q5. intros Z. repeat (destruct Z as [Z|Z]; [try discriminate|]); [|contradiction].
           destruct Q2 as [[_ ->]|[_ ->]]; [injection Z as ->; auto|discriminate].
  - (* last_forked.done() *)
    assert (Hw : wired s = false) by (apply (UW (KRdyChk i)); [rewrite Q1; now left|reflexivity]).
    constructor.
    + intros j H. apply in_app_or in H as [H|H]; [apply FW in H; congruence|now apply freed_susp in H].
    + rewrite Q4. congruence.
    + intros j. rewrite Q2. intros [= <-]. rewrite Q3, Q5, frees_app, frees_freed.
      pose proof (c_at _ _ _ _ _ _ _ _ _ C (KRdyChk i)) as Z. rewrite Q1 in Z. specialize (Z (or_introl eq_refl)). cbn in Z.
      split; [destruct (ph s i); [contradiction| | | | | |]; discriminate|].
      split; [intros [Y|[]]; subst k'; destruct Q6 as [[_ [|]]|]; discriminate|].
      destruct Q6 as [[G _]| ->]; auto. left. split; auto.
      assert (Ne : match lastf s with Some j => if j =? i then 1 else 0 | None => 0 end = 0).
      { destruct (lastf s) as [j|] eqn:El; auto. destruct (Nat.eqb_spec j i) as [Ej|]; auto. subst j.
        destruct (FJ i eq_refl) as (_ & B & _). elim B. rewrite Q1. now left. }
      rewrite Ne. destruct (FN i) as [Y|(_ & _ & _ & _ & N)]; [rewrite G in Y; cbn in Y; lia|].
      elim N. rewrite Q1. now left.
    + intros j. rewrite Q2, Q3, frees_app, frees_freed. destruct (lastf s) as [k|] eqn:El.
      * destruct (Nat.eqb_spec k j) as [Ej|Nj].
        -- subst k. right. destruct (FJ j eq_refl) as (A & B & [[D1 D2]|D]); [|rewrite D in Q1; discriminate].
           rewrite D2. split; auto. split; auto. split.
           ++ intros Z. apply late_app in Z; [|apply freed_susp|apply freed_start]. now apply (NL j).
           ++ split; [intros [= ->]; apply B; rewrite Q1; now left|]. rewrite Q5. intros [Y|[]]; subst k'; destruct Q6 as [[_ [|]]|]; discriminate.
        -- rewrite Nat.add_0_r. destruct (FN j) as [|(A & B & D & F & N)]; auto. right. split; auto. split; auto. split.
           ++ intros Z. apply late_app in Z; [|apply freed_susp|apply freed_start]. auto.
           ++ split; [intros [= ->]; apply N; rewrite Q1; now left|]. rewrite Q5. intros [Y|[]]; subst k'; destruct Q6 as [[_ [|]]|]; discriminate.
      * rewrite Nat.add_0_r. destruct (FN j) as [|(A & B & D & F & N)]; auto. right. split; auto. split; auto. split.
        -- intros Z. apply late_app in Z; [|apply freed_susp|apply freed_start]. auto.
        -- split; [intros [= ->]; apply N; rewrite Q1; now left|]. rewrite Q5. intros [Y|[]]; subst k'; destruct Q6 as [[_ [|]]|]; discriminate.
  - (* await_suspend resumes the fork *)
    constructor.
    + auto.
    + auto.
    + congruence.
    + intros j. rewrite Q5, Q2, app_nil_r. destruct (FN j) as [Z|(A & B & D & F & N)].
      * left. rewrite Z. f_equal. symmetry. apply isgone_upd. now rewrite Q4.
      * right. split; auto. split; [|split; [auto|split; [discriminate|rewrite Q6; intros [|[|[]]]; discriminate]]]. rewrite upd_other; auto. congruence.
  - (* a child is suspended *)
    assert (Hw : wired s = true) by (apply (c_wired _ _ _ _ _ _ _ _ _ C k); [rewrite Q1; now left|destruct Q0 as [-> | ->]; reflexivity]).
    constructor.
    + rewrite Q5. auto.
    + rewrite Q4, Q5. auto.
    + rewrite Q4, (FL Hw). discriminate.
    + intros j. rewrite Q3, Q4, (FL Hw), frees_app. cbn. rewrite Nat.add_0_r. destruct (FN j) as [Z|(A & B & D & F & N)].
      * left. rewrite Z. f_equal. symmetry. apply isgone_upd. now rewrite Q2.
      * right. assert (Hj : j <> i) by congruence. split; auto. split; [now rewrite upd_other|]. split; [|split; [discriminate|]].
        -- intros Z. apply D. apply late_app in Z; auto; intros [Y|[]]; congruence.
        -- rewrite Q6. intros [Y|[]]; subst k'; destruct Q7 as [|[|]]; discriminate.
  - (* everything was ready *)
    constructor.
    + intros j. rewrite app_nil_r, Q3. apply (FW j).
    + auto.
    + congruence.
    + intros j. rewrite Q2, Q4, app_nil_r. destruct (FN j) as [|(A & B & D & F & N)]; auto. right.
      split; auto. split; auto. split; auto. split; [discriminate|]. rewrite Q5. intros [|[]]; discriminate.
  - (* the awaiting coroutine continues *)
    constructor.
    + intros j H. rewrite Q3. apply in_app_or in H as [H|[|H]]; [eauto|discriminate|now apply freed_susp in H].
    + auto.
    + congruence.
    + intros j. rewrite Q2, Q4, frees_app. cbn [frees]. rewrite frees_freed.
      assert (NN : ~ late j tr -> ~ late j (tr ++ EResume (result c s) :: freed (lastf s))).
      { intros N Z. apply N. apply late_app in Z; auto; intros [|Y]; try discriminate; [now apply freed_susp in Y|now apply freed_start in Y]. }
      destruct (lastf s) as [k|] eqn:El.
      * destruct (Nat.eqb_spec k j) as [Ej|Nj].
        -- subst k. right. destruct (FJ j eq_refl) as (A & B & [[D1 D2]|D]); [|rewrite D in Q1; discriminate].
           rewrite D2. split; auto. split; auto. split; [|split; [discriminate|]].
           ++ apply NN, NL. destruct (wired s) eqn:Hw; auto. specialize (FL eq_refl). discriminate.
           ++ rewrite Q5. intros Z. apply B. rewrite Q1. now right.
        -- rewrite Nat.add_0_r. destruct (FN j) as [|(A & B & D & F & N)]; auto. right. split; auto. split; auto. split; auto.
           split; [discriminate|]. rewrite Q5. intros Z. apply N. rewrite Q1. now right.
      * rewrite Nat.add_0_r. destruct (FN j) as [|(A & B & D & F & N)]; auto. right. split; auto. split; auto. split; auto.
        split; [discriminate|]. rewrite Q5. intros Z. apply N. rewrite Q1. now right.
  - (* a fork ends *)
    assert (K : forall j, In (KRdyChk j) (stk s') -> In (KRdyChk j) (stk s)).
    { intros j. rewrite Q1, Q6. destruct Q7 as [-> | ->]; cbn; [auto|intros [|]; [discriminate|auto]]. }
    constructor.
    + intros j H. rewrite Q5. apply in_app_or in H as [H|[|[]]]; [eauto|discriminate].
    + now rewrite Q4, Q5.
    + intros j. rewrite Q3, Q4, frees_app. cbn. intros H. destruct (FJ j H) as (A & B & [[D1 D2]|D]); [|rewrite D in Q1; discriminate].
      assert (Hj : j <> i) by congruence. rewrite upd_other by auto. rewrite (proj2 (Nat.eqb_neq i j)) by congruence.
      split; auto. split; auto. left. split; auto. lia.
    + intros j. rewrite Q3, Q4, frees_app. cbn. destruct (FN j) as [Z|(A & B & D & F & N)].
      * left. rewrite Z. unfold upd. rewrite (Nat.eqb_sym i j). destruct (Nat.eqb_spec j i) as [Ej|]; [subst j; now rewrite Q2|lia].
      * right. assert (Hj : j <> i) by congruence. rewrite upd_other by auto. rewrite (proj2 (Nat.eqb_neq i j)) by congruence.
        split; [lia|]. split; auto. split; [|auto]. intros Z. apply D. apply late_app in Z; auto; intros [|[]]; discriminate.
  - (* anything else *)
    assert (K : forall j, In (KRdyChk j) (stk s') -> In (KRdyChk j) (stk s)).
    { intros j. rewrite Q1, Q2. intros H. apply in_or_app. right. apply in_app_or in H as [H|]; auto.
      unfold nordy in Q5. rewrite forallb_forall in Q5. specialize (Q5 _ H). discriminate. }
    assert (G : forall j, ph s j = Gone -> ph s' j = Gone).
    { intros j H. specialize (Q8 j). rewrite H in Q8. destruct (ph s' j); auto; discriminate. }
    constructor.
    + intros j H. rewrite Q10. apply in_app_or in H as [H|H]; [eauto|now apply quiet_susp in H].
    + now rewrite Q9, Q10.
    + intros j. rewrite Q9, frees_app, (quiet_frees j ev Q6), Nat.add_0_r. intros H.
      destruct (FJ j H) as (A & B & [[D1 D2]|D]); [|now elim (Q0 j)]. split; [rewrite (G j D1); discriminate|]. split; auto.
    + intros j. rewrite Q9, frees_app, (quiet_frees j ev Q6), Nat.add_0_r, Q8.
      destruct (FN j) as [|(A & B & D & F & N)]; auto. right. split; auto. split; auto. split; [|auto].
      intros Z. apply D. eapply quiet_late; eauto.
Qed.

Lemma run_FI c ls s tr : wf c -> run c (init c) ls = Some (s, tr) -> TI c s tr /\ FI s tr.
Proof.
  intros W. apply (run_ind c (fun s tr => TI c s tr /\ FI s tr)).
  - split; [now apply init_TI|]. constructor; cbn; try discriminate; auto.
  - intros s0 tr0 l s1 ev [T P] St. split; [eapply step_TI|eapply step_FI]; eauto.
Qed.
Theorem frees_twice c ls s tr i : wf c -> run c (init c) ls = Some (s, tr) -> frees i tr <= 2.
Proof.
  intros W H. destruct (run_FI c ls s tr W H) as [_ P]. destruct (fi_n _ _ P i) as [Q|[Q _]]; rewrite Q; auto.
  destruct (isgone (ph s i)); cbn; auto.
Qed.
Theorem frees_some c ls s tr i : wf c -> run c (init c) ls = Some (s, tr) -> at_rest s -> In i (map fst (finished tr)) -> 1 <= frees i tr.
Proof.
  intros W H R F. destruct (run_FI c ls s tr W H) as [T P]. apply (t_fin _ _ _ T) in F.
  destruct (fi_n _ _ P i) as [Q|(-> & _)]; [rewrite Q|auto].
  pose proof (c_end _ _ _ _ _ _ _ _ _ (t_core _ _ _ T) i) as Z. unfold at_rest in R. rewrite R in Z. cbn in Z.
  destruct (ph s i); try discriminate; auto.
Qed.
Theorem frees_late c ls s tr i : wf c -> run c (init c) ls = Some (s, tr) -> late i tr ->
  frees i tr <= 1 /\ (at_rest s -> In i (map fst (finished tr)) -> frees i tr = 1).
Proof.
  intros W H L. destruct (run_FI c ls s tr W H) as [T P]. destruct (fi_n _ _ P i) as [Q|(_ & _ & Q & _)]; [|contradiction].
  rewrite Q. split; [destruct (isgone (ph s i)); auto|]. intros R F. apply (t_fin _ _ _ T) in F.
  pose proof (c_end _ _ _ _ _ _ _ _ _ (t_core _ _ _ T) i) as Z. unfold at_rest in R. rewrite R in Z. cbn in Z.
  destruct (ph s i); try discriminate; reflexivity.
Qed.

(** *** C58: interrupting. *)
Definition mild1 (e : event) : bool := match e with EInterrupt _ | EInterrupted | EDone _ _ => false | _ => true end.
Definition mild (ev : list event) : bool := forallb mild1 ev.
Definition tame (k : item) : bool :=
  match k with KInt _ | KIntG _ | KEmit _ | KFin _ => false | _ => true end.
Definition intitem c (i : nat) : item := if is_race c then KInt i else KIntG i.
(** The element is not interrupted. *)
Definition passed c s (i : nat) : Prop :=
  fin s = true \/ intr c i = false \/ is_race c = true /\ work s i = false \/
  knd c = Join /\ canc s (if ranged c then 0 else i) = false.

Inductive ints c s s' ev : Prop :=
| in_int i k t : stk s = k :: t -> k = KInt i \/ k = KIntG i -> ev = [EInterrupt i] -> stk s' = KUser :: t ->
    ph s' = ph s -> work s' = work s -> canc s' = canc s -> armed s' = armed s -> ints c s s' ev
| in_skip i k t : stk s = k :: t -> k = KInt i \/ k = KIntG i -> (k = intitem c i -> passed c s i) -> mild ev = true -> stk s' = t ->
    (forall j, ~ In (ESusp j) ev) ->
    ph s' = ph s -> work s' = work s -> canc s' = canc s -> armed s' = armed s -> ints c s s' ev
| in_interrupted : ev = [EInterrupted] -> coro s = true -> stk s' = map (intitem c) (idxs c) ++ stk s ->
    ph s' = ph s -> work s' = work s -> canc s' = canc s -> armed s' = armed s -> ints c s s' ev
| in_fin i t : stk s = KFin i :: t -> ev = [] -> stk s' = t -> ph s' = ph s -> work s' = upd (work s) i false ->
    canc s' = canc s -> armed s' = armed s -> ints c s s' ev
| in_emit i t ns : stk s = KEmit i :: t -> mild ev = true -> (forall j, ~ In (ESusp j) ev) -> stk s' = ns ++ t -> forallb tame ns = true -> nomain ns ->
    ph s' = ph s -> work s' = work s -> (canc s' = canc s \/ canc s' = upd (canc s) i false) -> armed s' = armed s -> ints c s s' ev
| in_done i x t ms ns : stk s = ms ++ t -> (ms = [] \/ ms = [KBeg i]) -> ev = [EDone i x] -> stk s' = ns ++ t -> nomain ns ->
    (forall j, In (KFin j) ns -> j = i) -> (forall j, In (KEmit j) ns -> knd c = Join -> is_err x = true) ->
    cls (ph s i) = 1 -> ph s' = upd (ph s) i Ending -> (forall j, j <> i -> work s' j = work s j) ->
    (knd c = Join -> canc s' = canc s) -> armed s' = armed s -> ints c s s' ev
| in_park i t ns p : stk s = KBeg i :: t -> ph s i = Starting -> ev = [] -> stk s' = ns ++ t -> forallb tame ns = true -> nomain ns ->
    (p = Parked \/ p = Entering) -> ph s' = upd (ph s) i p -> work s' = work s -> (knd c <> Gather -> canc s' = upd (canc s) i true) -> 
    armed s' = armed s -> ints c s s' ev
| in_tx ns : knd c = Race -> mild ev = true -> (forall j, ~ In (ESusp j) ev) -> stk s' = ns ++ stk s -> nomain ns -> (forall j, ~ In (KFin j) ns) ->
    ph s' = ph s -> work s' = work s -> armed s' = armed s -> ints c s s' ev
| in_arm ns : stk s = [KArm] -> (knd c = Join -> err s <> None \/ forall j, ~ In (KEmit j) ns) -> ev = [] -> stk s' = ns -> (forall j, ~ In (KFin j) ns) ->
    ph s' = ph s -> work s' = work s -> canc s' = canc s -> armed s' = armed s -> ints c s s' ev
| in_start i k ns : stk s = [k] -> main k = true -> ph s i = Idle -> ev = [EStart i; EProbe i] -> stk s' = ns -> forallb tame ns = true ->
    ph s' = upd (ph s) i Starting -> (is_race c = true -> work s' = upd (work s) i true) -> canc s' = canc s -> armed s' = armed s -> ints c s s' ev
| in_main k : stk s = [k] -> main k = true -> forallb tame (stk s') = true -> mild ev = true ->
    (forall j, cls (ph s' j) = cls (ph s j)) -> (forall j, running s' j = true -> running s j = true \/ ph s j = Parked) ->
    (forall j, ph s' j = Parked -> ph s j = Parked) ->
    (forall j, In (ESusp j) ev -> running s j = true) -> work s' = work s -> canc s' = canc s ->
    (armed s' = armed s \/ stk s' = []) -> ints c s s' ev
| in_other ms ns t : stk s = ms ++ t -> stk s' = ns ++ t -> forallb tame ms = true -> forallb tame ns = true -> nomain ns -> mild ev = true ->
    (forall j, ~ In (ESusp j) ev) ->
    (forall j, cls (ph s' j) = cls (ph s j)) -> (forall j, running s' j = running s j) -> (forall j, ph s' j = Parked -> ph s j = Parked) ->
    work s' = work s -> canc s' = canc s -> armed s' = armed s -> ints c s s' ev.

Lemma finish_more c i rd x s : (forall j, j <> i -> work (finish c i rd x s) j = work s j) /\
  (knd c = Join -> canc (finish c i rd x s) = canc s) /\ armed (finish c i rd x s) = armed s.
Proof.
  unfold finish. destruct (knd c) eqn:K; [auto| |].
  - destruct x; unfold join_result; cbn; auto; destruct (err s); cbn; auto.
  - split; [|split; [discriminate|]]; destruct x; unfold race_result, race_throw, store; cbn [idx set_ph];
      destruct (idx s) as [n|]; cbn [idx set_ph set_idx]; repeat match goal with |- context [if ?b then _ else _] => destruct b end; cbn; auto;
      intros j Hj; now rewrite upd_other.
Qed.
Lemma ints_finish c i rd x t s ms : cls (ph s i) = 1 -> stk s = ms ++ t -> (ms = [] \/ ms = [KBeg i]) ->
  ints c s (finish c i rd x (set_stk t s)) [EDone i x].
Proof.
  intros Hc Hs Hm. destruct (finish_stk c i rd x (set_stk t s)) as [F1 _].
  destruct (finish_shape c i rd x (set_stk t s)) as (ns & _ & P1 & _).
  destruct (finish_more c i rd x (set_stk t s)) as (M1 & M2 & M3).
  apply (in_done c s _ _ i x t ms (ends c i rd x ++ [KEnd i])); auto.
  - rewrite F1, <- app_assoc. reflexivity.
  - apply nomain_app; [|intros k [<-|[]]; reflexivity]. unfold ends. destruct (knd c).
    + intros k [].
    + destruct (is_err x); [apply nomain_neutral, cancel_all_neutral|intros k []].
    + destruct x; try (intros k []); (apply nomain_app; [apply nomain_neutral, cancel_all_neutral|intros k [<-|[]]; reflexivity]).
  - intros j H. apply in_app_or in H as [H|[|[]]]; [|discriminate]. unfold ends in H. destruct (knd c).
    + destruct H.
    + destruct (is_err x); [|destruct H]. apply in_cancel_all in H as (a & [[Q _]|Q]); discriminate.
    + destruct x; try (destruct H; fail); apply in_app_or in H as [H|[H|[]]]; try congruence; apply in_cancel_all in H as (a & [[Q _]|Q]); discriminate.
  - intros j H K. apply in_app_or in H as [H|[|[]]]; [|discriminate]. unfold ends in H. rewrite K in H. destruct (is_err x); auto.
Qed.
Lemma tame_map (f : nat -> item) l : (forall i, tame (f i) = true) -> forallb tame (map f l) = true.
Proof. intros H. induction l; cbn; auto. now rewrite H. Qed.
Lemma freed_mild o : mild (freed o) = true.
Proof. destruct o; reflexivity. Qed.

Lemma step_ints c s l s' ev : wf c -> Core c s -> step c l s = Some (s', ev) -> ints c s s' ev.
Proof.
  intros W C H. unfold Core in C. destruct l; cbn in H.
  - destruct (stk s) as [|k t] eqn:Es; [discriminate|].
    assert (M : main k = true -> t = []) by (intros M; now apply (main_top _ _ _ _ _ _ _ _ _ _ M C)).
    assert (Q : forall ns, stk s' = ns ++ t -> ph s' = ph s -> work s' = work s -> canc s' = canc s -> armed s' = armed s -> tame k = true ->
       forallb tame ns = true -> forallb plain ns = true -> mild ev = true -> (forall j, ~ In (ESusp j) ev) -> ints c s s' ev).
    { intros ns Q1 Q2 Q3 Q4 Q5 Q6 Q7 Q8 Q9 Q10. apply (in_other c s s' ev [k] ns t); auto.
      - cbn. now rewrite Q6.
      - intros x Hx. rewrite forallb_forall in Q8. exact (Q8 x Hx).
      - now rewrite Q2.
      - intros j. unfold running. now rewrite Q2.
      - intros j. now rewrite Q2. }
    assert (P : forall k', main k = true -> stk s' = [k'] \/ stk s' = [] -> tame k' = true -> mild ev = true -> ph s' = ph s -> (forall j, ~ In (ESusp j) ev) ->
       work s' = work s -> canc s' = canc s -> (armed s' = armed s \/ stk s' = []) -> ints c s s' ev).
    { intros k' Hk P1 P2 P3 P4 P5 P6 P7 P8. apply (in_main c s s' ev k); auto.
      - rewrite Es. now rewrite (M Hk).
      - destruct P1 as [-> | ->]; cbn; auto. now rewrite P2.
      - now rewrite P4.
      - intros j. unfold running. rewrite P4. auto.
      - intros j. now rewrite P4.
      - intros j Hj. now apply P5 in Hj. }
    assert (R : forall i k', main k = true -> ph s i = Entering -> ph s' = upd (ph s) i Susp -> stk s' = [k'] -> tame k' = true -> ev = [ESusp i] ->
       work s' = work s -> canc s' = canc s -> armed s' = armed s -> ints c s s' ev).
    { intros i k' Hk P1 P2 P3 P4 P5 P6 P7 P8. apply (in_main c s s' ev k); auto.
      - rewrite Es. now rewrite (M Hk).
      - rewrite P3. cbn. now rewrite P4.
      - now rewrite P5.
      - rewrite P2. apply cls_upd. now rewrite P1.
      - intros j. unfold running. rewrite P2. unfold upd. destruct (Nat.eqb_spec j i) as [Ej|]; auto. subst. rewrite P1. auto.
      - intros j. rewrite P2. unfold upd. destruct (Nat.eqb_spec j i); auto. discriminate.
      - rewrite P5. intros j [[= <-]|[]]. unfold running. now rewrite P1. }
    destruct k; try (rewrite (M eq_refl) in *; clear M); cbn in H.
    + inj H. apply (Q []); auto.
    + destruct (todo s) as [|i l] eqn:Et.
      * destruct (lastf s) as [j|] eqn:El; inj H.
        -- apply (P KResume); cbn; auto.
        -- apply (P KUser); cbn; auto. intros j [|[]]; discriminate.
      * destruct (core_create c _ _ _ _ _ _ _ KRdy i l (KRdyChk i) W (or_introl (conj eq_refl eq_refl)) eq_refl C) as [Hi _].
        inj H. apply (in_start c s _ _ i KRdy [KUser; KBeg i; KRdyChk i]); auto; unfold create; destruct (is_race c); cbn; auto; discriminate.
    + assert (F : forall j, ~ In (ESusp j : event) (freed (lastf s))) by (intros; apply freed_susp).
      destruct (gone (set_stk [] s) i) eqn:G; [destruct (knd c)|]; inj H;
        [apply (P KRdy)|apply (P KRdy)|apply (P KResume)|apply (P (KGo i))]; auto using freed_mild; apply freed_mild.
    + pose proof (c_at _ _ _ _ _ _ _ _ _ C (KGo i) (or_introl eq_refl)) as Hat. cbn in Hat. inj H.
      apply (in_main c s _ _ (KGo i)); cbn; auto.
      * apply cls_upd. now rewrite Hat.
      * intros j. unfold running. cbn. unfold upd. destruct (Nat.eqb_spec j i) as [Ej|]; auto. subst. auto.
      * intros j. unfold upd. destruct (Nat.eqb_spec j i); auto. discriminate.
    + unfold settle, entering in H. cbn in H. destruct (ph s i) eqn:Ep;
        try solve [destruct (knd c); [| |destruct (uc _ =? 0)]; inj H; [apply (P KStart)|apply (P KStart)|apply (P KResume)|apply (P KStart)]; cbn; auto].
      destruct (knd c); [| |destruct (uc _ =? 0)]; inj H; [apply (R i KStart)|apply (R i KStart)|apply (R i KResume)|apply (R i KStart)]; auto.
    + destruct (todo s) as [|i l] eqn:Et.
      * inj H. apply (P KArm); cbn; auto.
      * destruct (core_create c _ _ _ _ _ _ _ KStart i l (KChk i) W (or_intror (conj eq_refl eq_refl)) eq_refl C) as [Hi _].
        inj H. apply (in_start c s _ _ i KStart [KUser; KBeg i; KChk i]); auto; unfold create; destruct (is_race c); cbn; auto; discriminate.
    + discriminate.
    + unfold settle, entering in H. cbn in H. destruct (ph s i) eqn:Ep;
        try solve [destruct (knd c); [| |destruct (gone _ i)]; inj H; [apply (P KStart)|apply (P KStart)|apply (P KArm)|apply (P KStart)]; cbn; auto].
      destruct (knd c); [| |destruct (gone _ i)]; inj H; [apply (R i KStart)|apply (R i KStart)|apply (R i KArm)|apply (R i KStart)]; auto.
    + destruct (knd c) eqn:K; try (destruct (err s) eqn:Ee); inj H;
        try solve [apply (P KArm2); cbn; auto].
      apply (in_arm c s _ _ (cancel_all c ++ [KArm2])); auto.
      * rewrite Ee. intros _. left. discriminate.
      * cbn. now rewrite app_nil_r.
      * intros j Z. apply in_app_or in Z as [Z|[|[]]]; [|discriminate]. apply in_cancel_all in Z as (a & [[Z _]|Z]); discriminate.
    + destruct (uc s =? 0); inj H; [apply (P KResume)|apply (P KUser)]; cbn; auto. intros j [|[]]; discriminate.
    + inj H. apply (Q [KUser]); auto. intros j [|[]]; discriminate.
    + inj H. apply (Q []); auto; [apply freed_mild|]. intros j [|Z]; [discriminate|now apply freed_susp in Z].
    + assert (ZZ : forall j, ~ In (ESusp j : event) [EDangling]) by (intros j [|[]]; discriminate).
      destruct (fin s) eqn:Ef; [|destruct (work s i && intr c i) eqn:Ew]; inj H.
      * apply (in_skip c s _ _ i (KInt i) t); auto. intros _. now left.
      * apply (in_int c s _ _ i (KInt i) t); auto.
      * apply (in_skip c s _ _ i (KInt i) t); auto. unfold intitem, passed. destruct (is_race c); [|discriminate]. intros _.
        apply andb_false_iff in Ew as [Ew|Ew]; auto.
    + assert (ZZ : forall j, ~ In (ESusp j : event) [EDangling]) by (intros j [|[]]; discriminate).
      destruct (fin s) eqn:Ef; [|destruct (intr c i && _) eqn:Ew]; inj H.
      * apply (in_skip c s _ _ i (KIntG i) t); auto. intros _. now left.
      * apply (in_int c s _ _ i (KIntG i) t); auto.
      * apply (in_skip c s _ _ i (KIntG i) t); auto. unfold passed. intros _.
        apply andb_false_iff in Ew as [Ew|Ew]; auto. destruct (knd c); try discriminate. auto.
    + destruct (fin s); [|destruct (canc s i); [unfold emit in H; destruct (running _ _)|]]; inj H;
        [apply (in_emit c s _ _ i t [])|apply (in_emit c s _ _ i t [KUser])|apply (in_emit c s _ _ i t [])|apply (in_emit c s _ _ i t [])]; cbn; auto;
        solve [intros j [|[]]; discriminate|intros k []|intros k [<-|[]]; reflexivity].
    + destruct (fin s); [|destruct (match knd c with Gather => true | _ => canc s i end); [unfold emit in H; destruct (running _ _)|]]; inj H;
        [apply (Q [])|apply (Q [KUser])|apply (Q [])|apply (Q [])]; auto; intros j [|[]]; discriminate.
    + inj H. apply (Q []); auto. intros j [|[]]; discriminate.
    + inj H. apply (in_fin c s _ _ i t); auto.
    + pose proof (c_end _ _ _ _ _ _ _ _ _ C i) as He. rewrite cnt_cons in He. cbn in He. rewrite Nat.eqb_refl in He. cbn in He.
      assert (Hp : ph s i = Ending) by (destruct (ph s i); cbn in He; auto; discriminate).
      assert (Z : forall ns, ev = [EFree i] -> stk s' = ns ++ t -> ph s' = upd (ph s) i Gone -> work s' = work s -> canc s' = canc s -> armed s' = armed s ->
        (ns = [] \/ ns = [KResume]) -> ints c s s' ev).
      { intros ns Z1 Z2 Z3 Z4 Z5 Z6 Z7. apply (in_other c s s' ev [KEnd i] ns t); auto.
        - destruct Z7; subst; reflexivity.
        - destruct Z7; subst; intros k Hk; [destruct Hk|destruct Hk as [<-|[]]; reflexivity].
        - now rewrite Z1.
        - rewrite Z1. intros j [|[]]; discriminate.
        - rewrite Z3. apply cls_upd. now rewrite Hp.
        - intros j. unfold running. rewrite Z3. unfold upd. destruct (Nat.eqb_spec j i) as [Ej|]; auto. subst. now rewrite Hp.
        - intros j. rewrite Z3. unfold upd. destruct (Nat.eqb_spec j i); auto. discriminate. }
      destruct (uc s =? 1); [destruct (coro s)|]; inj H; [apply (Z [KResume])|apply (Z [])|apply (Z [])]; auto.
  - destruct (stk s) as [|[] t] eqn:Es; try discriminate.
    pose proof (c_beg _ _ _ _ _ _ _ _ _ C i) as Hb. rewrite cnt_cons in Hb. cbn in Hb. rewrite Nat.eqb_refl in Hb. cbn in Hb.
    assert (Hp : ph s i = Starting) by (destruct (ph s i); cbn in Hb; auto; discriminate).
    injection H as H. destruct b; cbn in H.
    1,2: inj H; apply ints_finish with (ms := [KBeg i]); auto; now rewrite Hp.
    assert (N1 : nomain []) by (intros k []). assert (N2 : nomain [KUser]) by (intros k [<-|[]]; reflexivity).
    destruct (knd c) eqn:K, (wired s) eqn:Ew; cbn in H; rewrite ?Ew in H; inj H;
      [apply (in_park c s _ _ i t [KUser] Entering)|apply (in_park c s _ _ i t [] Parked)
      |apply (in_park c s _ _ i t [KUser] Entering)|apply (in_park c s _ _ i t [] Parked)
      |apply (in_park c s _ _ i t [KUser] Entering)|apply (in_park c s _ _ i t [] Parked)]; auto; intros Z; now elim Z.
  - destruct (user s && running s i) eqn:U; [|discriminate]. apply andb_prop in U as [Us U]. unfold running in U.
    inj H. replace s with (set_stk (stk s) s) at 2 by now destruct s.
    apply ints_finish with (ms := []); auto. destruct (ph s i); try discriminate; reflexivity.
  - destruct (user s) eqn:Us; [|discriminate]. unfold transact in H.
    destruct (is_race c && running s i) eqn:R; [|discriminate]. apply andb_prop in R as [R _]. unfold is_race in R.
    assert (K : knd c = Race) by (destruct (knd c); auto; discriminate). destruct (idx s); inj H.
    + apply (in_tx c s _ _ []); auto; [intros j [|[]]; discriminate|intros k []].
    + apply (in_tx c s _ _ (cancel_all c ++ [KTx i])); auto; [intros j [|[]]; discriminate| |].
      * apply nomain_app; [apply nomain_neutral, cancel_all_neutral|intros k [<-|[]]; reflexivity].
      * intros j Z. apply in_app_or in Z as [Z|[|[]]]; [|discriminate]. apply in_cancel_all in Z as (a & [[Z _]|Z]); discriminate.
  - destruct (user s && armed s); [|discriminate]. destruct (fin s); inj H.
    + apply (in_other c s _ _ [] [] (stk s)); auto; [intros k []|intros j [|[|[]]]; discriminate].
    + apply (in_other c s _ _ [] (map (fun i => KFwd i t) (idxs c)) (stk s)); auto.
      * now apply tame_map.
      * apply nomain_neutral, forallb_map_neutral. auto.
      * intros j [|[]]; discriminate.
  - destruct (user s && coro s) eqn:U; [|discriminate]. apply andb_prop in U as [_ U]. inj H.
    apply in_interrupted; auto. cbn. unfold intitem. destruct (is_race c); reflexivity.
Qed.

Record IV c s tr : Prop := {
  iv_work : is_race c = true -> forall i, cls (ph s i) = 1 -> work s i = true;
  iv_fin : forall i, In (KFin i) (stk s) -> cls (ph s i) = 2;
  iv_emit : knd c = Join -> forall j, In (KEmit j) (stk s) -> first_error (finished tr) <> None;
  iv_canc : knd c = Join -> forall i, In (ESusp i) tr \/ running s i = true \/ ph s i = Parked ->
            canc s i = true \/ first_error (finished tr) <> None;
  iv_arm : armed s = true -> cnt main (stk s) = 0;
  iv_aft : In EInterrupted tr -> armed s = true;
  iv_int : forall a b i, tr = a ++ EInterrupted :: b -> In i (started a) -> intr c i = true -> running s i = true ->
    0 < interrupts i b \/ In (intitem c i) (stk s) \/ knd c = Join /\ canc s (if ranged c then 0 else i) = false }.

Lemma split_keep tr ev a b : ~ In EInterrupted ev -> tr ++ ev = a ++ EInterrupted :: b ->
  exists b0, tr = a ++ EInterrupted :: b0 /\ b = b0 ++ ev.
Proof.
  intros N. revert a. induction tr as [|e tr IH]; intros a H.
  - elim N. cbn in H. rewrite H. apply in_or_app. right. now left.
  - destruct a as [|y a]; cbn in H; injection H as -> H.
    + exists tr. auto.
    + destruct (IH a H) as (b0 & -> & ->). exists b0. auto.
Qed.
Lemma mild_int ev : mild ev = true -> ~ In EInterrupted ev.
Proof. unfold mild. rewrite forallb_forall. intros H X. apply H in X. discriminate. Qed.
Lemma mild_finished ev : mild ev = true -> finished ev = [].
Proof. unfold mild. induction ev as [|[] ev IH]; cbn; auto; discriminate. Qed.
Lemma tame_in (ns : list item) k : forallb tame ns = true -> tame k = false -> ~ In k ns.
Proof. rewrite forallb_forall. intros H T X. apply H in X. congruence. Qed.
Lemma intitem_tame c i : tame (intitem c i) = false.
Proof. unfold intitem. now destruct (is_race c). Qed.
Lemma cnt_nomain ns : nomain ns -> cnt main ns = 0.
Proof. intros N. apply cnt_zero. intros k Hk. specialize (N k Hk). unfold plain in N. destruct (main k); auto. Qed.
Lemma first_error_more (a b : list (nat * comp V E)) : first_error a <> None -> first_error (a ++ b) <> None.
Proof. rewrite first_error_app. now destruct (first_error a). Qed.
Lemma susp_in tr ev i : In (ESusp i) (tr ++ ev) -> In (ESusp i) tr \/ In (ESusp i) ev.
Proof. apply in_app_or. Qed.
Lemma running_cls s i : running s i = true -> cls (ph s i) = 1.
Proof. unfold running. destruct (ph s i); auto; discriminate. Qed.

Lemma step_IV c s tr l s' ev : wf c -> TI c s tr -> DI c s tr -> IV c s tr -> step c l s = Some (s', ev) -> IV c s' (tr ++ ev).
Proof.
  intros W T D [IW IF IE IC IA IX II] St. pose proof (t_core _ _ _ T) as C.
  pose proof (step_ints c s l s' ev W C St) as X.
  assert (NST : forall j, armed s = true -> ph s j <> Starting /\ ph s j <> Parked /\ ph s j <> Entering).
  { intros j Ha. specialize (IA Ha). pose proof (cnt_zero_inv _ _ IA) as Z.
    repeat split; intros Hp.
    - destruct (c_start _ _ _ _ _ _ _ _ _ C j Hp) as [Q|Q]; apply Z in Q; discriminate.
    - destruct (c_park _ _ _ _ _ _ _ _ _ C j Hp) as [Q|Q]; apply Z in Q; discriminate.
    - destruct (c_enter _ _ _ _ _ _ _ _ _ C j Hp) as [Q|Q]; apply Z in Q; discriminate. }
  assert (NFIN : forall i, running s i = true -> fin s = false).
  { intros i R. destruct (fin s) eqn:F; auto. elim (fin_no_live c s W C (or_introl F) i). now apply running_cls. }
  assert (AFT : armed s' = armed s -> ~ In EInterrupted ev -> In EInterrupted (tr ++ ev) -> armed s' = true).
  { intros -> N Z. apply in_app_or in Z as [Z|Z]; [auto|contradiction]. }
  (* a single library item at the bottom is running *)
  assert (MAIN : forall k, stk s = [k] -> main k = true -> armed s = false /\ ~ In EInterrupted tr).
  { intros k Q M. assert (Z : armed s = false) by (destruct (armed s); auto; specialize (IA eq_refl); rewrite Q in IA; cbn in IA; rewrite M in IA; discriminate).
    split; auto. intros Y. apply IX in Y. congruence. }
  assert (NOINT : ~ In EInterrupted tr -> ~ In EInterrupted ev -> forall a b, tr ++ ev = a ++ EInterrupted :: b -> False).
  { intros N1 N2 a b Q. assert (Z : In EInterrupted (tr ++ ev)) by (rewrite Q; apply in_or_app; right; now left).
    apply in_app_or in Z as [|]; auto. }
  destruct X as [i k t Q1 Q2 -> Q3 Q4 Q5 Q6 Q7|i k t Q1 Q2 Q3 Q4 Q5 QS Q6 Q7 Q8 Q9| -> Q1 Q2 Q3 Q4 Q5 Q6|i t Q1 -> Q2 Q3 Q4 Q5 Q6|i t ns Q1 Q2 QS Q3 Q4 Q5 Q6 Q7 Q8 Q9
    |i x t ms ns Q1 Q2 -> Q3 Q4 Q5 Q6 Q7 Q8 Q9 Q10 Q11|i t ns p Q1 Q2 -> Q3 Q4 Q5 Q6 Q7 Q8 Q9 Q10|ns Q1 Q2 QS Q3 Q4 Q5 Q6 Q7 Q8|ns Q1 Q2 -> Q3 Q4 Q5 Q6 Q7 Q8
    |i k ns Q1 Q2 Q3 -> Q4 Q5 Q6 Q7 Q8 Q9|k Q1 Q2 Q3 Q4 Q5 Q6 QP Q7 Q8 Q9 Q10|ms ns t Q1 Q2 Q3 Q4 Q5 Q6 QS Q7 Q8 QP Q9 Q10 Q11].
  - (* interrupted *)
    assert (SUB : forall q, In q (stk s') -> q = KUser \/ In q (stk s)) by (rewrite Q1, Q3; cbn; intros q [|]; auto).
    assert (RU : forall j, running s' j = running s j) by (intros; unfold running; now rewrite Q4).
    constructor.
    + intros R j. rewrite Q4, Q5. auto.
    + intros j Hj. apply SUB in Hj as [|Hj]; [discriminate|]. rewrite Q4. auto.
    + intros K j Hj. apply SUB in Hj as [|Hj]; [discriminate|]. rewrite finished_app, app_nil_r. eauto.
    + intros K j. rewrite RU, Q4, Q6, finished_app, app_nil_r. intros Z. apply (IC K). destruct Z as [Z|Z]; auto.
      apply in_app_or in Z as [|[|[]]]; [auto|discriminate].
    + rewrite Q7. intros Ha. specialize (IA Ha). rewrite Q1, cnt_cons in IA. rewrite Q3, cnt_cons. cbn. lia.
    + apply AFT; auto. intros [|[]]; discriminate.
    + intros a b j Z. apply split_keep in Z as (b0 & Z & ->); [|intros [|[]]; discriminate]. rewrite RU, Q6, interrupts_app.
      intros Hs Hi Hr. destruct (II a b0 j Z Hs Hi Hr) as [Y|[Y|Y]]; [left; lia| |auto].
      rewrite Q1 in Y. destruct Y as [Y|Y]; [|right; left; rewrite Q3; now right].
      left. cbn. assert (Eij : i = j). { subst k. unfold intitem in Q2. destruct (is_race c); destruct Q2; congruence. }
      subst j. rewrite Nat.eqb_refl. lia.
  - (* passed over *)
    assert (SUB : forall q, In q (stk s') -> In q (stk s)) by (rewrite Q1, Q5; cbn; auto).
    assert (RU : forall j, running s' j = running s j) by (intros; unfold running; now rewrite Q6).
    constructor.
    + intros R j. rewrite Q6, Q7. auto.
    + intros j Hj. rewrite Q6. auto.
    + intros K j Hj. rewrite finished_app, (mild_finished ev Q4), app_nil_r. eauto.
    + intros K j. rewrite RU, Q6, Q8, finished_app, (mild_finished ev Q4), app_nil_r. intros Z. apply (IC K). destruct Z as [Z|Z]; auto.
      apply in_app_or in Z as [|Z]; [auto|now apply QS in Z].
    + rewrite Q9. intros Ha. specialize (IA Ha). rewrite Q1, cnt_cons in IA. rewrite Q5. lia.
    + apply AFT; auto. now apply mild_int.
    + intros a b j Z. apply split_keep in Z as (b0 & Z & ->); [|now apply mild_int]. rewrite RU, Q8, interrupts_app.
      intros Hs Hi Hr. destruct (II a b0 j Z Hs Hi Hr) as [Y|[Y|Y]]; [left; lia| |auto].
      rewrite Q1 in Y. destruct Y as [Y|Y]; [|right; left; now rewrite Q5].
      right. right. assert (Eij : i = j). { subst k. unfold intitem in Q2. destruct (is_race c); destruct Q2; congruence. }
      subst j. destruct (Q3 Y) as [P|[P|[[P1 P2]|P]]]; auto.
      * rewrite (NFIN i Hr) in P. discriminate.
      * congruence.
      * rewrite (IW P1 i (running_cls s i Hr)) in P2. discriminate.
  - (* the combinator is interrupted *)
    assert (SUB : forall q, tame q = false -> (forall j, q <> intitem c j) -> In q (stk s') -> In q (stk s)).
    { intros q Hq N. rewrite Q2. intros Z. apply in_app_or in Z as [Z|]; auto. apply in_map_iff in Z as (j & <- & _). now elim (N j). }
    assert (RU : forall j, running s' j = running s j) by (intros; unfold running; now rewrite Q3).
    destruct (c_cwired _ _ _ _ _ _ _ _ _ C Q1) as [_ Ha].
    constructor.
    + intros R j. rewrite Q3, Q4. auto.
    + intros j Hj. rewrite Q3. apply IF. apply (SUB (KFin j)); auto. intros k. unfold intitem. destruct (is_race c); discriminate.
    + intros K j Hj. rewrite finished_app, app_nil_r. apply (IE K j). apply (SUB (KEmit j)); auto. intros k. unfold intitem. destruct (is_race c); discriminate.
    + intros K j. rewrite RU, Q3, Q5, finished_app, app_nil_r. intros Z. apply (IC K). destruct Z as [Z|Z]; auto.
      apply in_app_or in Z as [|[|[]]]; [auto|discriminate].
    + rewrite Q6. intros _. rewrite Q2, cnt_app, (IA Ha), Nat.add_0_r. apply cnt_zero. intros k Hk.
      apply in_map_iff in Hk as (j & <- & _). unfold intitem. now destruct (is_race c).
    + rewrite Q6. auto.
    + intros a b j Z. rewrite RU, Q5. intros Hs Hi Hr. right. left. rewrite Q2. apply in_or_app. left. apply in_map.
      unfold idxs. apply in_seq. pose proof (live_lt c s tr j W T (running_live s j Hr)). lia.
  - (* working[i] is cleared *)
    assert (SUB : forall q, In q (stk s') -> In q (stk s)) by (rewrite Q1, Q2; cbn; auto).
    assert (RU : forall j, running s' j = running s j) by (intros; unfold running; now rewrite Q3).
    rewrite app_nil_r. constructor.
    + intros R j. rewrite Q3, Q4. intros Hj. rewrite upd_other; auto. intros ->. rewrite (IF i) in Hj by (rewrite Q1; now left). discriminate.
    + intros j Hj. rewrite Q3. auto.
    + eauto.
    + intros K j. rewrite RU, Q3, Q5. auto.
    + rewrite Q6. intros Ha. specialize (IA Ha). rewrite Q1, cnt_cons in IA. rewrite Q2. lia.
    + rewrite Q6. auto.
    + intros a b j Z. rewrite RU, Q5. intros Hs Hi Hr. destruct (II a b j Z Hs Hi Hr) as [Y|[Y|Y]]; auto.
      rewrite Q1 in Y. destruct Y as [Y|Y]; [|rewrite Q2; auto]. unfold intitem in Y. destruct (is_race c); discriminate.
  - (* own cancellation *)
    assert (SUB : forall q, tame q = false -> In q (stk s') -> In q (stk s)).
    { intros q Hq. rewrite Q1, Q3. intros Z. apply in_app_or in Z as [Z|Z]; [elim (tame_in _ _ Q4 Hq Z)|now right]. }
    assert (RU : forall j, running s' j = running s j) by (intros; unfold running; now rewrite Q6).
    assert (CN : forall j, canc s' j = canc s j \/ canc s' j = false /\ j = i).
    { intros j. destruct Q8 as [-> | ->]; auto. unfold upd. destruct (Nat.eqb_spec j i); auto. }
    constructor.
    + intros R j. rewrite Q6, Q7. auto.
    + intros j Hj. rewrite Q6. apply IF, SUB; auto.
    + intros K j Hj. rewrite finished_app, (mild_finished ev Q2), app_nil_r. apply (IE K j), SUB; auto.
    + intros K j. rewrite RU, Q6, finished_app, (mild_finished ev Q2), app_nil_r. intros Z.
      right. apply (IE K i). rewrite Q1. now left.
    + rewrite Q9. intros Ha. specialize (IA Ha). rewrite Q1, cnt_cons in IA. rewrite Q3, cnt_app, cnt_nomain by auto. lia.
    + apply AFT; auto. now apply mild_int.
    + intros a b j Z. apply split_keep in Z as (b0 & Z & ->); [|now apply mild_int]. rewrite RU, interrupts_app.
      intros Hs Hi Hr. destruct (II a b0 j Z Hs Hi Hr) as [Y|[Y|[Y1 Y2]]]; [left; lia| |].
      * rewrite Q1 in Y. destruct Y as [Y|Y]; [unfold intitem in Y; destruct (is_race c); discriminate|].
        right. left. rewrite Q3. apply in_or_app. auto.
      * right. right. split; auto. destruct (CN (if ranged c then 0 else j)) as [-> |[-> _]]; auto.
  - (* a child finished *)
    assert (RU : forall j, running s' j = true -> j <> i /\ running s j = true).
    { intros j. unfold running. rewrite Q8. unfold upd. destruct (Nat.eqb_spec j i); [discriminate|auto]. }
    assert (NM : nomain ms -> forall q, In q ms -> tame q = true -> True) by auto.
    constructor.
    + intros R j. rewrite Q8. unfold upd. destruct (Nat.eqb_spec j i); [discriminate|]. rewrite Q9 by auto. auto.
    + intros j Hj. rewrite Q8. unfold upd. destruct (Nat.eqb_spec j i); auto. rewrite Q3 in Hj. apply in_app_or in Hj as [Hj|Hj].
      * apply Q5 in Hj. contradiction.
      * apply IF. rewrite Q1. apply in_or_app. auto.
    + intros K j Hj. rewrite finished_app. rewrite Q3 in Hj. apply in_app_or in Hj as [Hj|Hj].
      * specialize (Q6 j Hj K). rewrite first_error_app. destruct (first_error (finished tr)); [discriminate|].
        cbn. destruct x; cbn in *; discriminate.
      * apply first_error_more. apply (IE K j). rewrite Q1. apply in_or_app. auto.
    + intros K j Z. rewrite finished_app, (Q10 K).
      assert (Y : In (ESusp j) tr \/ running s j = true \/ ph s j = Parked).
      { destruct Z as [Z|[Z|Z]].
        - apply in_app_or in Z as [|[|[]]]; [auto|discriminate].
        - apply RU in Z as [_ Z]. auto.
        - rewrite Q8 in Z. unfold upd in Z. destruct (Nat.eqb_spec j i); [discriminate|auto]. }
      destruct (IC K j Y); auto. right. now apply first_error_more.
    + rewrite Q11. intros Ha. specialize (IA Ha). rewrite Q1, cnt_app in IA. rewrite Q3, cnt_app, cnt_nomain by auto. lia.
    + apply AFT; auto. intros [|[]]; discriminate.
    + intros a b j Z. apply split_keep in Z as (b0 & Z & ->); [|intros [|[]]; discriminate]. rewrite interrupts_app.
      intros Hs Hi Hr. apply RU in Hr as [Hj Hr]. destruct (II a b0 j Z Hs Hi Hr) as [Y|[Y|[Y1 Y2]]]; [left; lia| |].
      * right. left. rewrite Q3. apply in_or_app. right. rewrite Q1 in Y. apply in_app_or in Y as [Y|]; auto.
        destruct Q2 as [-> | ->]; [destruct Y|]. destruct Y as [Y|[]]. unfold intitem in Y. destruct (is_race c); discriminate.
      * right. right. rewrite (Q10 Y1). auto.
  - (* not ready *)
    assert (Na : armed s = false).
    { destruct (armed s) eqn:Ha; auto. destruct (NST i eq_refl) as (Z & _). congruence. }
    assert (NI : ~ In EInterrupted tr) by (intros Z; apply IX in Z; congruence).
    rewrite app_nil_r in *. constructor.
    + intros R j. rewrite Q7, Q8. unfold upd. destruct (Nat.eqb_spec j i) as [Ej|]; auto. subst j. intros _. apply IW; auto. now rewrite Q2.
    + intros j Hj. rewrite Q7. rewrite Q3 in Hj. apply in_app_or in Hj as [Hj|Hj]; [elim (tame_in ns (KFin j) Q4 eq_refl Hj)|].
      unfold upd. assert (Z : cls (ph s j) = 2) by (apply IF; rewrite Q1; now right).
      destruct (Nat.eqb_spec j i) as [Ej|]; auto. subst j. rewrite Q2 in Z. discriminate.
    + intros K j Hj. rewrite Q3 in Hj. apply in_app_or in Hj as [Hj|Hj]; [elim (tame_in ns (KEmit j) Q4 eq_refl Hj)|].
      apply (IE K j). rewrite Q1. now right.
    + intros K j Z. rewrite Q9 by congruence. unfold upd at 1. destruct (Nat.eqb_spec j i) as [Ej|Nj]; auto. apply (IC K j).
      unfold running in Z. rewrite Q7, !upd_other in Z by auto. exact Z.
    + congruence.
    + contradiction.
    + intros a b j ->. elim NI. apply in_or_app. right. now left.
  - (* a transaction *)
    assert (RU : forall j, running s' j = running s j) by (intros; unfold running; now rewrite Q6).
    constructor.
    + intros R j. rewrite Q6, Q7. auto.
    + intros j Hj. rewrite Q6. rewrite Q3 in Hj. apply in_app_or in Hj as [Hj|]; auto. now apply Q5 in Hj.
    + congruence.
    + congruence.
    + rewrite Q8. intros Ha. rewrite Q3, cnt_app, cnt_nomain by auto. auto.
    + apply AFT; auto. now apply mild_int.
    + intros a b j Z. apply split_keep in Z as (b0 & Z & ->); [|now apply mild_int]. rewrite RU, interrupts_app.
      intros Hs Hi Hr. destruct (II a b0 j Z Hs Hi Hr) as [Y|[Y|[Y1 Y2]]]; [left; lia| |congruence].
      right. left. rewrite Q3. apply in_or_app. auto.
  - (* join cancels what is left *)
    destruct (MAIN KArm Q1 eq_refl) as [Na NI]. rewrite app_nil_r in *. constructor.
    + intros R j. rewrite Q5, Q6. auto.
    + intros j Hj. rewrite Q3 in Hj. now apply Q4 in Hj.
    + intros K j Hj. rewrite Q3 in Hj. destruct (Q2 K) as [Z|Z]; [|now apply Z in Hj]. unfold DI in D. rewrite K in D. now rewrite <- (proj1 D).
    + intros K j. unfold running. rewrite Q5, Q7. apply (IC K).
    + congruence.
    + contradiction.
    + intros a b j ->. elim NI. apply in_or_app. right. now left.
  - (* a child is started *)
    destruct (MAIN k Q1 Q2) as [Na NI]. constructor.
    + intros R j. rewrite Q6, (Q7 R). unfold upd. destruct (Nat.eqb_spec j i); auto.
    + intros j Hj. rewrite Q4 in Hj. elim (tame_in ns (KFin j) Q5 eq_refl Hj).
    + intros K j Hj. rewrite Q4 in Hj. elim (tame_in ns (KEmit j) Q5 eq_refl Hj).
    + intros K j Z. rewrite Q8, finished_app, app_nil_r. apply (IC K j). destruct Z as [Z|Z].
      * apply in_app_or in Z as [|[|[|[]]]]; auto; discriminate.
      * unfold running in *. rewrite Q6 in Z. unfold upd in Z. destruct (Nat.eqb_spec j i); [destruct Z; discriminate|auto].
    + congruence.
    + intros Z. apply in_app_or in Z as [|[|[|[]]]]; [contradiction|discriminate|discriminate].
    + intros a b j Z. exfalso. eapply NOINT; eauto. intros [|[|[]]]; discriminate.
  - (* the loop goes on *)
    destruct (MAIN k Q1 Q2) as [Na NI]. constructor.
    + intros R j. rewrite Q5, Q8. auto.
    + intros j Hj. elim (tame_in (stk s') (KFin j) Q3 eq_refl Hj).
    + intros K j Hj. elim (tame_in (stk s') (KEmit j) Q3 eq_refl Hj).
    + intros K j Z. rewrite Q9, finished_app, (mild_finished ev Q4), app_nil_r. apply (IC K j). destruct Z as [Z|[Z|Z]].
      * apply in_app_or in Z as [|Z]; auto.
      * apply Q6 in Z as [|]; auto.
      * auto.
    + intros Z. destruct Q10 as [Q|Q]; [congruence|]. now rewrite Q.
    + intros Z. exfalso. apply in_app_or in Z as [Z|Z]; [auto|now apply mild_int in Z].
    + intros a b j Z. exfalso. eapply NOINT; eauto. now apply mild_int.
  - (* anything else *)
    assert (SUB : forall q, tame q = false -> In q (stk s') -> In q (stk s)).
    { intros q Hq. rewrite Q1, Q2. intros Z. apply in_or_app. right. apply in_app_or in Z as [Z|Z]; [elim (tame_in _ _ Q4 Hq Z)|auto]. }
    assert (SUP : forall q, tame q = false -> In q (stk s) -> In q (stk s')).
    { intros q Hq. rewrite Q1, Q2. intros Z. apply in_or_app. right. apply in_app_or in Z as [Z|Z]; [elim (tame_in _ _ Q3 Hq Z)|auto]. }
    constructor.
    + intros R j. rewrite Q7, Q9. auto.
    + intros j Hj. rewrite Q7. apply IF, SUB; auto.
    + intros K j Hj. rewrite finished_app, (mild_finished ev Q6), app_nil_r. apply (IE K j), SUB; auto.
    + intros K j Z. rewrite Q10, finished_app, (mild_finished ev Q6), app_nil_r. apply (IC K j). rewrite Q8 in Z. destruct Z as [Z|[Z|Z]]; auto.
      apply in_app_or in Z as [|Z]; auto. now apply QS in Z.
    + rewrite Q11. intros Ha. specialize (IA Ha). rewrite Q1, cnt_app in IA. rewrite Q2, cnt_app, cnt_nomain by auto. lia.
    + apply AFT; auto. now apply mild_int.
    + intros a b j Z. apply split_keep in Z as (b0 & Z & ->); [|now apply mild_int]. rewrite Q8, Q10, interrupts_app.
      intros Hs Hi Hr. destruct (II a b0 j Z Hs Hi Hr) as [Y|[Y|Y]]; auto; [left; lia|].
      right. left. apply SUP; auto. apply intitem_tame.
Qed.

Lemma run_IV c ls s tr : wf c -> run c (init c) ls = Some (s, tr) -> ALL c s tr /\ IV c s tr.
Proof.
  intros W. apply (run_ind c (fun s tr => ALL c s tr /\ IV c s tr)).
  - split; [now apply init_ALL|].
    assert (NK : forall k, In k (stk (init (V := V) (E := E) c)) -> k = KRdy \/ exists i, k = KProbe i).
    { intros k. cbn. intros H. apply in_app_or in H as [H|[H|[]]]; auto.
      destruct (ranged c && negb (is_race c)); [|destruct H]. apply in_map_iff in H as (i & <- & _). eauto. }
    constructor; try discriminate.
    + intros i H. apply NK in H as [|[]]; discriminate.
    + intros _ i H. apply NK in H as [|[]]; discriminate.
    + intros _ i [[]|[|]]; discriminate.
    + intros [].
  - intros s0 tr0 l s1 ev [A P] St. split; [eapply step_ALL; eauto|]. destruct A as [T D _ _ _ _ _ _ _]. eapply step_IV; eauto.
Qed.

(** A running child that can be interrupted has been, unless it is a join's. *)
Theorem interrupt_reaches c ls s tr a b i : wf c -> run c (init c) ls = Some (s, tr) -> at_rest s ->
  tr = a ++ EInterrupted :: b -> In i (started a) -> unfinished tr i -> intr c i = true ->
  0 < interrupts i b \/ knd c = Join /\ (In (own c) (signals i tr) \/ ranged c = true).
Proof.
  intros W H R Ht Hs U Hi. destruct (run_IV c ls s tr W H) as [[T _ _ _ _ _ N _ _] I].
  pose proof (rest_running c s tr i T R U) as Ri.
  destruct (iv_int _ _ _ I a b i Ht Hs Hi Ri) as [Q|[Q|[K Q]]]; auto.
  - unfold at_rest in R. rewrite R in Q. destruct Q.
  - right. split; auto. destruct (ranged c); auto. left.
    destruct (n_run _ _ _ N ltac:(congruence) i Ri Q) as [|Z]; auto.
    rewrite (tx_race c ls s tr W ltac:(congruence) H) in Z. destruct Z.
Qed.
Theorem interrupt_ranged c ls s tr a b i : wf c -> run c (init c) ls = Some (s, tr) -> at_rest s ->
  tr = a ++ EInterrupted :: b -> In i (started a) -> unfinished tr i -> intr c i = true ->
  In (ESusp 0) tr -> first_error (finished tr) = None -> 0 < interrupts i b.
Proof.
  intros W H R Ht Hs U Hi H0 Fe. destruct (run_IV c ls s tr W H) as [[T _ _ _ _ _ N _ _] I].
  pose proof (rest_running c s tr i T R U) as Ri.
  destruct (iv_int _ _ _ I a b i Ht Hs Hi Ri) as [Q|[Q|[K Q]]]; auto.
  - unfold at_rest in R. rewrite R in Q. destruct Q.
  - exfalso. destruct (ranged c).
    + destruct (iv_canc _ _ _ I K 0 (or_introl H0)); congruence.
    + destruct (iv_canc _ _ _ I K i (or_intror (or_introl Ri))); congruence.
Qed.
End Once.
