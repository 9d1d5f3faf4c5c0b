(** Proofs of the statements of Comb_Props.v. *)
From Coq Require Import List Bool Arith Lia Permutation.
From Verif Require Import Comb_Model Comb_Spec Comb_Core Comb_Trace Comb_Data Comb_Calm Comb_Signal Comb_Sent Comb_Final Comb_Result.
Import ListNotations.

Section Claims.
Context {V E : Type}.
Notation state := (state V E).
Notation label := (label V E).
Notation event := (event V E).
Implicit Types (s : state) (tr : list event).

Lemma all_some_map {A B} (f : A -> option B) l : (forall i, In i l -> exists y, f i = Some y) ->
  exists m, all_some (map f l) = Some m /\ map Some m = map f l.
Proof.
  induction l as [|a l IH]; intros H; [exists []; auto|].
  destruct (H a (or_introl eq_refl)) as [y Hy]. destruct IH as (m & M1 & M2); [intros; apply H; now right|].
  exists (y :: m). cbn. rewrite Hy, M1. cbn. now rewrite M2.
Qed.
Lemma all_some_nth {A} (f : nat -> option A) n : (forall i, i < n -> exists y, f i = Some y) ->
  exists m, all_some (map f (seq 0 n)) = Some m /\ length m = n /\ forall i, i < n -> nth_error m i = f i.
Proof.
  intros H. destruct (all_some_map f (seq 0 n)) as (m & M1 & M2).
  { intros i Hi. apply H. apply in_seq in Hi. lia. }
  exists m. split; auto. assert (L : length m = n).
  { apply (f_equal (@length _)) in M2. now rewrite !map_length, seq_length in M2. }
  split; auto. intros i Hi. apply (f_equal (fun l => nth_error l i)) in M2.
  rewrite !nth_error_map in M2. rewrite (nth_error_nth' (seq 0 n) 0) in M2 by now rewrite seq_length.
  rewrite seq_nth in M2 by auto. cbn in M2. destruct (nth_error m i) as [z|] eqn:Q; cbn in M2; [congruence|].
  apply nth_error_None in Q. lia.
Qed.

Lemma resumed_fin c s tr r : TI c s tr -> resumptions tr = [r] -> fin s = true /\ r = result c s.
Proof. intros T H. rewrite (t_res _ _ _ T) in H. destruct (fin s); [|discriminate]. split; congruence. Qed.

Lemma fin_finished c s tr i : wf c -> TI c s tr -> fin s = true -> In i (started tr) -> exists x, outcome_of tr i = Some x.
Proof.
  intros W T F Hi. apply (started_iff c s tr i T) in Hi.
  pose proof (fin_no_live c s W (t_core _ _ _ T) (or_introl F) i) as Z.
  assert (Q : In i (map fst (finished tr))).
  { apply (finished_iff c s tr i T). destruct (ph s i); cbn in *; try reflexivity; congruence. }
  destruct (outcome_of tr i) eqn:O; eauto. apply lookup_none in O. contradiction.
Qed.
Lemma fin_started c s tr : TI c s tr -> fin s = true -> knd c <> Race -> started tr = ord c.
Proof.
  intros T F K. rewrite (t_start _ _ _ T). pose proof (t_core _ _ _ T) as C. unfold Core in C.
  rewrite (c_todo _ _ _ _ _ _ _ _ _ C K); [now rewrite app_nil_r|].
  pose proof (c_tok _ _ _ _ _ _ _ _ _ C) as Z. rewrite F in Z. cbn in Z.
  apply cnt_zero. intros q Hq. destruct (looping q) eqn:Lq; auto. apply loop_main in Lq. pose proof (cnt_pos main _ q Hq Lq). lia.
Qed.
Lemma in_ord c i : wf c -> In i (ord c) <-> i < size c.
Proof.
  intros W. split; intros H.
  - apply (Permutation_in _ (wf_perm c W)), in_seq in H. lia.
  - apply (Permutation_in _ (Permutation_sym (wf_perm c W))), in_seq. lia.
Qed.

Theorem gather_result_all c ls s tr r :
  wf c -> knd c = Gather -> run c (init c) ls = Some (s, tr) -> resumptions tr = [r] ->
  exists xs, r = RAll xs /\ length xs = size c /\
    forall i, i < size c -> exists x, outcome_of tr i = Some x /\ nth_error xs i = Some (as_result x).
Proof.
  intros W K H Hr. pose proof (run_ALL c ls s tr W H) as [T D _ _ _ _ _ _ _].
  destruct (resumed_fin c s tr r T Hr) as [F ->].
  assert (Z : forall i, i < size c -> exists x, outcome_of tr i = Some x).
  { intros i Hi. apply (fin_finished c s tr i W T F). rewrite (fin_started c s tr T F) by congruence. now apply in_ord. }
  unfold DI in D. rewrite K in D. unfold gather_data in D.
  destruct (all_some_nth (slot s) (size c)) as (m & M1 & M2 & M3).
  { intros i Hi. destruct (Z i Hi) as [x Hx]. rewrite D, Hx. cbn. eauto. }
  exists m. unfold result, idxs. rewrite K, M1. split; auto. split; auto.
  intros i Hi. destruct (Z i Hi) as [x Hx]. exists x. rewrite (M3 i Hi), D, Hx. auto.
Qed.

Lemma no_error (l : list (nat * comp V E)) i x : first_error l = None -> lookup l i = Some x -> exists v, x = CVal v.
Proof.
  induction l as [|[j y] l IH]; cbn; [discriminate|]. destruct (error_of y) eqn:Q; [discriminate|].
  destruct (j =? i); auto. intros _ [= ->]. destruct x; try discriminate. eauto.
Qed.

Theorem join_result_all c ls s tr r :
  wf c -> knd c = Join -> run c (init c) ls = Some (s, tr) -> resumptions tr = [r] ->
  match first_error (finished tr) with
  | Some e => r = RThrow e
  | None => exists vs, r = RVals vs /\ length vs = size c /\
      forall i, i < size c -> exists v, outcome_of tr i = Some (CVal v) /\ nth_error vs i = Some v
  end.
Proof.
  intros W K H Hr. pose proof (run_ALL c ls s tr W H) as [T D _ _ _ _ _ _ _].
  destruct (resumed_fin c s tr r T Hr) as [F ->]. unfold DI in D. rewrite K in D. destruct D as [D1 D2].
  unfold result. rewrite K, D1. destruct (first_error (finished tr)) eqn:Fe; auto.
  assert (Z : forall i, i < size c -> exists v, outcome_of tr i = Some (CVal v)).
  { intros i Hi. destruct (fin_finished c s tr i W T F) as [x Hx].
    - rewrite (fin_started c s tr T F) by congruence. now apply in_ord.
    - destruct (no_error _ _ _ Fe Hx) as [v ->]. eauto. }
  destruct (all_some_nth (fun i => left_of (slot s i)) (size c)) as (m & M1 & M2 & M3).
  { intros i Hi. destruct (Z i Hi) as [v Hv]. rewrite (D2 i v Hv). cbn. eauto. }
  exists m. unfold idxs. rewrite M1. split; auto. split; auto.
  intros i Hi. destruct (Z i Hi) as [v Hv]. exists v. rewrite (M3 i Hi), (D2 i v Hv). auto.
Qed.

(** When nothing is on the stack, every unfinished child waits. *)
Lemma rest_running c s tr i : TI c s tr -> at_rest s -> unfinished tr i -> running s i = true.
Proof.
  intros T R [U1 U2]. unfold at_rest in R. apply (started_iff c s tr i T) in U1. rewrite (finished_iff c s tr i T) in U2.
  pose proof (t_core _ _ _ T) as C. unfold Core in C. rewrite R in C. unfold running. destruct (ph s i) eqn:P; auto; try congruence.
  - destruct (c_start _ _ _ _ _ _ _ _ _ C i P) as [[]|[]].
  - destruct (c_park _ _ _ _ _ _ _ _ _ C i P) as [[]|[]].
Qed.

Lemma tx_race c ls s tr : wf c -> knd c <> Race -> run c (init c) ls = Some (s, tr) -> transactions tr = [].
Proof.
  intros W K H. revert H. apply (run_ind c (fun s tr => transactions tr = [])); auto.
  intros s0 tr0 l s' ev Q H. rewrite transactions_app, Q. cbn.
  destruct l; cbn in H.
  - destruct (stk s0) as [|k t] eqn:Es; [discriminate|].
    destruct k; cbn in H; unfold settle, emit, create in H;
    repeat match type of H with
      | context [match todo ?s with _ => _ end] => destruct (todo s)
      | context [match lastf ?s with _ => _ end] => destruct (lastf s)
      | context [match knd c with _ => _ end] => destruct (knd c)
      | context [match err ?s with _ => _ end] => destruct (err s)
      | context [if ?b then _ else _] => destruct b
      end; try discriminate; inj H; reflexivity.
  - destruct (stk s0) as [|[] t] eqn:Es; try discriminate. injection H as H.
    destruct b as [x|e|]; cbn in H; [inj H|inj H|destruct (knd c); cbn in H; destruct (wired s0); inj H]; reflexivity.
  - destruct (user s0 && running s0 i); [|discriminate]. inj H. reflexivity.
  - destruct (user s0); [|discriminate]. unfold transact, is_race in H. destruct (knd c); try discriminate. now elim K.
  - destruct (user s0 && armed s0); [|discriminate]. destruct (fin s0); inj H; reflexivity.
  - destruct (user s0 && coro s0); [|discriminate]. inj H. reflexivity.
Qed.

Theorem join_cancels c ls s tr i :
  wf c -> knd c = Join -> run c (init c) ls = Some (s, tr) -> at_rest s ->
  first_error (finished tr) <> None -> unfinished tr i ->
  In ct_all (signals i tr) /\ (uncancelled tr -> signals i tr = [ct_all]).
Proof.
  intros W K H R Fe U. pose proof (run_ALL c ls s tr W H) as [T D _ _ _ _ N _ _].
  pose proof (rest_running c s tr i T R U) as Ri.
  assert (O : own c = ct_all) by (unfold own, is_race; now rewrite K).
  assert (Z : In ct_all (signals i tr)).
  { destruct (canc s i) eqn:Ec.
    - exfalso. destruct (n_join _ _ _ N K Fe i Ri Ec) as [Q|(k & Q & _)]; rewrite R in Q; destruct Q.
    - destruct (n_run _ _ _ N ltac:(congruence) i Ri Ec) as [Q|Q]; [now rewrite O in Q|].
      rewrite (tx_race c ls s tr W ltac:(congruence) H) in Q. destruct Q. }
  split; auto. intros Un. destruct (n_one _ _ _ N Un i) as [Q|Q]; [rewrite Q in Z; destruct Z|now rewrite <- O].
Qed.

Theorem signal_once c ls s tr i :
  wf c -> run c (init c) ls = Some (s, tr) -> uncancelled tr ->
  signals i tr = [] \/ signals i tr = [own c].
Proof. intros W H Un. pose proof (run_ALL c ls s tr W H) as [T D _ _ _ _ N _ _]. now apply (n_one _ _ _ N). Qed.

Theorem signal_timely c ls s tr i t b :
  wf c -> run c (init c) ls = Some (s, tr) -> uncancelled tr -> calm tr -> In (EEmit i t b) tr -> b = false.
Proof. intros W H Un Hc Q. pose proof (run_ALL c ls s tr W H) as [T D _ _ _ _ N _ _]. now apply (n_not _ _ _ N Un Hc) in Q. Qed.

Theorem gather_silent c ls s tr :
  wf c -> knd c = Gather -> run c (init c) ls = Some (s, tr) -> uncancelled tr ->
  (forall i, signals i tr = []) /\ (In EInterrupted tr \/ forall i, interrupts i tr = 0).
Proof.
  intros W K H Un. pose proof (run_ALL c ls s tr W H) as [T D _ _ _ _ N _ _]. split; [now apply (n_nosig _ _ _ N)|].
  destruct (run_IN c ls s tr ltac:(congruence) H) as [|[_ Q]]; auto.
Qed.

(** *** Race *)
Lemma fin_decided c ls s tr : wf c -> knd c = Race -> run c (init c) ls = Some (s, tr) -> fin s = true -> decided_by tr <> None.
Proof.
  intros W K H F Q. pose proof (run_ALL c ls s tr W H) as [T D _ _ _ _ N _ _].
  apply undecided_fin in Q as [Q _].
  destruct (started tr) as [|i l] eqn:Es.
  - pose proof (run_NE c ls s tr W H Es) as Z. pose proof (t_core _ _ _ T) as C. unfold Core in C.
    pose proof (c_tok _ _ _ _ _ _ _ _ _ C) as Y. rewrite F in Y. cbn in Y. pose proof (cnt_pos main _ _ Z eq_refl). lia.
  - destruct (fin_finished c s tr i W T F) as [x Hx]; [rewrite Es; now left|]. unfold outcome_of in Hx. rewrite Q in Hx. discriminate.
Qed.

Lemma decider_tx tr w : decided_by tr = Some w -> decider tr = Some (w, None) -> In w (transactions tr).
Proof. induction tr as [|[] tr IH]; cbn; try discriminate; auto. intros [= ->] _. now left. Qed.
Lemma decider_done tr w x : decider tr = Some (w, Some x) -> decided_by tr = Some w.
Proof. intros H. rewrite decider_by, H. reflexivity. Qed.

Theorem race_result_win c ls s tr r :
  wf c -> knd c = Race -> run c (init c) ls = Some (s, tr) -> resumptions tr = [r] ->
  (ranged c = true -> void c 0 = true -> calm tr) ->
  exists w x, decided_by tr = Some w /\ outcome_of tr w = Some x /\
    ((void c w = true -> ~ In w (transactions tr)) -> 
     (md c = AsTuple -> error_of x <> None -> only_index c = true) -> r = race_outcome c w x).
Proof.
  intros W K H Hr Hv. pose proof (run_ALL c ls s tr W H) as [T D _ _ _ _ N _ _].
  destruct (resumed_fin c s tr r T Hr) as [F ->].
  assert (RD : race_data c s tr).
  { destruct (ranged c) eqn:Rg; [destruct (void c 0) eqn:Vd|].
    - eapply run_RD_calm; eauto.
    - eapply (run_RD c ls s tr W K); eauto.
    - eapply (run_RD c ls s tr W K); eauto. congruence. }
  pose proof (fin_decided c ls s tr W K H F) as Hd. destruct (decided_by tr) as [w|] eqn:Dw; [|congruence]. clear Hd.
  unfold DI in D. rewrite K in D. destruct D as [D1 D2]. destruct (D2 w Dw) as [Ho Hp].
  assert (Hs : In w (started tr)).
  { apply (started_iff c s tr w T). destruct Hp as [Hp|Hp]; [unfold running in Hp|]; destruct (ph s w); discriminate. }
  destruct (fin_finished c s tr w W T F Hs) as [x Hx]. exists w, x. split; auto. split; auto. intros Htx Has.
  unfold race_data in RD. pose proof Dw as Dw'. rewrite decider_by in Dw'. destruct (decider tr) as [[w' d]|] eqn:Dd; [|discriminate].
  cbn in Dw'. injection Dw' as ->. destruct RD as (R1 & R2 & R3). rewrite Hx in *.
  assert (Re : err s = error_of x).
  { rewrite R1. unfold race_err. destruct (void c w) eqn:Vw; auto.
    destruct d as [y|]; [|exfalso; apply Htx; auto; now apply decider_tx]. destruct R3; congruence. }
  unfold result. rewrite K, Re.
  assert (Wl : w < size c) by now apply in_ord.
  destruct (only_index c) eqn:Oi.
  - assert (Vw : void c w = true).
    { unfold only_index in Oi. destruct (ranged c) eqn:Rg.
      - rewrite (wf_void c W Rg w 0); auto. lia.
      - unfold all_void in Oi. rewrite forallb_forall in Oi. apply Oi. unfold idxs. apply in_seq. lia. }
    rewrite D1, Dw. destruct x; cbn; try rewrite Vw; auto.
  - rewrite (R2 eq_refl). assert (Vr : ranged c = true -> void c w = false).
    { intros Rg. unfold only_index in Oi. rewrite Rg in Oi. rewrite (wf_void c W Rg w 0); auto. lia. }
    destruct x as [v|e|e]; cbn.
    + rewrite D1, Dw. destruct (md c); destruct (ranged c) eqn:Rg; try (rewrite (Vr eq_refl); auto); destruct (void c w); auto.
    + cbn in Has. destruct (md c) eqn:M; auto. exfalso. assert (Z : false = true) by (apply Has; auto; discriminate). discriminate.
    + cbn in Has. destruct (md c) eqn:M; auto. exfalso. assert (Z : false = true) by (apply Has; auto; discriminate). discriminate.
Qed.

Theorem race_losers c ls s tr i :
  wf c -> knd c = Race -> run c (init c) ls = Some (s, tr) -> at_rest s -> calm tr -> nothrow tr ->
  decided_by tr <> None -> decided_by tr <> Some i -> unfinished tr i ->
  In (rct c) (signals i tr) /\ (uncancelled tr -> signals i tr = [rct c]).
Proof.
  intros W K H R Hc Hn Hd Hw U. pose proof (run_ALL c ls s tr W H) as [T D _ _ _ _ N _ _].
  pose proof (rest_running c s tr i T R U) as Ri.
  assert (O : own c = rct c) by (unfold own, is_race; now rewrite K).
  assert (Z : In (rct c) (signals i tr)).
  { destruct (canc s i) eqn:Ec.
    - exfalso. pose proof (n_race _ _ _ N K Hc Hn Hd i Ri Ec) as Q. rewrite R in Q; destruct Q.
    - destruct (n_run _ _ _ N ltac:(congruence) i Ri Ec) as [Q|Q]; [now rewrite O in Q|].
      destruct (n_tx _ _ _ N) as [Q2|(q & Q2 & Q3)]; rewrite Q2 in Q; [destruct Q|]. destruct Q as [->|[]]. congruence. }
  split; auto. intros Un. destruct (n_one _ _ _ N Un i) as [Q|Q]; [rewrite Q in Z; destruct Z|now rewrite <- O].
Qed.

Theorem race_tx_winner c ls s tr i :
  wf c -> knd c = Race -> run c (init c) ls = Some (s, tr) -> uncancelled tr -> In i (transactions tr) ->
  decided_by tr = Some i /\ transactions tr = [i] /\ signals i tr = [].
Proof.
  intros W K H Un Hi. pose proof (run_ALL c ls s tr W H) as [T D _ _ _ _ N _ _].
  destruct (n_tx _ _ _ N) as [Q2|(q & Q2 & Q3)]; rewrite Q2 in Hi; [destruct Hi|]. destruct Hi as [->|[]].
  split; auto. split; auto. destruct (run_WT c ls s tr W K H Un) as [Z _]. apply (Z i). rewrite Q2. now left.
Qed.
Theorem one_transaction c ls s tr :
  wf c -> run c (init c) ls = Some (s, tr) ->
  transactions tr = [] \/ exists i, transactions tr = [i] /\ decided_by tr = Some i.
Proof. intros W H. pose proof (run_ALL c ls s tr W H) as [T D _ _ _ _ N _ _]. apply (n_tx _ _ _ N). Qed.

Theorem trace_sound c ls s tr : wf c -> run c (init c) ls = Some (s, tr) -> always (P_sound c) tr.
Proof.
  intros W. eapply run_always; eauto. intros. eapply step_sound; eauto.
Qed.

Theorem start_order c ls s tr : wf c -> run c (init c) ls = Some (s, tr) ->
  (exists rest, ord c = started tr ++ rest) /\ NoDup (started tr).
Proof.
  intros W H. pose proof (run_ALL c ls s tr W H) as [T D _ _ _ _ N _ _].
  pose proof (ord_nodup c W) as ND. rewrite (t_start _ _ _ T) in ND.
  split; [eexists; apply (t_start _ _ _ T)|]. clear -ND. revert ND. generalize (todo s). generalize (started tr).
  induction l as [|a l IH]; cbn; intros m H; [constructor|]. inversion H; subst. constructor; eauto.
  intros Q. apply H2, in_or_app. auto.
Qed.

Theorem race_start c ls s tr a i b :
  wf c -> knd c = Race -> run c (init c) ls = Some (s, tr) -> tr = a ++ EStart i :: b -> calm a ->
  finished a = [] /\ transactions a = [] /\ exists rest, ord c = started a ++ i :: rest.
Proof.
  intros W K H -> Hc. pose proof (trace_sound c ls s _ W H a _ b eq_refl) as [_ P].
  specialize (P K Hc). apply undecided_fin in P as [P1 P2]. split; auto. split; auto.
  destruct (start_order c ls s _ W H) as [[rest Z] _]. rewrite started_app in Z. cbn in Z.
  rewrite <- app_assoc in Z. cbn in Z. eauto.
Qed.

Theorem resumed_once c ls s tr : wf c -> run c (init c) ls = Some (s, tr) ->
  length (resumptions tr) <= 1 /\
  (at_rest s -> (forall i, ~ unfinished tr i) -> length (resumptions tr) = 1).
Proof.
  intros W H. pose proof (run_ALL c ls s tr W H) as [T D _ _ _ _ N _ _].
  rewrite (t_res _ _ _ T). split; [destruct (fin s); cbn; lia|].
  intros R U. destruct (fin s) eqn:F; auto. exfalso.
  pose proof (t_core _ _ _ T) as C. unfold Core in C. unfold at_rest in R. rewrite R, F in C.
  pose proof (c_tok _ _ _ _ _ _ _ _ _ C) as Z. cbn in Z. destruct (coro s) eqn:Co; [|cbn in Z; lia].
  pose proof (c_coro _ _ _ _ _ _ _ _ _ C eq_refl) as Y. rewrite (c_uc _ _ _ _ _ _ _ _ _ C) in Y.
  assert (X : exists i, alive (ph s i) = true).
  { clear -Y. induction (ord c) as [|x l IH]; [cbn in Y; lia|]. rewrite cnt_cons in Y.
    destruct (alive (ph s x)) eqn:Ea; [eauto|]. cbn in Y. auto. }
  destruct X as [i Hi]. apply (U i). unfold unfinished. rewrite (started_iff c s tr i T), (finished_iff c s tr i T).
  pose proof (c_end _ _ _ _ _ _ _ _ _ C i) as Q. destruct (ph s i); try discriminate; split; discriminate.
Qed.

Theorem cancel_reaches c ls s tr a u b i :
  wf c -> run c (init c) ls = Some (s, tr) -> tr = a ++ ECancelled u :: b -> at_rest s ->
  In i (started a) -> unfinished tr i ->
  In u (signals i b) \/ knd c <> Gather /\ (In (own c) (signals i tr) \/ In i (transactions tr)).
Proof.
  intros W H Ht R Hi U. pose proof (run_ALL c ls s tr W H) as [T D _ _ _ _ N _ _].
  destruct (run_CX c ls s tr W H) as [_ X]. destruct (X a u b Ht) as [_ X1].
  pose proof (rest_running c s tr i T R U) as Ri.
  destruct (X1 i Hi Ri) as [Q|[Q|[Q1 Q2]]]; auto.
  - rewrite R in Q. destruct Q.
  - right. split; auto. now apply (n_run _ _ _ N).
Qed.

Theorem waits_for_started c ls s tr : wf c -> run c (init c) ls = Some (s, tr) -> forall a r b, tr = a ++ EResume r :: b ->
  forall i, In i (started a) -> In i (map fst (finished a)).
Proof. intros W H a r b ->. destruct (trace_sound c ls s _ W H a _ b eq_refl) as (P & _). exact P. Qed.
Theorem waits_for_all c ls s tr : wf c -> run c (init c) ls = Some (s, tr) -> knd c <> Race -> forall a r b, tr = a ++ EResume r :: b ->
  forall i, i < size c -> In i (map fst (finished a)).
Proof.
  intros W H K a r b -> i Hi. destruct (trace_sound c ls s _ W H a _ b eq_refl) as (P & Q & _).
  apply P. rewrite (Q K). now apply in_ord.
Qed.
Theorem left_race_start c ls s tr a i b n :
  wf c -> knd c = Race -> ord c = seq 0 n -> run c (init c) ls = Some (s, tr) -> tr = a ++ EStart i :: b -> calm a ->
  started a = seq 0 i /\ finished a = [].
Proof.
  intros W K Ho H Ht Hc. destruct (race_start c ls s tr a i b W K H Ht Hc) as (F & _ & rest & Z). split; auto.
  rewrite Ho in Z.
  assert (L : forall (l : list nat) m k, seq k m = l ++ i :: rest -> l = seq k (i - k) /\ k <= i).
  { induction l as [|x l IH]; intros m k Q; destruct m as [|m]; cbn in Q; try discriminate; injection Q as Q0 Q.
    - subst. rewrite Nat.sub_diag. auto.
    - apply IH in Q as [Q Q1]. subst x. split; [|lia]. rewrite Q. replace (i - k) with (S (i - S k)) by lia. reflexivity. }
  apply L in Z as [Z _]. now rewrite Nat.sub_0_r in Z.
Qed.
Theorem race_error c ls s tr r : wf c -> knd c = Race -> run c (init c) ls = Some (s, tr) -> resumptions tr = [r] ->
  (ranged c = true -> void c 0 = true -> calm tr) ->
  forall w x e, decided_by tr = Some w -> outcome_of tr w = Some x -> error_of x = Some e ->
  (void c w = true -> ~ In w (transactions tr)) -> (md c = AsTuple -> only_index c = true) -> r = RThrow e.
Proof.
  intros W K H Hr Hv w x e Hw Hx He Htx Hm.
  destruct (race_result_win c ls s tr r W K H Hr Hv) as (w' & x' & Q1 & Q2 & Q3).
  rewrite Hw in Q1. injection Q1 as <-. rewrite Hx in Q2. injection Q2 as <-.
  rewrite Q3; auto. destruct x; cbn in *; congruence.
Qed.
Theorem resume_after_last c ls s tr : wf c -> run c (init c) ls = Some (s, tr) -> forall a r b, tr = a ++ EResume r :: b ->
  (forall i, ~ unfinished a i) /\ resumptions a = [].
Proof.
  intros W H a r b ->. destruct (trace_sound c ls s _ W H a _ b eq_refl) as (P & _ & Q). split; auto.
  intros i [U1 U2]. auto.
Qed.
Theorem wait_needed c ls s tr : wf c -> run c (init c) ls = Some (s, tr) -> forall a b, tr = a ++ EWait :: b -> exists i, unfinished a i.
Proof. intros W H a b ->. exact (trace_sound c ls s _ W H a _ b eq_refl). Qed.
Theorem gather_forwards c ls s tr : wf c -> run c (init c) ls = Some (s, tr) -> knd c = Gather -> at_rest s ->
  forall a u b, tr = a ++ ECancelled u :: b -> forall i, In i (started a) -> unfinished tr i -> In u (signals i b).
Proof.
  intros W H K A a u b T i Hi U. destruct (cancel_reaches c ls s tr a u b i W H T A Hi U) as [|[Q _]]; auto. congruence.
Qed.
Theorem emit_unfinished c ls s tr : wf c -> run c (init c) ls = Some (s, tr) ->
  forall a i t x b, tr = a ++ EEmit i t x :: b -> unfinished a i.
Proof. intros W H a i t x b ->. exact (trace_sound c ls s _ W H a _ b eq_refl). Qed.
Theorem tx_begin c ls s tr : wf c -> run c (init c) ls = Some (s, tr) ->
  forall a i b, tr = a ++ ETxBegin i :: b -> unfinished a i /\ finished a = [] /\ transactions a = [].
Proof.
  intros W H a i b ->. destruct (trace_sound c ls s _ W H a _ b eq_refl) as (P & Q). split; [exact Q|]. now apply undecided_fin.
Qed.
Theorem tx_reject c ls s tr : wf c -> run c (init c) ls = Some (s, tr) ->
  forall a i b, tr = a ++ ETxReject i :: b -> exists j, In j (map fst (finished a)) \/ In j (transactions a).
Proof.
  intros W H a i b ->. pose proof (trace_sound c ls s _ W H a _ b eq_refl) as P. cbn in P. clear -P.
  induction a as [|[] a IH]; cbn in *; try (destruct (IH P) as (j & [Q|Q]); exists j; auto; fail); eauto. now elim P.
Qed.
Theorem tx_commit c ls s tr : wf c -> run c (init c) ls = Some (s, tr) ->
  forall a i b, tr = a ++ ETxCommit i :: b ->
  In i (transactions a) /\ (calm a -> nothrow a -> forall j, j <> i -> unfinished a j -> In (rct c) (signals j a)).
Proof.
  intros W H a i b ->. destruct (trace_sound c ls s _ W H a _ b eq_refl) as (P & Q). split; auto.
  intros Hc Hn j Hj [U1 U2]. auto.
Qed.
End Claims.

Lemma simple_wf k rg n vd it m : n <> 0 -> wf (mkCfg k rg (seq 0 n) (fun _ => vd) (fun _ => it) 1 m).
Proof.
  intros H. constructor; cbn; unfold size; cbn; rewrite ?seq_length; auto. destruct n; [now elim H|discriminate].
Qed.
