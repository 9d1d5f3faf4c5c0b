(** Races that are started while no writer waits: a decided race can return. *)
From Coq Require Import List Bool Arith Lia Permutation.
From Verif Require Import Channel_Model Channel_Spec Channel_Inv Channel_Ledger Channel_Complete Channel_Final Rch_Model Rch_Spec Rch_Chan Rch_Inv Rch_Quiet Rch_Step.
Import ListNotations.

Section Live.
Context {V : Type}.
Variable cf : cfg.
Notation rstate := (rstate V).
Notation revent := (revent V).
Notation rlabel := (rlabel V).
Notation op s k := (rops (chs s (chan cf k)) k).
Notation M := (@Rch_Quiet.M V cf).
Notation G := (@Rch_Step.G V cf).

(** A race that has not returned waits for a member. *)
Definition pending (s : rstate) : Prop := forall m, pc s = Waiting m -> ub s = false -> forallb (fin s) (seq 0 m) = false.
Lemma settle_pending (s s1 : rstate) e : settle cf s = (s1, e) -> pending s1.
Proof.
  intros H m P U. unfold settle in H. destruct (pc s) as [|a b|m0|] eqn:P0; try (injection H as <- <-; congruence).
  destruct (forallb _ _) eqn:Fa; [|injection H as <- <-; congruence]. destruct (each _ _ s) as [s2 e2].
  destruct (idx s); [destruct (out s)|]; injection H as <- <-; cbn in *; discriminate.
Qed.
Lemma forward_fin (s : rstate) k s1 e : forward_one cf s k = (s1, e) -> fin s1 = fin s /\ pc s1 = pc s /\ (ub s = true -> ub s1 = true).
Proof.
  unfold forward_one. destruct (armed s k).
  - destruct (on _ _ s) as [s2 ev] eqn:O. intro H. injection H as <- <-. apply on_eq in O as (x & _ & ->). cbn. repeat split. intros ->. reflexivity.
  - intro H. injection H as <- <-. auto.
Qed.
Lemma each_fin ks : forall (s s1 : rstate) e, each (forward_one cf) ks s = (s1, e) -> fin s1 = fin s /\ pc s1 = pc s /\ (ub s = true -> ub s1 = true).
Proof.
  induction ks as [|k t IH]; intros s s1 e H; cbn [each] in H.
  - injection H as <- <-. auto.
  - destruct (forward_one cf s k) as [s2 e2] eqn:E2. destruct (each _ t s2) as [s3 e3] eqn:E3. injection H as <- <-.
    destruct (forward_fin _ _ _ _ E2) as (A1 & A2 & A3). destruct (IH _ _ _ E3) as (B1 & B2 & B3). repeat split; try congruence. auto.
Qed.
Lemma seq2_settle p s1 e : seq2 p (settle cf) = (s1, e) -> pending s1.
Proof. unfold seq2. destruct p as [a b]. destruct (settle cf a) as [c d] eqn:S. intro H. injection H as <- <-. exact (settle_pending _ _ _ S). Qed.
Lemma rstep_pending s l s1 e : pending s -> rstep cf s l = Some (s1, e) -> pending s1.
Proof.
  intros Ps H. unfold rstep in H. destruct (ub s) eqn:U; [discriminate|]. destruct l as [| |c l| |].
  - destruct (pc s); try discriminate. injection H as <- <-. intros m P. discriminate.
  - destruct (pc s) as [|k r| |]; try discriminate. destruct (k <? n cf).
    + injection H as H. unfold start_one in H. destruct (on _ _ s) as [sa ea]. destruct (on _ _ sa) as [sb eb]. destruct (answer k eb).
      * exact (seq2_settle _ _ _ H).
      * injection H as <- <-. intros m P. discriminate.
    + injection H as H. exact (settle_pending _ _ _ H).
  - destruct (_ && _); [|discriminate]. injection H as H. exact (seq2_settle _ _ _ H).
  - destruct (pc s) as [| |m|] eqn:P; try discriminate. injection H as H. destruct (each_fin _ _ _ _ H) as (A1 & A2 & A3). intros m' P' _.
    rewrite A1. apply Ps; congruence.
  - destruct (pc s) as [| |m|]; try discriminate. injection H as H. exact (seq2_settle _ _ _ H).
Qed.
Lemma rrun_pending : forall ls s s1 e, pending s -> rrun cf s ls = Some (s1, e) -> pending s1.
Proof.
  induction ls as [|l t IH]; intros s s1 e Ps H; cbn [rrun] in H.
  - injection H as <- <-. exact Ps.
  - destruct (rstep cf s l) as [[s2 e2]|] eqn:St; [|discriminate]. destruct (rrun cf s2 t) as [[s3 e3]|] eqn:R; [|discriminate]. injection H as <- <-.
    exact (IH _ _ _ (rstep_pending _ _ _ _ Ps St) R).
Qed.

(** The executor resumes a cancelled member. *)
Lemma resume_one s m i k : G s -> pc s = Waiting m -> idx s = Some i -> k < m -> fin s k = false ->
  exists q s1 e, env_one cf (chan cf k) (Run q) s = (s1, e) /\ G s1 /\ pc s1 = Waiting m /\ idx s1 = Some i /\ fin s1 k = true /\ (forall j, fin s j = true -> fin s1 j = true).
Proof.
  intros Gs P Ii Km Fk. pose proof (g_m _ _ Gs) as Mm. pose proof (g_start _ _ Gs) as Lm. rewrite P in Lm. assert (K : k < n cf) by lia. assert (N : k <> n cf) by lia.
  assert (W : working s k = true) by (unfold working; rewrite P, Fk; apply Nat.ltb_lt; exact Km).
  pose proof (proj2 (m_k1 _ _ _ Mm k K N) W) as Aw. pose proof (g_dec _ _ Gs) as Dc. rewrite Ii in Dc. destruct Dc as (Li & Fi & Oi & Cc).
  pose proof (Cc k K Aw) as Ck. destruct (inv_r _ (m_inv _ _ _ Mm (chan cf k))) as (_ & _ & Q). destruct (Q k) as (_ & _ & Q3 & Q4 & _). cbn [rcore c_stage c_handle c_cancelled] in Q3, Q4.
  destruct (Q3 Aw) as [[Hh _]|[_ J]]; [destruct (Q4 Hh); congruence|].
  unfold rjobs in J. apply in_flat_map in J as ([i'|j'] & J & X); cbn in X; [destruct X as [->|[]]|destruct X]. apply In_nth_error in J as [q J]. exists q.
  unfold env_one, affects, resumed. rewrite J. pose proof K as K'. apply Nat.ltb_lt in K'. rewrite K'.
  destruct (on (chan cf k) (Run q) s) as [s3 ev] eqn:On. apply on_eq in On as (x & S & ->).
  destruct (run_member _ _ _ _ _ S (m_bad _ _ _ Mm _) J) as (R1 & Cs).
  assert (Bx : bad x = None /\ r_stage (rops x k) = Finished /\ exists r, ev = [ERead k r]).
  { destruct Cs as [[-> Bx]|(_ & R2 & r & -> & R3)]; [|destruct (R3 Ck); eauto].
    exfalso. revert S Bx. unfold step. rewrite (m_bad _ _ _ Mm). cbn [step_ok]. unfold run_job. rewrite J, Aw. cbn [is_awaited].
    intros S Bx. apply read_resume_spec in S. cbn [rops set_posted] in S. destruct S as (_ & _ & _ & S & _). destruct (S Ck) as (S1 & _). congruence. }
  destruct Bx as (Bx & R2 & r & ->). assert (Ix : Inv x).
  { pose proof (step_inv (chs s (chan cf k)) (Run q) (m_inv _ _ _ Mm _)) as X. rewrite S in X. apply X. exact Bx. }
  cbn [answer]. rewrite Nat.eqb_refl. unfold seq2. rewrite (m_ub _ _ _ Mm), Bx. cbn [orb is_some]. set (s2 := mkR _ _ _ _ _ _ _).
  destruct (finish cf k r s2) as [s4 e4] eqn:F. do 2 eexists. split; [reflexivity|].
  assert (M2 : M k s2) by (apply on_exempt; auto; apply M_weaken; exact Mm).
  assert (St2 : r_stage (op s2 k) = Finished) by (cbn [s2 chs]; rewrite upd_eq, Nat.eqb_refl; exact R2).
  assert (Ni : i <> k) by congruence.
  assert (D2 : match idx s2 with None => (forall j, fin s2 j = false) /\ out s2 = None
               | Some i0 => i0 = k \/ (i0 < n cf /\ fin s2 i0 = true /\ out s2 <> None /\ i0 <> k) end).
  { cbn [s2 idx fin out]. rewrite Ii. auto 10. }
  destruct (finish_spec _ _ _ _ _ _ M2 K St2 D2 F) as (Q1 & Q2' & _ & Q5 & Q6).
  assert (Dr : idx s2 = None \/ idx s2 = Some k \/ exists j, idx s2 = Some j /\ j <> k /\ fin s2 j = true) by (right; right; exists i; auto).
  destruct (finish_res _ _ _ _ _ _ F Dr) as (_ & _ & _ & Hr).
  assert (P4 : pc s4 = Waiting m) by (rewrite Q2'; exact P).
  split; [apply (G_intro cf s4 m); auto|]. split; [exact P4|]. split.
  { destruct Hr as [(A1 & A2 & [A3|A3])|(j & _ & A1 & A2 & _)]; cbn in *; congruence. }
  unfold finish in F. assert (M3 : M k (complete k r s2)).
  { destruct M2 as [A B Cx E F' Hh]. constructor; auto. intros j J0 N0. change (op (complete k r s2) j) with (op s2 j). rewrite (F' j J0 N0).
    unfold working. cbn [complete fin pc]. rewrite upd_eq. destruct (Nat.eqb_spec j k); [congruence|]. tauto. }
  assert (D3 : D k (complete k r s2)).
  { exists i. cbn [complete idx s2 fin]. rewrite Ii, upd_eq. split; [reflexivity|]. right. destruct (Nat.eqb i k); auto. }
  destruct (cancel_all_spec cf _ _ _ _ M3 D3 F) as (_ & F3 & _).
  split.
  - apply (f_fin _ _ _ _ F3). cbn. rewrite upd_eq, Nat.eqb_refl. reflexivity.
  - intros j Fj. apply (f_fin _ _ _ _ F3). cbn. rewrite upd_eq. destruct (Nat.eqb j k); [reflexivity|exact Fj].
Qed.

Definition left_ (s : rstate) (m : nat) : nat := length (filter (fun k => negb (fin s k)) (seq 0 m)).
Lemma filter_le (f g : nat -> bool) ks : (forall k, f k = true -> g k = true) -> length (filter f ks) <= length (filter g ks).
Proof. intro H. induction ks as [|k t IH]; cbn; [lia|]. specialize (H k). destruct (f k), (g k); cbn; try lia; discriminate (H eq_refl). Qed.
Lemma filter_lt (f g : nat -> bool) ks x : (forall k, f k = true -> g k = true) -> In x ks -> f x = false -> g x = true -> length (filter f ks) < length (filter g ks).
Proof.
  intros H I Fx Gx. induction ks as [|k t IH]; [destruct I|]. pose proof (filter_le f g t H). cbn. destruct I as [->|I].
  - rewrite Fx, Gx. cbn. lia.
  - specialize (IH I). specialize (H k). destruct (f k), (g k); cbn; try lia; discriminate (H eq_refl).
Qed.
Lemma decided_returns : forall fuel s m i, G s -> pending s -> pc s = Waiting m -> idx s = Some i -> left_ s m <= fuel ->
  exists ls s1 e, Forall resumption ls /\ rrun cf s ls = Some (s1, e) /\ ub s1 = false /\ pc s1 = Returned.
Proof.
  induction fuel as [|fuel IH]; intros s m i Gs Ps P Ii L.
  - exfalso. pose proof (Ps m P (m_ub _ _ _ (g_m _ _ Gs))) as Fa. assert (forallb (fin s) (seq 0 m) = true); [|congruence].
    apply forallb_forall. intros k K. destruct (fin s k) eqn:F; [reflexivity|]. unfold left_ in L.
    assert (In k (filter (fun k => negb (fin s k)) (seq 0 m))) by (apply filter_In; rewrite F; auto).
    destruct (filter (fun k => negb (fin s k)) (seq 0 m)); [destruct H|cbn in L; lia].
  - pose proof (Ps m P (m_ub _ _ _ (g_m _ _ Gs))) as Fa.
    assert (X : exists k, In k (seq 0 m) /\ fin s k = false).
    { clear - Fa. induction (seq 0 m) as [|k t IHt]; [discriminate|]. cbn in Fa. destruct (fin s k) eqn:F; [|exists k; split; [left; reflexivity|exact F]].
      destruct (IHt Fa) as (j & J & Fj). exists j. split; [right; exact J|exact Fj]. }
    destruct X as (k & Ik & Fk). assert (Km : k < m) by (apply in_seq in Ik; lia).
    destruct (resume_one s m i k Gs P Ii Km Fk) as (q & s2 & e2 & En & G2 & P2 & I2 & F2 & Mono).
    destruct (settle cf s2) as [s3 e3] eqn:Se.
    assert (St : rstep cf s (Env (chan cf k) (Run q)) = Some (s3, e2 ++ e3)).
    { unfold rstep. rewrite (m_ub _ _ _ (g_m _ _ Gs)), P. cbn [may_run own negb andb]. rewrite En. cbn [seq2]. rewrite Se. reflexivity. }
    assert (Hs : (ub s3 = false /\ pc s3 = Returned) \/ s3 = s2).
    { unfold settle in Se. rewrite P2 in Se. destruct (forallb (fin s2) (seq 0 m)) eqn:Fb; [|right; congruence]. left.
      pose proof (g_dec _ _ G2) as Dc. rewrite I2 in Dc. destruct Dc as (_ & _ & Oo & _). destruct (each _ _ s2) as [s5 e5] eqn:E5.
      rewrite I2 in Se. destruct (out s2) as [r|]; [|congruence]. injection Se as <- <-. split; [|reflexivity]. cbn.
      fold (destroy_one (V := V) cf) in E5. pose proof (g_start _ _ G2) as Lm. rewrite P2 in Lm. rewrite forallb_forall in Fb. destruct (g_m _ _ G2) as [U B I A K1 K0].
      assert (Lq : forall j, In j (seq 0 m) -> j < n cf) by (intros j J; apply in_seq in J; lia).
      assert (W : forall j, j < n cf -> r_stage (op s2 j) <> Awaited).
      { intros j J Aw. apply (K1 j J) in Aw; [|lia]. unfold working in Aw. rewrite P2 in Aw. apply andb_true_iff in Aw as [A1 A2]. apply Nat.ltb_lt in A2.
        rewrite Fb in A1; [discriminate|]. apply in_seq. lia. }
      destruct (destroy_loop cf _ _ _ _ Lq U B I A W E5) as (_ & U2 & _). exact U2. }
    destruct Hs as [[U3 P3]|E3].
    + exists [Env (chan cf k) (Run q)]. do 2 eexists. split; [constructor; [do 2 eexists; reflexivity|constructor]|]. split; [cbn [rrun]; rewrite St; reflexivity|auto].
    + subst s3. assert (L2 : left_ s2 m <= fuel).
      { assert (left_ s2 m < left_ s m); [|lia]. unfold left_. apply (filter_lt _ _ _ k); auto.
        - intros j Fj. apply negb_true_iff in Fj. apply negb_true_iff. destruct (fin s j) eqn:Fs; [|reflexivity]. rewrite (Mono j Fs) in Fj. discriminate.
        - rewrite F2. reflexivity.
        - rewrite Fk. reflexivity. }
      destruct (IH s2 m i G2 (settle_pending _ _ _ Se) P2 I2 L2) as (ls & s4 & e4 & A1 & A2 & A3 & A4).
      exists (Env (chan cf k) (Run q) :: ls), s4. eexists. split; [constructor; [do 2 eexists; reflexivity|exact A1]|]. split; [cbn [rrun]; rewrite St, A2; reflexivity|auto].
Qed.

Lemma rrun_app : forall a s s1 e1 b s2 e2, rrun cf s a = Some (s1, e1) -> rrun cf s1 b = Some (s2, e2) -> rrun (V := V) cf s (a ++ b) = Some (s2, e1 ++ e2).
Proof.
  induction a as [|l t IH]; intros s s1 e1 b s2 e2 A B; cbn [rrun app] in *.
  - injection A as <- <-. exact B.
  - destruct (rstep cf s l) as [[s3 e3]|]; [|discriminate]. destruct (rrun cf s3 t) as [[s4 e4]|] eqn:R; [|discriminate]. injection A as <- <-.
    rewrite (IH _ _ _ _ _ _ R B), app_assoc. reflexivity.
Qed.
Lemma quiet_app ls ls' : quiet_start (V := V) cf ls -> Forall resumption ls' -> quiet_start cf (ls ++ ls').
Proof.
  intros Q F p q s e E R. assert (exists q', ls = p ++ Await :: q').
  { clear R Q. revert p E. induction ls as [|l t IH]; intros p E.
    - exfalso. cbn in E. subst ls'. rewrite Forall_forall in F. destruct (F Await) as (c & k & X); [apply in_or_app; right; left; reflexivity|discriminate].
    - destruct p as [|y p]; cbn in E; injection E as <- E.
      + exists t. reflexivity.
      + destruct (IH p E) as [q' ->]. exists q'. reflexivity. }
  destruct H as [q' ->]. exact (Q p q' s e eq_refl R).
Qed.
Theorem returns (ls : list rlabel) (s : rstate) tr : quiet_start cf ls -> rrun cf (rinit cf) ls = Some (s, tr) -> ub s = false -> idx s <> None ->
  exists ls' s' tr' m r, Forall resumption ls' /\ rrun cf s ls' = Some (s', tr') /\ ub s' = false /\ ends (tr ++ tr') = [(m, r)].
Proof.
  intros Q R U D. destruct (quiet_run cf ls s tr Q R) as (Gs & _ & _ & _ & E). specialize (Gs U).
  destruct E as [[NR E]|(m & r & P & _ & _ & E)].
  2: { exists [], s, [], m, r. rewrite app_nil_r. split; [constructor|]. auto. }
  pose proof (g_start _ _ Gs) as St. destruct (pc s) as [|k b|m|] eqn:P; [congruence|destruct St as (_ & St & _); congruence| |congruence].
  destruct (idx s) as [i|] eqn:Ii; [|congruence].
  assert (Pe : pending s) by (apply (rrun_pending ls (rinit cf) s tr); [intros m0 P0; discriminate|exact R]).
  destruct (decided_returns (left_ s m) s m i Gs Pe P Ii (le_n _)) as (ls' & s' & tr' & F & R' & U' & P').
  pose proof (quiet_run cf (ls ++ ls') s' (tr ++ tr') (quiet_app _ _ Q F) (rrun_app _ _ _ _ _ _ _ R R')) as (_ & _ & _ & _ & E').
  destruct E' as [[NR' _]|(m' & r' & _ & _ & _ & E')]; [congruence|]. exists ls', s', tr', m', r'. auto.
Qed.

(** What the race and the rest of the program take out of a channel. *)
Definition by_members (c : nat) (tr : list revent) : list V :=
  flat_map (fun e => match e with ERead k (RVal v) => if k <? n cf then [v] else [] | _ => [] end) (at_channel c tr).
Lemma delivered_split c tr : Permutation (delivered (at_channel c tr)) (by_members c tr ++ taken_by_others cf c tr).
Proof.
  unfold by_members, taken_by_others. induction (at_channel c tr) as [|e t IH]; [constructor|]. destruct e as [k [v| |]|j v r]; cbn [delivered flat_map]; try exact IH.
  destruct (k <? n cf); cbn [app]; [constructor; exact IH|]. apply Permutation_cons_app. exact IH.
Qed.
Lemma by_members_won c (tr : list revent) m r : (forall c k r, In (C c (ERead k r)) tr -> k < n cf -> chan cf k = c) -> taken cf tr = winnings m r -> by_members c tr = won cf c m r.
Proof.
  intros H T. assert (X : by_members c tr = map snd (filter (fun p => Nat.eqb (chan cf (fst p)) c) (taken cf tr))).
  { clear T. unfold by_members. induction tr as [|e t IH]; [reflexivity|].
    change (e :: t) with ([e] ++ t). rewrite at_channel_app, flat_map_app, taken_app, filter_app, map_app, IH by (intros c0 k r0 I; apply (H c0 k r0); right; exact I). f_equal.
    destruct e as [c' [k [v| |]|j v w]|? ?|? ?]; cbn -[Nat.ltb]; try (destruct (Nat.eqb c' c); reflexivity); try reflexivity.
    destruct (k <? n cf) eqn:L.
    - pose proof L as L'. apply Nat.ltb_lt in L'. cbn -[Nat.ltb]. rewrite (H c' k (RVal v) (or_introl eq_refl) L'). destruct (Nat.eqb c' c); cbn -[Nat.ltb]; [rewrite L|]; reflexivity.
    - destruct (Nat.eqb c' c); cbn -[Nat.ltb]; [rewrite L|]; reflexivity. }
  rewrite X, T. unfold won, winnings. destruct r as [v| |]; [|reflexivity|reflexivity]. cbn. destruct (Nat.eqb (chan cf m) c); reflexivity.
Qed.
Lemma in_at_channel c x (tr : list revent) : In (C c x) tr -> In x (at_channel c tr).
Proof. intro I. unfold at_channel. apply in_flat_map. exists (C c x). split; [exact I|]. rewrite Nat.eqb_refl. left. reflexivity. Qed.
Theorem conserved (ls : list rlabel) (s : rstate) tr m r c : quiet_start cf ls -> rrun cf (rinit cf) ls = Some (s, tr) -> ub s = false -> ends tr = [(m, r)] -> isvoid cf c = false ->
  Permutation (won cf c m r ++ taken_by_others cf c tr ++ buf (chs s c) ++ held (chs s c)) (written (at_channel c tr) ++ handed (chs s c)).
Proof.
  intros Q R U E Vd. destruct (quiet_run cf ls s tr Q R) as (Gs & _ & T & _ & E'). specialize (Gs U).
  assert (Tk : taken cf tr = winnings m r).
  { destruct E' as [[_ E']|(m' & r' & _ & I1 & I2 & E')]; [congruence|]. rewrite E in E'. injection E' as <- <-. rewrite T. unfold result_of. rewrite I1, I2. reflexivity. }
  assert (Ch : forall c k r, In (C c (ERead k r)) tr -> k < n cf -> chan cf k = c).
  { intros c0 k r0 I K. destruct (Nat.eq_dec (chan cf k) c0) as [Ec|Ec]; [exact Ec|]. exfalso.
    pose proof (m_abs _ _ _ (g_m _ _ Gs) c0 k K Ec) as Ab. destruct (rrun_sim cf _ _ _ _ R c0) as [l0 H0]. cbn [rinit chs] in H0.
    destruct (h_r _ _ _ (Rhist _ _ _ _ _ H0) k) as [_ X]; [apply in_completed_reads; exists r0; apply in_at_channel; exact I|].
    unfold rst in X. rewrite Ab in X. cbn in X. lia. }
  rewrite <- (by_members_won c tr m r Ch Tk), app_assoc, <- (delivered_split c tr).
  destruct (rrun_sim cf _ _ _ _ R c) as [l0 H0]. cbn [rinit chs] in H0. rewrite Vd in H0.
  exact (proj1 (conservation (lim cf c) l0 (chs s c) _ H0 (m_bad _ _ _ (g_m _ _ Gs) c))).
Qed.
End Live.
