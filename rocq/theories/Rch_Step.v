(** Races that are started while no writer waits: every step. *)
From Coq Require Import List Bool Arith Lia.
From Verif Require Import Channel_Model Channel_Spec Channel_Inv Rch_Model Rch_Spec Rch_Chan Rch_Inv Rch_Quiet.
Import ListNotations.

Section Step.
Context {V : Type}.
Variable cf : cfg.
Notation state := (state V).
Notation rstate := (rstate V).
Notation revent := (revent V).
Notation op s k := (rops (chs s (chan cf k)) k).
Notation M := (@Rch_Quiet.M V cf).

Record G (s : rstate) : Prop := {
  g_m : M (n cf) s;
  g_dec : match idx s with
          | None => (forall k, fin s k = false) /\ out s = None
          | Some i => i < n cf /\ fin s i = true /\ out s <> None /\
                      forall k, k < n cf -> r_stage (op s k) = Awaited -> r_cancelled (op s k) = true
          end;
  g_start : match pc s with
            | Idle => idx s = None
            | Starting k r => r = false /\ idx s = None /\ no_writer_waits cf s /\ k <= n cf
            | Waiting m => m <= n cf
            | Returned => idx s <> None
            end;
  g_abs : forall k, k < n cf -> match pc s with Idle => True | Starting j _ => j <= k | _ => False end -> r_stage (op s k) = Absent }.

Lemma init_G : G (rinit cf).
Proof.
  constructor; cbn; auto. constructor; cbn; auto.
  - intro c. apply init_inv.
  - intros k _ _. split; discriminate.
Qed.

Lemma taken_app (a b : list revent) : taken cf (a ++ b) = taken cf a ++ taken cf b.
Proof. apply flat_map_app. Qed.
Lemma taken_harmless (e : list revent) : harmless e -> taken cf e = [].
Proof.
  intro H. induction e as [|x t IH]; [reflexivity|]. change (x :: t) with ([x] ++ t). rewrite taken_app, IH by (intros y Y; apply H; right; exact Y).
  destruct (H x (or_introl eq_refl)) as (c & i & r & -> & Nv). destruct r; [destruct Nv; exact I| |]; reflexivity.
Qed.
Lemma taken_one c k r : k < n cf -> taken cf (map (C c) [ERead k r]) = winnings (V := V) k r.
Proof. intro K. cbn -[Nat.ltb]. destruct r; [|reflexivity|reflexivity]. apply Nat.ltb_lt in K. rewrite K. reflexivity. Qed.
Lemma taken_none c (ev : list (event V)) : (forall k, k < n cf -> no_read k ev) -> taken cf (map (C c) ev) = [].
Proof.
  intro H. induction ev as [|x t IH]; [reflexivity|]. change (map (C c) (x :: t)) with ([C c x] ++ map (C c) t). rewrite taken_app, IH.
  2: { intros k K r I. apply (H k K r). right. exact I. }
  destruct x as [i r|i v r]; [|reflexivity]. destruct r; [|reflexivity|reflexivity].
  cbn -[Nat.ltb]. destruct (i <? n cf) eqn:L; [|reflexivity]. apply Nat.ltb_lt in L. destruct (H i L (RVal v)). left. reflexivity.
Qed.

(** A step decides the race, or leaves decision and result alone and takes nothing. *)
Definition TS (s s1 : rstate) (e : list revent) : Prop :=
  (idx s1 = idx s /\ out s1 = out s /\ taken cf e = []) \/
  (idx s = None /\ exists m r, idx s1 = Some m /\ out s1 = Some r /\ taken cf e = winnings m r).
Lemma TS_trans a b c e f : TS a b e -> TS b c f -> TS a c (e ++ f).
Proof.
  unfold TS. rewrite taken_app. intros [(A1 & A2 & A3)|(A0 & m & r & A1 & A2 & A3)] [(B1 & B2 & B3)|(B0 & m' & r' & B1 & B2 & B3)].
  - left. rewrite A3, B3. repeat split; congruence.
  - right. rewrite A3. split; [congruence|]. eauto.
  - right. split; [exact A0|]. exists m, r. rewrite A3, B3, app_nil_r. repeat split; congruence.
  - congruence.
Qed.
Definition only_c (e : list revent) : Prop := forall x, In x e -> exists c y, x = C c y.
Lemma only_c_app a b : only_c a -> only_c b -> only_c (a ++ b).
Proof. intros A B x I. apply in_app_or in I as [I|I]; auto. Qed.
Lemma only_c_map c ev : only_c (map (C c) ev).
Proof. intros x I. apply in_map_iff in I as (y & <- & _). eauto. Qed.
Lemma only_c_harmless e : harmless e -> only_c e.
Proof. intros H x I. destruct (H x I) as (c & i & r & -> & _). eauto. Qed.
Hint Resolve only_c_map : core.

Lemma M_weaken m s : M (n cf) s -> M m s.
Proof. intros [A B Cc E F H]. constructor; auto; intros k K _; [apply F|apply H]; auto; lia. Qed.

(** The fork of member [k] ends. *)
Lemma finish_spec k r (s s1 : rstate) e : M k s -> k < n cf -> r_stage (op s k) = Finished ->
  match idx s with
  | None => (forall j, fin s j = false) /\ out s = None
  | Some i => i = k \/ (i < n cf /\ fin s i = true /\ out s <> None /\ i <> k)
  end ->
  finish cf k r s = (s1, e) ->
  M (n cf) s1 /\ pc s1 = pc s /\ harmless e /\
  (forall i, idx s1 = Some i -> i < n cf /\ fin s1 i = true /\ out s1 <> None /\
     forall k, k < n cf -> r_stage (op s1 k) = Awaited -> r_cancelled (op s1 k) = true) /\ idx s1 <> None.
Proof.
  intros Mk K St Dc H. unfold finish in H. set (s0 := complete k r s) in *.
  assert (Fo : forall j, j <> k -> fin s0 j = fin s j) by (intros j E; unfold s0, complete; cbn; rewrite upd_eq; destruct (Nat.eqb_spec j k); congruence).
  assert (Fk : fin s0 k = true) by (unfold s0, complete; cbn; rewrite upd_eq, Nat.eqb_refl; reflexivity).
  assert (M0 : M k s0).
  { destruct Mk as [A B Cc E F Hh]. constructor; auto. intros j J N. change (op s0 j) with (op s j). rewrite (F j J N).
    unfold working. rewrite (Fo j N). change (pc s0) with (pc s). tauto. }
  assert (D0 : D k s0 /\ exists i, idx s0 = Some i /\ i < n cf /\ fin s0 i = true /\ out s0 <> None).
  { unfold D, s0, complete in *. cbn in *. destruct (idx s) as [i|].
    - destruct Dc as [->|(I & F & O & N)].
      + split; [exists k; auto|]. exists k. rewrite Nat.eqb_refl. repeat split; auto. discriminate.
      + assert (Fi : upd (fin s) k true i = true) by (rewrite upd_eq; destruct (Nat.eqb i k); auto).
        destruct (Nat.eqb_spec i k); [congruence|]. split; [exists i; auto|]. exists i; auto.
    - rewrite Nat.eqb_refl. split; [exists k; auto|]. exists k. repeat split; auto. discriminate. }
  destruct D0 as [D0 (i & Ei & Li & Fi & Oi)].
  destruct (cancel_all_spec cf _ _ _ _ M0 D0 H) as (M1 & F1 & H1 & C1).
  assert (Ok : op s1 k = op s k) by (rewrite (f_m _ _ _ _ F1); reflexivity).
  assert (Fk1 : fin s1 k = true) by (apply F1; exact Fk).
  split; [|split; [|split; [exact H1|split]]].
  - destruct M1 as [A B Cc E F Hh]. constructor; auto.
    + intros j J _. destruct (Nat.eq_dec j k) as [->|N]; [|auto]. rewrite Ok, St. unfold working. rewrite Fk1. cbn. split; discriminate.
    + intros j J _. destruct (Nat.eq_dec j k) as [->|N]; [|auto]. rewrite Ok, St. discriminate.
  - rewrite (f_pc _ _ _ _ F1). reflexivity.
  - intros i' E'. rewrite (f_idx _ _ _ _ F1), Ei in E'. injection E' as <-. split; [exact Li|]. split; [apply F1; exact Fi|]. split.
    + rewrite (f_out _ _ _ _ F1). exact Oi.
    + intros j J A. destruct (Nat.eq_dec j k) as [->|N]; [rewrite Ok, St in A; discriminate|]. exact (C1 j J N A).
  - rewrite (f_idx _ _ _ _ F1), Ei. discriminate.
Qed.
Lemma finish_keeps k r (s s1 : rstate) e : (idx s = None \/ idx s = Some k \/ exists i, idx s = Some i /\ i <> k /\ fin s i = true) ->
  finish cf k r s = (s1, e) -> keeps k (complete k r s) s1 e.
Proof.
  intros Dc H. apply (cancel_all_keeps cf k _ _ _) in H; [exact H|]. unfold D, complete. cbn.
  destruct Dc as [-> |[-> |(i & -> & N & F)]]; [exists k; auto|exists k; auto|]. exists i. split; [reflexivity|]. right. rewrite upd_eq. destruct (Nat.eqb i k); auto.
Qed.
Lemma finish_res k r (s s1 : rstate) e : finish cf k r s = (s1, e) ->
  (idx s = None \/ idx s = Some k \/ exists i, idx s = Some i /\ i <> k /\ fin s i = true) ->
  harmless e /\ (ub s = true -> ub s1 = true) /\ pc s1 = pc s /\
  (idx s1 = Some k /\ out s1 = Some r /\ (idx s = None \/ idx s = Some k) \/ exists i, i <> k /\ idx s = Some i /\ idx s1 = Some i /\ out s1 = out s).
Proof.
  intros H Dc. pose proof (finish_keeps _ _ _ _ _ Dc H) as (A1 & A2 & A3 & A4 & A5 & A6).
  split; [exact A6|]. split; [exact A5|]. split; [exact A4|]. rewrite A1, A2. unfold complete. cbn [idx out].
  destruct Dc as [Dc|[Dc|(i & Dc & N & F)]]; rewrite Dc.
  - left. rewrite Nat.eqb_refl. auto.
  - left. rewrite Nat.eqb_refl. auto.
  - right. exists i. destruct (Nat.eqb_spec i k); [congruence|]. auto.
Qed.

(** The race returns. *)
Lemma destroy_loop : forall ks (s s1 : rstate) e, (forall k, In k ks -> k < n cf) ->
  ub s = false -> (forall c, bad (chs s c) = None) -> (forall c, Inv (chs s c)) -> (forall c k, k < n cf -> chan cf k <> c -> r_stage (rops (chs s c) k) = Absent) ->
  (forall k, k < n cf -> r_stage (op s k) <> Awaited) ->
  each (destroy_one cf) ks s = (s1, e) ->
  e = [] /\ ub s1 = false /\ (forall c, bad (chs s1 c) = None) /\ (forall c, Inv (chs s1 c)) /\ (forall c k, k < n cf -> chan cf k <> c -> r_stage (rops (chs s1 c) k) = Absent) /\
  (forall k, k < n cf -> r_stage (op s1 k) <> Awaited) /\ idx s1 = idx s /\ out s1 = out s /\ fin s1 = fin s /\ pc s1 = pc s.
Proof.
  induction ks as [|k t IH]; intros s s1 e L U B I A W H; cbn [each] in H.
  - injection H as <- <-. auto 12.
  - destruct (destroy_one cf s k) as [s2 e2] eqn:E2. destruct (each _ t s2) as [s3 e3] eqn:E3. injection H as <- <-.
    pose proof (L k (or_introl eq_refl)) as K. unfold destroy_one in E2. destruct (on _ _ s) as [s2' ev] eqn:O. injection E2 as <- <-.
    apply on_eq in O as (x & S & ->). destruct (destroy_any _ _ _ _ S) as (-> & Bx & R & St). rewrite B in Bx.
    assert (Ix : Inv x). { pose proof (step_inv (chs s (chan cf k)) (DestroyR k) (I _)) as P. rewrite S in P. apply P. exact Bx. }
    set (s2 := mkR _ _ _ _ _ _ _) in E3.
    assert (P1 : ub s2 = false) by (unfold s2; cbn [ub]; rewrite U, Bx; reflexivity).
    assert (P2 : forall c, bad (chs s2 c) = None) by (intro c; unfold s2; cbn [chs]; rewrite upd_eq; destruct (Nat.eqb c (chan cf k)); auto).
    assert (P3 : forall c, Inv (chs s2 c)) by (intro c; unfold s2; cbn [chs]; rewrite upd_eq; destruct (Nat.eqb c (chan cf k)); auto).
    assert (P4 : forall c k, k < n cf -> chan cf k <> c -> r_stage (rops (chs s2 c) k) = Absent).
    { intros c j J N. unfold s2; cbn [chs]. rewrite upd_eq. destruct (Nat.eqb_spec c (chan cf k)) as [->|E]; [|auto]. rewrite R by congruence. auto. }
    assert (P5 : forall k, k < n cf -> r_stage (op s2 k) <> Awaited).
    { intros j J. unfold s2; cbn [chs]. rewrite upd_eq. destruct (Nat.eqb_spec (chan cf j) (chan cf k)) as [E|E]; [|auto].
      destruct (Nat.eq_dec j k) as [->|N].
      - destruct St as [St|St]; rewrite St; [auto|discriminate].
      - rewrite (R j N), <- E. auto. }
    destruct (IH _ _ _ (fun j J => L j (or_intror J)) P1 P2 P3 P4 P5 E3) as (-> & Q). split; [reflexivity|]. exact Q.
Qed.
Lemma settle_spec (s s1 : rstate) e : G s -> settle cf s = (s1, e) ->
  (ub s1 = false -> G s1) /\ idx s1 = idx s /\ out s1 = out s /\
  (e = [] \/ exists i r, e = [Win i r] /\ idx s = Some i /\ out s = Some r /\ pc s1 = Returned).
Proof.
  intros Gs H. unfold settle in H. destruct (pc s) as [|a b|m|] eqn:P; try (injection H as <- <-; split; [auto|]; auto; fail).
  destruct (forallb _ _) eqn:Fa; [|injection H as <- <-; split; [auto|]; auto].
  fold (destroy_one (V := V) cf) in H. destruct (each (destroy_one cf) (seq 0 m) s) as [s2 e2] eqn:E.
  pose proof (g_start _ Gs) as Lm. rewrite P in Lm. rewrite forallb_forall in Fa. destruct (g_m _ Gs) as [U B I A K1 K0].
  assert (L : forall k, In k (seq 0 m) -> k < n cf) by (intros k J; apply in_seq in J; lia).
  assert (W : forall k, k < n cf -> r_stage (op s k) <> Awaited).
  { intros k K Aw. apply (K1 k K) in Aw; [|lia]. unfold working in Aw. rewrite P in Aw. apply andb_true_iff in Aw as [F1 F2]. apply Nat.ltb_lt in F2.
    rewrite Fa in F1; [discriminate|]. apply in_seq. lia. }
  destruct (destroy_loop _ _ _ _ L U B I A W E) as (-> & U2 & B2 & I2 & A2 & W2 & Ei & Eo & Ef & Ep).
  pose proof (g_dec _ Gs) as Dc. destruct (idx s) as [i|] eqn:Ii; [destruct (out s) as [r|] eqn:Oo|]; injection H as <- <-.
  - split; [|split; [|split; [|right; eauto 10]]].
    + intros _. constructor; cbn [pc set_pc idx out fin chs].
      * constructor; auto.
        -- intros k K N. unfold working. cbn [pc set_pc]. rewrite andb_false_r. split; [intro Aw; destruct (W2 k K Aw)|discriminate].
        -- intros k K N Aw. destruct (W2 k K Aw).
      * rewrite Ei. destruct Dc as (D1 & D2 & D3 & D4). split; [exact D1|]. rewrite Ef, Eo. split; [exact D2|]. split; [discriminate|].
        intros k K Aw. destruct (W2 k K Aw).
      * rewrite Ei. discriminate.
      * intros k K [].
    + exact Ei.
    + exact Eo.
  - split; [discriminate|]. split; [exact Ei|]. split; [exact Eo|]. left. reflexivity.
  - split; [discriminate|]. split; [exact Ei|]. split; [exact Eo|]. left. reflexivity.
Qed.

(** The executor or a writer resumes a member; the rest of the program does something else. *)
Lemma affected s c l m : G s -> affects cf (chs s c) l = Some m -> m < n cf /\ chan cf m = c /\ r_stage (op s m) = Awaited /\ working s m = true /\
  (match l with AwWrite _ _ => r_cancelled (op s m) = false | _ => True end).
Proof.
  intros Gs Af. pose proof (g_m _ Gs) as Mm. destruct (inv_r _ (m_inv _ _ _ Mm c)) as (_ & _ & Q).
  assert (X : m < n cf /\ r_stage (rops (chs s c) m) = Awaited /\ (match l with AwWrite _ _ => r_cancelled (rops (chs s c) m) = false | _ => True end)).
  { destruct l as [i|i sl|j v|j sl|i|j|i|j|i|j| |q]; cbn [affects] in Af; try discriminate.
    - unfold meets in Af. destruct (w_stage _); try discriminate. destruct (rq (chs s c)) as [|i q] eqn:R; [discriminate|].
      destruct (_ && _) eqn:E; [|discriminate]. injection Af as ->. apply andb_true_iff in E as [E Hh]. apply andb_true_iff in E as [_ L]. apply Nat.ltb_lt in L.
      destruct (Q m) as (_ & _ & _ & Q4 & _). cbn [rcore c_handle c_stage c_cancelled] in Q4. destruct (Q4 Hh). auto.
    - unfold resumed in Af. destruct (nth_error (posted (chs s c)) q) as [[i|j]|] eqn:P; try discriminate. destruct (i <? n cf) eqn:L; [|discriminate].
      injection Af as ->. apply Nat.ltb_lt in L. destruct (Q m) as (_ & Q2 & _). cbn [rcore c_handle c_stage] in Q2.
      split; [exact L|]. split; [|exact I]. apply Q2. apply nth_error_In in P. unfold rjobs. apply in_flat_map. exists (JR m). split; [exact P|left; reflexivity]. }
  destruct X as (L & St & Cc). assert (chan cf m = c) as <-.
  { destruct (Nat.eq_dec (chan cf m) c) as [E|N]; [exact E|]. rewrite (m_abs _ _ _ Mm c m L N) in St. discriminate. }
  split; [exact L|]. split; [reflexivity|]. split; [exact St|]. split; [|exact Cc]. apply (m_k1 _ _ _ Mm m L); [lia|exact St].
Qed.

(** A change of one channel in which only the operation of [m] changes. *)
Lemma on_exempt m (s : rstate) x : M m s -> m < n cf -> bad x = None -> Inv x -> (forall i, i <> m -> rops x i = rops (chs s (chan cf m)) i) ->
  M m (mkR (upd (chs s) (chan cf m) x) (pc s) (idx s) (out s) (fin s) (armed s) false).
Proof.
  intros Mm L B I R.
  assert (O : forall j, j < n cf -> j <> m -> rops (upd (chs s) (chan cf m) x (chan cf j)) j = op s j).
  { intros j J N. rewrite upd_eq. destruct (Nat.eqb_spec (chan cf j) (chan cf m)) as [E|E]; [|reflexivity]. rewrite (R j N), E. reflexivity. }
  constructor; cbn [ub chs].
  - reflexivity.
  - intro c. rewrite upd_eq. destruct (Nat.eqb c (chan cf m)); [exact B|apply Mm].
  - intro c. rewrite upd_eq. destruct (Nat.eqb c (chan cf m)); [exact I|apply Mm].
  - intros c j J N. rewrite upd_eq. destruct (Nat.eqb_spec c (chan cf m)) as [->|E]; [|exact (m_abs _ _ _ Mm c j J N)].
    rewrite R by congruence. exact (m_abs _ _ _ Mm _ j J N).
  - intros j J N. rewrite (O j J N). apply (m_k1 _ _ _ Mm j J N).
  - intros j J N. rewrite (O j J N). apply (m_k0 _ _ _ Mm j J N).
Qed.

(** The state after a member's fork has ended while the race waits. *)
Lemma G_intro s m0 : M (n cf) s -> pc s = Waiting m0 -> m0 <= n cf ->
  (forall i, idx s = Some i -> i < n cf /\ fin s i = true /\ out s <> None /\
     forall k, k < n cf -> r_stage (op s k) = Awaited -> r_cancelled (op s k) = true) -> idx s <> None -> G s.
Proof.
  intros Mm P L Dc N. constructor; [exact Mm| | |].
  - destruct (idx s) as [i|]; [auto|congruence].
  - rewrite P. exact L.
  - rewrite P. intros k _ [].
Qed.

(** [on c l] has resumed member [m]; its fork ends. *)
Lemma resume_spec m (s0 s : rstate) x ev r s1 e : M m s -> m < n cf -> pc s = pc s0 -> (exists m0, pc s = Waiting m0 /\ m0 <= n cf) ->
  (forall i, i <> m -> rops x i = rops (chs s (chan cf m)) i) -> r_stage (rops x m) = Finished -> (bad x = None -> Inv x) -> ev = [ERead m r] ->
  (idx s = None /\ (forall j, fin s j = false) /\ out s = None \/ idx s = Some m \/ exists i, idx s = Some i /\ i < n cf /\ fin s i = true /\ out s <> None /\ i <> m) ->
  seq2 (mkR (upd (chs s) (chan cf m) x) (pc s) (idx s) (out s) (fin s) (armed s) (ub s || is_some (bad x)), map (C (chan cf m)) ev) (finish cf m r) = (s1, e) ->
  (ub s1 = false -> G s1) /\ pc s1 = pc s /\ only_c e /\
  (idx s1 = Some m /\ out s1 = Some r /\ (idx s = None \/ idx s = Some m) /\ taken cf e = winnings m r \/
   exists i, i <> m /\ idx s = Some i /\ idx s1 = Some i /\ out s1 = out s /\ (~ val r -> taken cf e = [])).
Proof.
  intros Mm L P0 (m0 & P & Lm0) R St I -> Dc H. unfold seq2 in H. rewrite (m_ub _ _ _ Mm) in H. cbn [orb] in H.
  set (s2 := mkR _ _ _ _ _ _ _) in H. destruct (finish cf m r s2) as [s3 e3] eqn:F. injection H as <- <-.
  assert (Dr : idx s2 = None \/ idx s2 = Some m \/ exists i, idx s2 = Some i /\ i <> m /\ fin s2 i = true).
  { cbn. destruct Dc as [(Dc & _)|[Dc|(i & D1 & D2 & D3 & D4 & D5)]]; eauto 8. }
  destruct (finish_res _ _ _ _ _ F Dr) as (Hm & Hu & Hp & Hr).
  split; [|split; [exact Hp|split]].
  - intro U. assert (Bx : bad x = None).
    { destruct (bad x) eqn:E; [|reflexivity]. cbn in Hu. rewrite Hu in U; [discriminate|reflexivity]. }
    assert (M2 : M m s2).
    { unfold s2. rewrite Bx. cbn [is_some]. apply on_exempt; auto. }
    assert (S2 : r_stage (op s2 m) = Finished) by (cbn [s2 chs]; rewrite upd_eq, Nat.eqb_refl; exact St).
    assert (D2 : match idx s2 with None => (forall j, fin s2 j = false) /\ out s2 = None
                 | Some i => i = m \/ (i < n cf /\ fin s2 i = true /\ out s2 <> None /\ i <> m) end).
    { cbn [s2 idx fin out]. destruct Dc as [(-> & Dc)|[-> |(i & -> & D2 & D3 & D4 & D5)]]; auto. }
    destruct (finish_spec _ _ _ _ _ M2 L S2 D2 F) as (Q1 & Q2 & Q3 & Q4 & Q5).
    apply (G_intro s3 m0); auto. rewrite Hp. exact P.
  - apply (only_c_app (map (C (chan cf m)) [ERead m r]) e3); [apply only_c_map|apply only_c_harmless; exact Hm].
  - assert (Tk : taken cf (C (chan cf m) (ERead m r) :: e3) = winnings m r).
    { change (C (chan cf m) (ERead m r) :: e3) with (map (C (chan cf m)) [ERead m r] ++ e3). rewrite (taken_app _ e3), (taken_one _ _ _ L), (taken_harmless _ Hm). apply app_nil_r. }
    rewrite Tk. destruct Hr as [(R1 & R2 & R3)|(i & R1 & R2 & R3 & R4)].
    + left. auto.
    + right. exists i. repeat split; auto. intro Nv. destruct r; [destruct Nv; exact Logic.I| |]; reflexivity.
Qed.

(** The outcome of a step: either undefined behaviour or the invariant again; the race is
    decided or nothing is taken. *)
Definition good (s s1 : rstate) (e : list revent) : Prop :=
  (ub s1 = false -> G s1) /\ pc s1 = pc s /\ only_c e /\ TS s s1 e /\ (pc s = Returned -> idx s1 = idx s /\ out s1 = out s /\ taken cf e = []).
Lemma good_refl s : G s -> good s s [].
Proof. intro Gs. split; [auto|]. split; [reflexivity|]. split; [intros x []|]. split; [left; auto|auto]. Qed.

Lemma working_waiting s m : G s -> working s m = true -> (exists m0, pc s = Waiting m0 /\ m0 <= n cf) \/ exists k, pc s = Starting k false.
Proof.
  intros Gs W. pose proof (g_start _ Gs) as St. unfold working in W. destruct (pc s) as [|k r|m0|]; try (rewrite andb_false_r in W; discriminate).
  - destruct St as (-> & _). eauto.
  - eauto.
Qed.
Lemma dec_of s m : G s -> working s m = true ->
  idx s = None /\ (forall j, fin s j = false) /\ out s = None \/ idx s = Some m \/ exists i, idx s = Some i /\ i < n cf /\ fin s i = true /\ out s <> None /\ i <> m.
Proof.
  intros Gs W. pose proof (g_dec _ Gs) as Dc. destruct (idx s) as [i|].
  - right. right. exists i. destruct Dc as (D1 & D2 & D3 & _). repeat split; auto. intros ->. unfold working in W. rewrite D2 in W. discriminate.
  - left. tauto.
Qed.

Lemma plain_good s c l s1 e : G s -> (forall k r, pc s <> Starting k r) -> own cf l = false -> affects cf (chs s c) l = None ->
  (let '(s1, ev) := on c l s in (s1, map (C c) ev)) = (s1, e) -> good s s1 e.
Proof.
  intros Gs NS O Af H. destruct (on c l s) as [s2 ev] eqn:On. injection H as <- <-. apply on_eq in On as (x & S & ->).
  pose proof (g_m _ Gs) as Mm.
  assert (Fr : forall k, k < n cf -> (bad x = None -> same (rops (chs s c) k) (rops x k)) /\ no_read k ev) by (intros k K; exact (frame cf _ _ _ _ k S O Af K)).
  assert (Tk : taken cf (map (C c) ev) = []) by (apply taken_none; intros k K; apply (Fr k K)).
  split; [|split; [reflexivity|split; [apply only_c_map|split; [left; auto|auto]]]].
  intro U. cbn [ub] in U. rewrite (m_ub _ _ _ Mm) in U. cbn [orb] in U. assert (Bx : bad x = None) by (destruct (bad x); [discriminate|reflexivity]).
  rewrite (m_ub _ _ _ Mm), Bx. cbn [orb is_some].
  assert (Ix : Inv x). { pose proof (step_inv (chs s c) l (m_inv _ _ _ Mm c)) as P. rewrite S in P. apply P. exact Bx. }
  set (s2 := mkR _ _ _ _ _ _ _).
  assert (Sm : forall a k, k < n cf -> same (rops (chs s a) k) (rops (chs s2 a) k)).
  { intros a k K. unfold s2. cbn [chs]. rewrite upd_eq. destruct (Nat.eqb_spec a c) as [->|N]; [apply (Fr k K); exact Bx|apply same_refl]. }
  constructor.
  - constructor; cbn [s2 ub chs].
    + reflexivity.
    + intro a. rewrite upd_eq. destruct (Nat.eqb a c); [exact Bx|apply Mm].
    + intro a. rewrite upd_eq. destruct (Nat.eqb a c); [exact Ix|apply Mm].
    + intros a k K N. destruct (Sm a k K) as (S1 & _). cbn [s2 chs] in S1. rewrite S1. exact (m_abs _ _ _ Mm a k K N).
    + intros k K N. destruct (Sm (chan cf k) k K) as (S1 & _). cbn [s2 chs] in S1. rewrite S1. exact (m_k1 _ _ _ Mm k K N).
    + intros k K N. destruct (Sm (chan cf k) k K) as (S1 & S2 & _). cbn [s2 chs] in S1, S2. rewrite S1, S2. exact (m_k0 _ _ _ Mm k K N).
  - pose proof (g_dec _ Gs) as Dc. cbn [s2 idx fin out]. destruct (idx s) as [i|]; [|exact Dc]. destruct Dc as (D1 & D2 & D3 & D4).
    repeat split; auto. intros k K A. destruct (Sm (chan cf k) k K) as (S1 & S2 & S3). apply S3. apply D4; [exact K|]. rewrite <- S1. exact A.
  - pose proof (g_start _ Gs) as St. cbn [s2 pc idx]. destruct (pc s) as [|k r|m0|]; auto. destruct (NS k r eq_refl).
  - intros k K P. destruct (Sm (chan cf k) k K) as (S1 & _). rewrite S1. apply (g_abs _ Gs k K). exact P.
Qed.

Lemma env_good s c l s1 e : G s -> (forall k r, pc s <> Starting k r) -> own cf l = false -> env_one cf c l s = (s1, e) -> good s s1 e.
Proof.
  intros Gs NS O H. unfold env_one in H. destruct (affects cf (chs s c) l) as [m|] eqn:Af; [|exact (plain_good _ _ _ _ _ Gs NS O Af H)].
  destruct (affected _ _ _ _ Gs Af) as (L & <- & Aw & W & Cc). pose proof (g_m _ Gs) as Mm.
  assert (Pw : exists m0, pc s = Waiting m0 /\ m0 <= n cf).
  { destruct (working_waiting _ _ Gs W) as [P|[k P]]; [exact P|]. destruct (NS _ _ P). }
  assert (NR : pc s <> Returned) by (destruct Pw as (m0 & -> & _); discriminate).
  destruct l as [i|i sl|j v|j sl|i|j|i|j|i|j| |q]; cbn [affects] in Af; try discriminate.
  - destruct (idx s) as [i|] eqn:Ei.
    { exfalso. pose proof (g_dec _ Gs) as Dc. rewrite Ei in Dc. destruct Dc as (_ & _ & _ & Dc). rewrite (Dc m L Aw) in Cc. discriminate. }
    pose proof (g_dec _ Gs) as Dc. rewrite Ei in Dc. destruct Dc as [Nf No].
    unfold seq2 at 1 in H. destruct (transact cf m s) as [s2 e2] eqn:Tx. unfold transact in Tx.
    set (s0 := set_idx m (set_armed m false s)) in Tx.
    assert (M0 : M m s0). { pose proof (M_weaken m _ Mm) as [A B Cx E F Hh]. constructor; auto. }
    assert (D0 : D m s0) by (exists m; auto).
    destruct (cancel_all_spec cf _ _ _ _ M0 D0 Tx) as (M2 & F2 & H2 & _).
    assert (Mt : meets cf (chs s2 (chan cf m)) j = Some m /\ w_stage (wops (chs s2 (chan cf m)) j) = Made).
    { unfold meets in *. destruct (f_ch _ _ _ _ F2 (chan cf m)) as (B1 & B2 & B3 & B4 & B5). unfold write_ready, full in *. rewrite B1, B2, B3, B4.
      change (chs s0) with (chs s) in *. destruct (w_stage (wops (chs s (chan cf m)) j)); try discriminate. split; [|reflexivity].
      destruct (rq (chs s (chan cf m))) as [|i q] eqn:R; [discriminate|]. destruct (_ && _) eqn:E in Af; [|discriminate]. injection Af as ->.
      destruct (f_rq _ _ _ _ F2 _ _ R) as [q' R']. rewrite R', (f_m _ _ _ _ F2). change (chs s0) with (chs s). rewrite E. reflexivity. }
    destruct Mt as [Mt Sw]. destruct (on (chan cf m) (AwWrite j sl) s2) as [s3 ev] eqn:On. apply on_eq in On as (x & S & ->).
    destruct (write_member cf _ _ _ _ _ _ S (m_bad _ _ _ M2 _) Mt) as (W1 & W2 & _).
    destruct (write_member_good cf _ _ _ _ _ _ S (m_bad _ _ _ M2 _) Mt (m_inv _ _ _ M2 _) Sw) as [r ->].
    cbn [answer] in H. rewrite Nat.eqb_refl in H. destruct (seq2 _ (finish cf m r)) as [s4 e4] eqn:Q. injection H as <- <-.
    assert (Ix : bad x = None -> Inv x).
    { intro Bx. pose proof (step_inv (chs s2 (chan cf m)) (AwWrite j sl) (m_inv _ _ _ M2 _)) as P. rewrite S in P. apply P. exact Bx. }
    assert (P2 : pc s2 = pc s) by (rewrite (f_pc _ _ _ _ F2); reflexivity).
    assert (Pw2 : exists m0, pc s2 = Waiting m0 /\ m0 <= n cf) by (rewrite P2; exact Pw).
    assert (I2 : idx s2 = Some m) by (rewrite (f_idx _ _ _ _ F2); reflexivity).
    destruct (resume_spec m s s2 x _ r _ _ M2 L P2 Pw2 W1 W2 Ix eq_refl (or_intror (or_introl I2)) Q) as (Q1 & Q2 & Q3 & Q4).
    split; [exact Q1|]. split; [congruence|]. split; [apply only_c_app; [apply only_c_harmless; exact H2|exact Q3]|]. split; [|congruence].
    right. split; [exact Ei|]. exists m, r. rewrite taken_app, (taken_harmless _ H2). destruct Q4 as [(A1 & A2 & _ & A4)|(i & N & A1 & _)]; [auto|congruence].
  - unfold resumed in Af. destruct (nth_error (posted (chs s (chan cf m))) q) as [[i|j]|] eqn:Pn; try discriminate. destruct (i <? n cf) eqn:Li; [|discriminate].
    injection Af as ->. destruct (on (chan cf m) (Run q) s) as [s3 ev] eqn:On. apply on_eq in On as (x & S & ->).
    destruct (run_member _ _ _ _ _ S (m_bad _ _ _ Mm _) Pn) as (R1 & Cs).
    assert (Ix : bad x = None -> Inv x).
    { intro Bx. pose proof (step_inv (chs s (chan cf m)) (Run q) (m_inv _ _ _ Mm _)) as P. rewrite S in P. apply P. exact Bx. }
    destruct Cs as [[-> Bx]|(_ & R2 & r & -> & R3)].
    + cbn [answer map] in H. injection H as <- <-. split; [|split; [reflexivity|split; [intros y []|split; [left; auto|auto]]]].
      cbn [ub]. destruct (bad x); [|congruence]. rewrite orb_true_r. discriminate.
    + cbn [answer] in H. rewrite Nat.eqb_refl in H.
      destruct (resume_spec m s s x _ r _ _ (M_weaken m _ Mm) L eq_refl Pw R1 R2 Ix eq_refl (dec_of _ _ Gs W) H) as (Q1 & Q2 & Q3 & Q4).
      split; [exact Q1|]. split; [exact Q2|]. split; [exact Q3|]. split; [|congruence].
      destruct Q4 as [(A1 & A2 & A3 & A4)|(i & N & A1 & A2 & A3 & A4)].
      * destruct A3 as [A3|A3]; [right; eauto 8|]. exfalso. destruct (dec_of _ _ Gs W) as [(D1 & _)|[D1|(i & D1 & _ & _ & _ & D2)]]; try congruence.
        pose proof (g_dec _ Gs) as Dc. rewrite A3 in Dc. destruct Dc as (_ & Dc & _). unfold working in W. rewrite Dc in W. discriminate.
      * left. rewrite A1, A2, A3. repeat split. apply A4. apply R3. pose proof (g_dec _ Gs) as Dc. rewrite A1 in Dc. destruct Dc as (_ & _ & _ & Dc). exact (Dc m L Aw).
Qed.

(** The race is interrupted from outside. *)
Lemma interrupt_fork_good s k s1 e m0 : G s -> pc s = Waiting m0 -> k < m0 -> interrupt_fork cf s k = (s1, e) -> G s1 /\ good s s1 e.
Proof.
  intros Gs P K0 H. pose proof (g_m _ Gs) as Mm. pose proof (g_start _ Gs) as Lm. rewrite P in Lm. assert (K : k < n cf) by lia. assert (N : k <> n cf) by lia.
  unfold interrupt_fork in H. destruct (working s k) eqn:W.
  2: { injection H as <- <-. split; [exact Gs|apply good_refl; exact Gs]. }
  destruct (on _ _ s) as [s2 ev] eqn:O. apply on_eq in O as (x & S & ->).
  pose proof (proj2 (m_k1 _ _ _ Mm k K N) W) as A. pose proof (m_k0 _ _ _ Mm k K N A) as Dr.
  destruct (interrupt_any _ _ _ _ S) as (I1 & I2 & I3 & I4). destruct (interrupt_waiting _ _ _ _ S (m_bad _ _ _ Mm _) A Dr) as ((B1 & B2 & B3 & B4 & B5 & B6 & B7) & Cs).
  assert (Bx : bad x = None) by (rewrite I3; apply Mm).
  assert (Ix : Inv x). { pose proof (step_inv (chs s (chan cf k)) (InterruptR k) (m_inv _ _ _ Mm _)) as Q. rewrite S in Q. apply Q. exact Bx. }
  destruct Cs as [(-> & C1 & C2 & C3)|(r & -> & C1)].
  - cbn [answer map] in H. injection H as <- <-. rewrite (m_ub _ _ _ Mm), Bx. cbn [is_some orb].
    assert (G1 : G (mkR (upd (chs s) (chan cf k) x) (pc s) (idx s) (out s) (fin s) (armed s) false)).
    { constructor.
      - apply on_M; auto. unfold working in *. cbn [fin pc] in *. tauto.
      - pose proof (g_dec _ Gs) as Dc. cbn [idx fin out]. destruct (idx s) as [i|]; [|exact Dc]. destruct Dc as (D1 & D2 & D3 & D4).
        repeat split; auto. intros j J. cbn [chs]. rewrite upd_eq. destruct (Nat.eqb_spec (chan cf j) (chan cf k)) as [E|E]; [|auto].
        destruct (Nat.eq_dec j k) as [->|Nj]; [auto|]. rewrite (I2 j Nj), <- E. auto.
      - cbn [pc]. rewrite P. exact Lm.
      - cbn [pc]. rewrite P. intros j _ []. }
    split; [exact G1|]. split; [auto|]. split; [reflexivity|]. split; [intros y []|]. split; [left; auto|auto].
  - cbn [answer] in H. rewrite Nat.eqb_refl in H.
    assert (H' : seq2 (mkR (upd (chs s) (chan cf k) x) (pc s) (idx s) (out s) (fin s) (armed s) (ub s || is_some (bad x)), map (C (chan cf k)) [ERead k r]) (finish cf k r) = (s1, e)) by exact H.
    destruct (resume_spec k s s x _ r _ _ (M_weaken k _ Mm) K eq_refl (ex_intro _ m0 (conj P Lm)) I2 C1 (fun _ => Ix) eq_refl (dec_of _ _ Gs W) H') as (Q1 & Q2 & Q3 & Q4).
    assert (U1 : ub s1 = false).
    { revert H'. unfold seq2. rewrite (m_ub _ _ _ Mm), Bx. cbn [orb is_some]. set (s2 := mkR _ _ _ _ _ _ _). destruct (finish cf k r s2) as [s3 e3] eqn:F. intro H'. injection H' as <- <-.
      assert (M2 : M k s2) by (apply on_exempt; auto; apply M_weaken; exact Mm).
      assert (S2 : r_stage (op s2 k) = Finished) by (cbn [s2 chs]; rewrite upd_eq, Nat.eqb_refl; exact C1).
      assert (D2 : match idx s2 with None => (forall j, fin s2 j = false) /\ out s2 = None
                   | Some i => i = k \/ (i < n cf /\ fin s2 i = true /\ out s2 <> None /\ i <> k) end).
      { cbn [s2 idx fin out]. destruct (dec_of _ _ Gs W) as [(-> & Dc)|[-> |(i & -> & D2 & D3 & D4 & D5)]]; auto. }
      destruct (finish_spec _ _ _ _ _ M2 K S2 D2 F) as (M3 & _). exact (m_ub _ _ _ M3). }
    assert (Nv : ~ val r) by (apply (I1 k r); left; reflexivity).
    split; [auto|]. split; [exact Q1|]. split; [exact Q2|]. split; [exact Q3|]. split; [|congruence].
    destruct Q4 as [(A1 & A2 & A3 & A4)|(i & Ni & A1 & A2 & A3 & A4)].
    + destruct A3 as [A3|A3]; [right; eauto 8|]. exfalso.
      pose proof (g_dec _ Gs) as Dc. rewrite A3 in Dc. destruct Dc as (_ & Dc & _). unfold working in W. rewrite Dc in W. discriminate.
    + left. rewrite A1, A2, A3. auto.
Qed.
Lemma good_trans a b c e f : G b -> good a b e -> good b c f -> good a c (e ++ f).
Proof.
  intros Gb (A1 & A2 & A3 & A4 & A5) (B1 & B2 & B3 & B4 & B5). split; [exact B1|]. split; [congruence|]. split; [apply only_c_app; assumption|].
  split; [exact (TS_trans _ _ _ _ _ A4 B4)|]. intro P. destruct (A5 P) as (X1 & X2 & X3). rewrite <- A2 in P. destruct (B5 P) as (Y1 & Y2 & Y3).
  rewrite taken_app, X3, Y3. repeat split; congruence.
Qed.
Lemma each_good f m0 : (forall s k s1 e, G s -> pc s = Waiting m0 -> k < m0 -> f s k = (s1, e) -> G s1 /\ good s s1 e) ->
  forall ks s s1 e, (forall k, In k ks -> k < m0) -> G s -> pc s = Waiting m0 -> each f ks s = (s1, e) -> G s1 /\ good s s1 e.
Proof.
  intros F. induction ks as [|k t IH]; intros s s1 e L Gs P H; cbn [each] in H.
  - injection H as <- <-. split; [exact Gs|apply good_refl; exact Gs].
  - destruct (f s k) as [s2 e2] eqn:E2. destruct (each f t s2) as [s3 e3] eqn:E3. injection H as <- <-.
    destruct (F _ _ _ _ Gs P (L k (or_introl eq_refl)) E2) as [G2 Q2]. assert (P2 : pc s2 = Waiting m0) by (destruct Q2 as (_ & -> & _); exact P).
    destruct (IH _ _ _ (fun j J => L j (or_intror J)) G2 P2 E3) as [G3 Q3]. split; [exact G3|]. exact (good_trans _ _ _ _ _ G2 Q2 Q3).
Qed.
Lemma forward_good s k s1 e m0 : G s -> pc s = Waiting m0 -> k < m0 -> forward_one cf s k = (s1, e) -> G s1 /\ good s s1 e.
Proof.
  intros Gs P K0 H. pose proof (g_m _ Gs) as Mm. pose proof (g_start _ Gs) as Lm. rewrite P in Lm. assert (K : k < n cf) by lia. assert (N : k <> n cf) by lia.
  unfold forward_one in H. destruct (armed s k).
  2: { injection H as <- <-. split; [exact Gs|apply good_refl; exact Gs]. }
  destruct (on _ _ s) as [s2 ev] eqn:O. injection H as <- <-. destruct (cancel_on cf _ _ _ _ _ Mm K N O) as (-> & M2 & F2 & _ & Ef).
  assert (G2 : G s2).
  { constructor; [exact M2| | |].
    - pose proof (g_dec _ Gs) as Dc. rewrite (f_idx _ _ _ _ F2), (f_out _ _ _ _ F2), Ef. destruct (idx s) as [i|]; [|exact Dc]. destruct Dc as (D1 & D2 & D3 & D4).
      repeat split; auto. intros j J A. destruct (f_mono _ _ _ _ F2 j J) as [A0 Cm]; [lia|exact A|]. auto.
    - rewrite (f_pc _ _ _ _ F2), P. exact Lm.
    - rewrite (f_pc _ _ _ _ F2), P. intros j _ []. }
  split; [exact G2|]. split; [auto|]. split; [apply F2|]. split; [intros y []|]. split; [left; repeat split; apply F2|]. rewrite P. discriminate.
Qed.

(** The race returns, in any state. *)
Lemma destroy_any_loop : forall ks (s s1 : rstate) e, each (destroy_one cf) ks s = (s1, e) -> e = [] /\ idx s1 = idx s /\ out s1 = out s /\ pc s1 = pc s /\ (ub s = true -> ub s1 = true).
Proof.
  induction ks as [|k t IH]; intros s s1 e H; cbn [each] in H.
  - injection H as <- <-. auto.
  - destruct (destroy_one cf s k) as [s2 e2] eqn:E2. destruct (each _ t s2) as [s3 e3] eqn:E3. injection H as <- <-.
    unfold destroy_one in E2. destruct (on _ _ s) as [s2' ev] eqn:O. injection E2 as <- <-. apply on_eq in O as (x & S & ->).
    destruct (destroy_any _ _ _ _ S) as (-> & _). destruct (IH _ _ _ E3) as (-> & A1 & A2 & A3 & A4). cbn in *.
    split; [reflexivity|]. split; [exact A1|]. split; [exact A2|]. split; [exact A3|]. intro U. apply A4. rewrite U. reflexivity.
Qed.
Lemma settle_any (s s1 : rstate) e : settle cf s = (s1, e) -> idx s1 = idx s /\ out s1 = out s /\ (ub s = true -> ub s1 = true) /\
  (e = [] /\ pc s1 = pc s \/ exists i r m, e = [Win i r] /\ idx s = Some i /\ out s = Some r /\ pc s = Waiting m /\ pc s1 = Returned).
Proof.
  intro H. unfold settle in H. destruct (pc s) as [|a b|m|] eqn:P; try (injection H as <- <-; auto 10; fail).
  destruct (forallb _ _) eqn:Fa; [|injection H as <- <-; auto 10].
  fold (destroy_one (V := V) cf) in H. destruct (each (destroy_one cf) (seq 0 m) s) as [s2 e2] eqn:E.
  destruct (destroy_any_loop _ _ _ _ E) as (-> & Ei & Eo & Ep & Eu).
  destruct (idx s) as [i|] eqn:Ii; [destruct (out s) as [r|] eqn:Oo|]; injection H as <- <-; cbn [set_pc set_ub idx out ub pc].
  - split; [exact Ei|]. split; [exact Eo|]. split; [exact Eu|]. right. exists i, r, m. auto.
  - split; [exact Ei|]. split; [exact Eo|]. split; [reflexivity|]. left. split; [reflexivity|congruence].
  - split; [exact Ei|]. split; [exact Eo|]. split; [reflexivity|]. left. split; [reflexivity|congruence].
Qed.

(** One step of the whole system. *)
Definition stepped (s s1 : rstate) (e : list revent) : Prop :=
  (ub s1 = false -> G s1) /\
  exists e1 e2, e = e1 ++ e2 /\ only_c e1 /\ TS s s1 e1 /\
    (e2 = [] /\ (pc s1 = Returned <-> pc s = Returned) \/
     exists i r, e2 = [Win i r] /\ idx s1 = Some i /\ out s1 = Some r /\ pc s <> Returned /\ pc s1 = Returned).
Lemma good_settle (s0 s1 s2 : rstate) e1 e2 : (ub s1 = false -> G s1) -> only_c e1 -> TS s0 s1 e1 -> (pc s1 = Returned <-> pc s0 = Returned) ->
  settle cf s1 = (s2, e2) -> stepped s0 s2 (e1 ++ e2).
Proof.
  intros A1 A3 A4 A2 H. destruct (settle_any _ _ _ H) as (Ei & Eo & Eu & Cs). split.
  - intro U. destruct (ub s1) eqn:U1; [rewrite Eu in U by reflexivity; discriminate|]. destruct (settle_spec _ _ _ (A1 eq_refl) H) as (Q & _). exact (Q U).
  - exists e1, e2. split; [reflexivity|]. split; [exact A3|]. split.
    + destruct A4 as [(B1 & B2 & B3)|(B0 & m & r & B1 & B2 & B3)]; [left; repeat split; congruence|right; split; [exact B0|]]. exists m, r. repeat split; congruence.
    + destruct Cs as [(-> & Ep)|(i & r & m & -> & C1 & C2 & C3 & C4)]; [left; rewrite Ep; auto|].
      right. exists i, r. repeat split; try congruence. intro P. apply A2 in P. congruence.
Qed.

(** A member is started. *)
Lemma start_stepped k s s1 e : G s -> pc s = Starting k false -> k < n cf -> start_one cf k s = (s1, e) -> stepped s s1 e.
Proof.
  intros Gs P K H. pose proof (g_m _ Gs) as Mm. pose proof (g_start _ Gs) as Sx. rewrite P in Sx. destruct Sx as (_ & Ix & Nw & _).
  assert (Ab : r_stage (op s k) = Absent) by (apply (g_abs _ Gs k K); rewrite P; lia).
  assert (N : k <> n cf) by lia.
  unfold start_one in H. destruct (on (chan cf k) (MkRead k) s) as [sa ea] eqn:O1. apply on_eq in O1 as (x1 & S1 & ->).
  destruct (make_member _ _ _ _ S1 (m_bad _ _ _ Mm _) Ab) as (-> & B1 & W1 & R1 & St1 & Dr1). rewrite (Nw k K) in W1.
  assert (I1 : Inv x1). { pose proof (step_inv (chs s (chan cf k)) (MkRead k) (m_inv _ _ _ Mm _)) as Q. rewrite S1 in Q. apply Q. exact B1. }
  rewrite (m_ub _ _ _ Mm), B1 in H. cbn [orb is_some chs] in H. rewrite upd_eq, Nat.eqb_refl, W1 in H. cbn [is_nil negb] in H.
  set (sa := mkR _ _ _ _ _ _ _) in H. destruct (on (chan cf k) (AwRead k true) sa) as [sb eb] eqn:O2. apply on_eq in O2 as (x2 & S2 & ->).
  assert (Ca : chs sa (chan cf k) = x1) by (cbn [sa chs]; rewrite upd_eq, Nat.eqb_refl; reflexivity). rewrite Ca in S2.
  destruct (start_member _ _ _ _ _ S2 B1 W1 St1 Dr1) as (R2 & W2 & Cs).
  assert (I2 : bad x2 = None -> Inv x2). { intro Bx. pose proof (step_inv x1 (AwRead k true) I1) as Q. rewrite S2 in Q. apply Q. exact Bx. }
  assert (Fn : forall j, fin s j = false). { pose proof (g_dec _ Gs) as Dc. rewrite Ix in Dc. apply Dc. }
  assert (On : out s = None). { pose proof (g_dec _ Gs) as Dc. rewrite Ix in Dc. apply Dc. }
  assert (NR : forall j b, Starting j b = Returned <-> pc s = Returned) by (intros j b; rewrite P; split; discriminate).
  destruct Cs as [[-> Bx]|[(-> & St2 & Dr2)|(r & -> & St2)]].
  - cbn [answer map] in H. injection H as <- <-. split.
    + cbn [set_pc set_armed ub]. destruct (bad x2); [|congruence]. cbn. discriminate.
    + exists [], []. split; [reflexivity|]. split; [intros y []|]. split; [left; auto|]. left. split; [reflexivity|apply NR].
  - cbn [answer map] in H. injection H as <- <-. split.
    + intro U. cbn [set_pc set_armed ub] in U. assert (Bx : bad x2 = None) by (destruct (bad x2); [discriminate U|reflexivity]).
      assert (Oj : forall j, j < n cf -> j <> k -> rops (upd (upd (chs s) (chan cf k) x1) (chan cf k) x2 (chan cf j)) j = op s j).
      { intros j J E. rewrite upd_eq. destruct (Nat.eqb_spec (chan cf j) (chan cf k)) as [Ec|Ec].
        - rewrite (R2 j E), (R1 j E), Ec. reflexivity.
        - rewrite upd_eq. destruct (Nat.eqb_spec (chan cf j) (chan cf k)); [congruence|reflexivity]. }
      assert (Ok : rops (upd (upd (chs s) (chan cf k) x1) (chan cf k) x2 (chan cf k)) k = rops x2 k) by (rewrite upd_eq, Nat.eqb_refl; reflexivity).
      assert (Al : forall c, (c = chan cf k /\ upd (upd (chs s) (chan cf k) x1) (chan cf k) x2 c = x2) \/ (c <> chan cf k /\ upd (upd (chs s) (chan cf k) x1) (chan cf k) x2 c = chs s c)).
      { intro c. rewrite upd_eq. rewrite upd_eq. destruct (Nat.eqb_spec c (chan cf k)); auto. }
      constructor; cbn [set_pc set_armed idx pc fin out chs].
      * constructor; cbn [set_pc set_armed ub chs]; auto.
        -- intro c. destruct (Al c) as [[_ ->]|[_ ->]]; [exact Bx|apply Mm].
        -- intro c. destruct (Al c) as [[_ ->]|[_ ->]]; [auto|apply Mm].
        -- intros c j J E. destruct (Al c) as [[-> ->]|[Ec ->]]; [|exact (m_abs _ _ _ Mm c j J E)].
           assert (E' : j <> k) by congruence. rewrite (R2 j E'), (R1 j E'). exact (m_abs _ _ _ Mm _ j J E).
        -- intros j J E. destruct (Nat.eq_dec j k) as [->|E'].
           ++ rewrite Ok, St2. unfold working. cbn [fin pc set_pc set_armed sa]. rewrite Fn. cbn [negb andb]. rewrite Nat.ltb_lt. split; auto.
           ++ rewrite (Oj j J E'), (m_k1 _ _ _ Mm j J E). unfold working. cbn [fin pc set_pc set_armed sa]. rewrite P, Fn. cbn [negb andb]. rewrite !Nat.ltb_lt. lia.
        -- intros j J E. destruct (Nat.eq_dec j k) as [->|E']; [rewrite Ok; auto|]. rewrite (Oj j J E'). exact (m_k0 _ _ _ Mm j J E).
      * rewrite Ix. cbn [sa fin out]. auto.
      * split; [reflexivity|]. split; [exact Ix|]. split; [|lia]. intros j J. cbn [set_pc set_armed chs]. destruct (Al (chan cf j)) as [[_ ->]|[_ ->]]; auto.
      * intros j J E. rewrite Oj by lia. apply (g_abs _ Gs j J). rewrite P. lia.
    + exists [], []. split; [reflexivity|]. split; [intros y []|]. split; [left; auto|]. left. split; [reflexivity|apply NR].
  - cbn [answer] in H. rewrite Nat.eqb_refl in H. set (sw := set_pc (Waiting (S k)) sa).
    assert (Mw : M k sw).
    { constructor; cbn [sw set_pc ub chs].
      - reflexivity.
      - intro c. cbn [sa chs]. rewrite upd_eq. destruct (Nat.eqb c (chan cf k)); [exact B1|apply Mm].
      - intro c. cbn [sa chs]. rewrite upd_eq. destruct (Nat.eqb c (chan cf k)); [exact I1|apply Mm].
      - intros c j J E. cbn [sa chs]. rewrite upd_eq. destruct (Nat.eqb_spec c (chan cf k)) as [->|Ec]; [|exact (m_abs _ _ _ Mm c j J E)].
        rewrite R1 by congruence. exact (m_abs _ _ _ Mm _ j J E).
      - intros j J E. assert (Oj : rops (chs sa (chan cf j)) j = op s j).
        { cbn [sa chs]. rewrite upd_eq. destruct (Nat.eqb_spec (chan cf j) (chan cf k)) as [Ec|Ec]; [|reflexivity]. rewrite (R1 j E), Ec. reflexivity. }
        rewrite Oj, (m_k1 _ _ _ Mm j J) by lia. unfold working. cbn [sw sa set_pc fin pc]. rewrite P, Fn. cbn [negb andb]. rewrite !Nat.ltb_lt. lia.
      - intros j J E. assert (Oj : rops (chs sa (chan cf j)) j = op s j).
        { cbn [sa chs]. rewrite upd_eq. destruct (Nat.eqb_spec (chan cf j) (chan cf k)) as [Ec|Ec]; [|reflexivity]. rewrite (R1 j E), Ec. reflexivity. }
        rewrite Oj. apply (m_k0 _ _ _ Mm j J). lia. }
    destruct (seq2 _ (finish cf k r)) as [s2 e2] eqn:Q in H. cbn [seq2] in H. destruct (settle cf s2) as [s3 e3] eqn:Se. injection H as <- <-.
    assert (Pw : exists m0, pc sw = Waiting m0 /\ m0 <= n cf) by (exists (S k); split; [reflexivity|lia]).
    assert (R2' : forall i, i <> k -> rops x2 i = rops (chs sw (chan cf k)) i) by (change (chs sw (chan cf k)) with (chs sa (chan cf k)); rewrite Ca; exact R2).
    assert (Dc : idx sw = None /\ (forall j, fin sw j = false) /\ out sw = None) by (cbn [sw sa set_pc idx fin out]; auto).
    destruct (resume_spec k sw sw x2 _ r _ _ Mw K eq_refl Pw R2' St2 I2 eq_refl (or_introl Dc) Q) as (Q1 & Q2 & Q3 & Q4).
    refine (good_settle s s2 _ e2 e3 Q1 Q3 _ _ Se).
    + destruct Q4 as [(A1 & A2 & _ & A4)|(i & _ & A1 & _)]; [right; split; [exact Ix|]; eauto|]. cbn in A1. congruence.
    + rewrite Q2. cbn. rewrite P. split; discriminate.
Qed.
Lemma rstep_stepped s l s1 e : G s -> (l = Await -> no_writer_waits cf s) -> rstep cf s l = Some (s1, e) -> stepped s s1 e.
Proof.
  intros Gs Q H. unfold rstep in H. rewrite (m_ub _ _ _ (g_m _ Gs)) in H. destruct l as [| |c l| |].
  - destruct (pc s) eqn:P; try discriminate. injection H as <- <-. pose proof (g_start _ Gs) as Sx. rewrite P in Sx. specialize (Q eq_refl). split.
    + intros _. destruct Gs as [[A B Cc E F Hh] Dc St Ab]. constructor; cbn [set_pc pc idx fin out chs].
      * constructor; auto. intros k K N. specialize (F k K N). unfold working in *. cbn [set_pc fin pc]. rewrite P in F. rewrite andb_false_r in F.
        cbn [set_pc chs]. rewrite F. cbn. rewrite andb_false_r. tauto.
      * exact Dc.
      * split; [reflexivity|]. split; [exact Sx|]. split; [exact Q|lia].
      * intros k K _. apply Ab; [exact K|]. rewrite P. exact I.
    + exists [], []. split; [reflexivity|]. split; [intros y []|]. split; [left; auto|]. left. cbn. rewrite P. repeat split; discriminate.
  - destruct (pc s) as [|k r| |] eqn:P; try discriminate. pose proof (g_start _ Gs) as Sx. rewrite P in Sx. destruct Sx as (-> & Ix & Nw & Lk).
    destruct (k <? n cf) eqn:L.
    + apply Nat.ltb_lt in L. injection H as H. exact (start_stepped _ _ _ _ Gs P L H).
    + apply Nat.ltb_ge in L. assert (k = n cf) as -> by lia. injection H as H.
      assert (G1 : G (set_pc (Waiting (n cf)) s)).
      { destruct Gs as [[A B Cc E F Hh] Dc St Ab]. constructor; cbn [set_pc pc idx fin out chs]; auto.
        - constructor; auto. intros j J N. specialize (F j J N). unfold working in *. cbn [set_pc fin pc chs]. rewrite P in F. exact F. }
      refine (good_settle s _ _ [] e (fun _ => G1) _ _ _ H); [intros y []|left; auto|]. cbn. rewrite P. split; discriminate.
  - destruct (may_run (pc s) l && negb (own cf l)) eqn:E; [|discriminate]. apply andb_true_iff in E as [E O]. apply negb_true_iff in O.
    assert (NS : forall k r, pc s <> Starting k r).
    { intros k r P. pose proof (g_start _ Gs) as Sx. rewrite P in Sx, E. destruct Sx as (-> & _). discriminate. }
    injection H as H. unfold seq2 in H. destruct (env_one cf c l s) as [s2 e2] eqn:En. destruct (settle cf s2) as [s3 e3] eqn:Se. injection H as <- <-.
    destruct (env_good _ _ _ _ _ Gs NS O En) as (A1 & A2 & A3 & A4 & _). refine (good_settle s s2 _ e2 e3 A1 A3 A4 _ Se). rewrite A2. reflexivity.
  - destruct (pc s) as [| |m|] eqn:P; try discriminate. injection H as H. 
    destruct (each_good (forward_one cf) m (fun s k s1 e => forward_good s k s1 e m) (seq 0 m) s s1 e) as [G1 (A1 & A2 & A3 & A4 & _)]; auto.
    { intros k K. apply in_seq in K. lia. }
    split; [exact A1|]. exists e, []. rewrite app_nil_r. split; [reflexivity|]. split; [exact A3|]. split; [exact A4|]. left. rewrite A2. split; reflexivity.
  - destruct (pc s) as [| |m|] eqn:P; try discriminate. injection H as H. unfold seq2 in H. destruct (each _ _ s) as [s2 e2] eqn:En. destruct (settle cf s2) as [s3 e3] eqn:Se. injection H as <- <-.
    destruct (each_good (interrupt_fork cf) m (fun s k s1 e => interrupt_fork_good s k s1 e m) (seq 0 m) s s2 e2) as [G1 (A1 & A2 & A3 & A4 & _)]; auto.
    { intros k K. apply in_seq in K. lia. }
    refine (good_settle s s2 _ e2 e3 A1 A3 A4 _ Se). rewrite A2. reflexivity.
Qed.

(** The whole run. *)
Definition result_of (s : rstate) : list (nat * V) := match idx s, out s with Some m, Some r => winnings m r | _, _ => [] end.
Definition sound (s : rstate) (tr : list revent) : Prop :=
  (ub s = false -> G s) /\ (idx s = None -> out s = None) /\ taken cf tr = result_of s /\ (forall c j, ~ In (TxThrow c j) tr) /\
  (pc s <> Returned /\ ends tr = [] \/ exists m r, pc s = Returned /\ idx s = Some m /\ out s = Some r /\ ends tr = [(m, r)]).
Lemma ends_app (a b : list revent) : ends (a ++ b) = ends a ++ ends b.
Proof. apply flat_map_app. Qed.
Lemma ends_only_c (e : list revent) : only_c e -> ends e = [].
Proof.
  induction e as [|x t IH]; intro H; [reflexivity|]. change (x :: t) with ([x] ++ t). rewrite ends_app, IH by (intros y Y; apply H; right; exact Y).
  destruct (H x (or_introl eq_refl)) as (c & y & ->). reflexivity.
Qed.
Lemma sound_step s tr l s1 e : ub s = false -> sound s tr -> (l = Await -> no_writer_waits cf s) -> rstep cf s l = Some (s1, e) -> sound s1 (tr ++ e).
Proof.
  intros U (Gs & Io & T & X & E) Q H. specialize (Gs U). destruct (rstep_stepped _ _ _ _ Gs Q H) as (G1 & e1 & e2 & -> & O1 & Ts & Cs).
  split; [exact G1|]. split; [|split; [|split]].
  - destruct Ts as [(B1 & B2 & _)|(_ & m & r & B1 & _)]; [rewrite B1, B2; exact Io|congruence].
  - assert (T2 : taken cf e2 = []) by (destruct Cs as [[-> _]|(i & r & -> & _)]; reflexivity).
    rewrite !taken_app, T2, T, app_nil_r. unfold result_of. destruct Ts as [(B1 & B2 & ->)|(B0 & m & r & B1 & B2 & ->)].
    + rewrite B1, B2. apply app_nil_r.
    + rewrite B0, B1, B2. reflexivity.
  - intros c j I. apply in_app_or in I as [I|I]; [exact (X _ _ I)|]. apply in_app_or in I as [I|I].
    + destruct (O1 _ I) as (c' & y & ?). discriminate.
    + destruct Cs as [[-> _]|(i & r & -> & _)]; cbn in I; [exact I|]. destruct I as [I|I]; [discriminate|exact I].
  - rewrite !ends_app, (ends_only_c _ O1). cbn [app]. destruct Cs as [[-> P]|(i & r & -> & C1 & C2 & C3 & C4)].
    + rewrite app_nil_r. destruct E as [[E1 E2]|(m & r & E1 & E2 & E3 & E4)].
      * left. split; [intro P1; apply E1, P, P1|exact E2].
      * right. exists m, r. split; [apply P, E1|]. destruct Ts as [(B1 & B2 & _)|(B0 & _)]; [rewrite B1, B2; auto|congruence].
    + right. exists i, r. destruct E as [[E1 E2]|(m & r' & E1 & _)]; [|congruence]. rewrite E2. auto.
Qed.
Lemma quiet_sound : forall ls a s tr s1 tr1, (forall p q sp ep, a ++ ls = p ++ Await :: q -> rrun cf (rinit cf) p = Some (sp, ep) -> no_writer_waits cf sp) ->
  rrun cf (rinit cf) a = Some (s, tr) -> sound s tr -> rrun cf s ls = Some (s1, tr1) -> sound s1 (tr ++ tr1).
Proof.
  induction ls as [|l t IH]; intros a s tr s1 tr1 Q Ra So H; cbn [rrun] in H.
  - injection H as <- <-. rewrite app_nil_r. exact So.
  - destruct (rstep cf s l) as [[s2 e2]|] eqn:St; [|discriminate]. destruct (rrun cf s2 t) as [[s3 e3]|] eqn:R; [|discriminate]. injection H as <- <-.
    assert (U : ub s = false) by (unfold rstep in St; destruct (ub s); [discriminate|reflexivity]).
    assert (So2 : sound s2 (tr ++ e2)).
    { apply (sound_step s tr l); auto. intros ->. exact (Q a t _ _ eq_refl Ra). }
    rewrite app_assoc. apply (IH (a ++ [l]) s2); auto.
    + intros p q sp ep E. apply (Q p q). rewrite <- E, <- app_assoc. reflexivity.
    + assert (Sn : forall xs s0 s' tr', rrun cf s0 xs = Some (s', tr') -> rstep cf s' l = Some (s2, e2) -> rrun cf s0 (xs ++ [l]) = Some (s2, tr' ++ e2)).
      { induction xs as [|y ys IHx]; intros s0 s' tr' Rx Sx; cbn [rrun app] in *.
        - injection Rx as <- <-. rewrite Sx. rewrite app_nil_r. reflexivity.
        - destruct (rstep cf s0 y) as [[sy ey]|]; [|discriminate]. destruct (rrun cf sy ys) as [[sz ez]|] eqn:Ry; [|discriminate]. injection Rx as <- <-.
          rewrite (IHx _ _ _ Ry Sx), app_assoc. reflexivity. }
      exact (Sn _ _ _ _ Ra St).
Qed.
Theorem quiet_run ls s tr : quiet_start cf ls -> rrun cf (rinit cf) ls = Some (s, tr) -> sound s tr.
Proof.
  intros Q H. apply (quiet_sound ls [] (rinit cf) [] s tr Q eq_refl); [|exact H].
  split; [intros _; apply init_G|]. split; [reflexivity|]. split; [reflexivity|]. split; [intros c j []|]. left. split; [discriminate|reflexivity].
Qed.
End Step.
