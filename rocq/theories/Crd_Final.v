(** The loop over a channel: the properties. *)
From Coq Require Import List Bool Arith Lia Permutation.
From Verif Require Import Channel_Model Channel_Spec Channel_Inv Channel_Ledger Channel_Complete Channel_Abs Channel_Disc Channel_Close Channel_Final Sel_Model Sel_Chan Gch_Chan Crd_Model Crd_Spec Crd_Inv Crd_Live.
Import ListNotations.

Section Final.
Context {V : Type}.
Notation cstate := (Channel_Model.state V).
Notation clabel := (Channel_Model.label V).
Notation cevent := (Channel_Model.event V).
Notation state := (Crd_Model.state V).
Notation event := (Crd_Model.event V).
Notation label := (Crd_Model.label V).
Notation step := (@Channel_Model.step V).
Notation run := (@Channel_Model.run V).

(** ** What the loop does is what its reads gave *)
Definition shape (s : state) (es : list event) : Prop :=
  let vs := visits es in
  match at_ s with
  | Body | Waiting => in_loop es = map Visit vs /\ own_reads es = map RVal vs
  | Left => (in_loop es = map Visit vs \/ in_loop es = map Visit vs ++ [Leave]) /\ own_reads es = map RVal vs
  | Threw => (in_loop es = map Visit vs ++ [Throw Broken] /\ own_reads es = map RVal vs ++ [RBroken]) \/
             (in_loop es = map Visit vs ++ [Throw Aborted] /\ own_reads es = map RVal vs ++ [RAborted])
  end.

Lemma shape_step (s : state) l s1 e1 es : RI s -> shape s es -> act s l s1 e1 -> shape s1 (es ++ e1).
Proof.
  intros Ri Sh A. unfold shape in *. rewrite visits_app, loop_app, own_app.
  assert (Q : forall cs : list cevent, (forall i r, In (ERead i r) cs -> Nat.even i = false) -> visits (map C cs) = [] /\ in_loop (map C cs) = [] /\ own_reads (map C cs) = []).
  { intros cs H. split; [apply visits_C|]. split; [apply loop_C|apply own_C, H]. }
  destruct A as [r Wh Ee|b El Pc Cd Ev|b El Pc Cd|El Pc|l0 El Ot Ev|El Pc Ev]; cbn [at_].
  - assert (Bw : in_loop es = map Visit (visits es) /\ own_reads es = map RVal (visits es)).
    { destruct Wh as [(l0 & _ & _ & Wh)|(b & _ & Wh & _)]; rewrite Wh in Sh; exact Sh. }
    destruct Bw as [B1 B2].
    assert (Ow : own_reads [C (ERead (mine s) r); report r] = [r]).
    { unfold own_reads. cbn [flat_map]. assert (Z : Nat.even (mine s) = true) by (unfold mine; rewrite Nat.even_mul; reflexivity). rewrite Z. destruct r; reflexivity. }
    rewrite Ow, B1, B2. destruct r as [v| |]; cbn; rewrite ?app_nil_r, ?map_app; auto.
  - rewrite Pc in Sh. destruct (Q _ Ev) as (-> & -> & ->). rewrite !app_nil_r. exact Sh.
  - rewrite Pc in Sh. destruct Sh as [S1 S2]. cbn. rewrite S1, S2, !app_nil_r. auto.
  - rewrite Pc in Sh. destruct Sh as [S1 S2]. cbn. rewrite S1, S2, !app_nil_r. auto.
  - destruct (Q _ Ev) as (-> & -> & ->). rewrite !app_nil_r. exact Sh.
  - destruct (Q _ Ev) as (-> & -> & ->). rewrite !app_nil_r. exact Sh.
Qed.

Lemma shaped lim ls (s : state) es : rrun (rinit lim) ls = Some (s, es) -> bad (chan s) = None -> shape s es.
Proof.
  intros R B. apply (lift (fun s es _ => shape s es) (fun s l s1 e1 es dn Ri Sh E A R1 => shape_step s l s1 e1 es Ri Sh A) ls (rinit lim) [] [] s es (RI_init lim)); auto.
  split; reflexivity.
Qed.

(** ** The only reader gets everything that is delivered *)
Definition val (r : rresult V) : list V := match r with RVal v => [v] | _ => [] end.
Lemma delivered_own (es : list event) : (forall i r, In (ERead i r) (on_channel es) -> Nat.even i = true) -> delivered (on_channel es) = flat_map val (own_reads es).
Proof.
  induction es as [|[[i r|i v r]|v| |x] t IH]; cbn; intro H; auto.
  - rewrite (H i r) by auto. cbn. rewrite <- IH by eauto. destruct r; reflexivity.
  - apply IH. eauto.
Qed.
Lemma val_map (vs : list V) : flat_map val (map RVal vs) = vs.
Proof. induction vs; cbn; [reflexivity|]. now f_equal. Qed.
Lemma shape_own (s : state) es : shape s es -> flat_map val (own_reads es) = visits es.
Proof.
  unfold shape. destruct (at_ s); [intros [_ ->]|intros [_ ->]|intros [_ ->]|intros [[_ ->]|[_ ->]]]; rewrite ?flat_map_app; cbn; rewrite ?app_nil_r; apply val_map.
Qed.

Lemma only_delivered lim ls (s : state) es : rrun (rinit lim) ls = Some (s, es) -> bad (chan s) = None -> only_reader ls -> delivered (on_channel es) = visits es.
Proof.
  intros R B Or. destruct (tracked lim ls s es R B) as [Ri (_ & cls & T2 & _ & T4)]. destruct (T4 Or) as [Al _].
  rewrite delivered_own; [exact (shape_own s es (shaped lim ls s es R B))|].
  intros i r J. destruct (Nat.even i) eqn:E; [reflexivity|]. exfalso.
  pose proof (Rhist _ _ _ _ _ T2) as Hh. destruct (h_r _ _ _ Hh i) as [_ Rk].
  { apply in_completed_reads. eauto. }
  assert (Ab : st (chan s) i = Absent) by (apply Al; unfold Nat.odd; now rewrite E). unfold rst, st in *. rewrite Ab in Rk. cbn in Rk. lia.
Qed.

Lemma only_held (s : state) : RI s -> alone s -> at_ s <> Waiting -> held (chan s) = [].
Proof. intros Ri Al Pc. destruct (alone_quiet s Ri Al Pc) as [_ Q]. unfold held. now rewrite Q. Qed.

Lemma conserved lim ls (s : state) es : rrun (rinit lim) ls = Some (s, es) -> bad (chan s) = None -> only_reader ls ->
  Permutation (visits es ++ buf (chan s) ++ held (chan s)) (written (on_channel es) ++ handed (chan s)) /\
  (at_ s <> Waiting -> held (chan s) = []).
Proof.
  intros R B Or. pose proof (only_delivered lim ls s es R B Or) as D. destruct (tracked lim ls s es R B) as [Ri (_ & cls & T2 & _ & T4)]. destruct (T4 Or) as [Al _]. split.
  - rewrite <- D. exact (proj1 (conservation lim cls (chan s) (on_channel es) T2 B)).
  - intro Pc. now apply only_held.
Qed.

Lemma fine_spw : fine (V := V) (both one_writer (both fresh prompt)).
Proof. intros c k. reflexivity. Qed.
Lemma fine_fp : fine (V := V) (both fresh prompt).
Proof. intros c k. reflexivity. Qed.

Lemma obeys_spsc (ks : list clabel) (c : cstate) : obeys one_reader c ks = true -> obeys (both one_writer (both fresh prompt)) c ks = true -> obeys spsc c ks = true.
Proof. unfold spsc. rewrite !obeys_both. intros H1 H2. rewrite H1. apply andb_true_iff in H2. destruct H2 as [H2 H3]. rewrite H2. exact H3. Qed.

Lemma ordered lim ls (s : state) es : rrun (rinit lim) ls = Some (s, es) -> only_reader ls -> robeys (both one_writer (both fresh prompt)) (rinit lim) ls ->
  bad (chan s) = None /\ visits es ++ buf (chan s) ++ held (chan s) = written (on_channel es) ++ handed (chan s) /\
  (at_ s <> Waiting -> held (chan s) = []).
Proof.
  intros R Or O. assert (B : bad (chan s) = None).
  { apply (safe lim true _ fine_spw) with (ls := ls) (es := es); auto. intros cls H. unfold guard in H. rewrite obeys_both in H. apply andb_true_iff in H. destruct H as [H1 H2].
    apply spsc_safe. now apply obeys_spsc. }
  split; [exact B|]. pose proof (only_delivered lim ls s es R B Or) as D. destruct (tracked lim ls s es R B) as [Ri (_ & cls & T2 & T3 & T4)]. destruct (T4 Or) as [Al O1]. split.
  - rewrite <- D. exact (proj2 (proj2 (spsc_order lim cls (chan s) (on_channel es) T2 (obeys_spsc _ _ O1 (T3 _ fine_spw O))))).
  - intro Pc. now apply only_held.
Qed.

Lemma rendezvous ls (s : state) es : rrun (rinit 0) ls = Some (s, es) -> only_reader ls -> robeys (both fresh prompt) (rinit 0) ls -> at_ s <> Waiting ->
  bad (chan s) = None /\ Permutation (visits es) (written (on_channel es) ++ handed (chan s)).
Proof.
  intros R Or O Pc. assert (B : bad (chan s) = None).
  { apply (safe 0 false _ fine_fp) with (ls := ls) (es := es); auto; try discriminate. intros cls H. unfold guard in H. rewrite obeys_both in H. apply andb_true_iff in H. destruct H as [_ H2].
    exact (proj1 (rendezvous_safe false cls H2)). }
  split; [exact B|]. pose proof (only_delivered 0 ls s es R B Or) as D. destruct (tracked 0 ls s es R B) as [Ri (_ & cls & T2 & T3 & T4)]. destruct (T4 Or) as [Al _].
  rewrite <- D. pose proof (proj1 (rendezvous_pairs cls (chan s) (on_channel es) T2 (T3 _ fine_fp O))) as P. rewrite (only_held s Ri Al Pc), app_nil_r in P. exact P.
Qed.

(** ** Why the loop ends *)
Definition why (s : state) (es : list event) (dn : list label) : Prop :=
  (In Leave es -> closed (chan s) = true) /\ (In (Throw Broken) es -> closed (chan s) = true) /\
  (In (Throw Aborted) es -> closed (chan s) = true \/ In RCancel dn) /\
  (at_ s = Waiting -> can (chan s) (mine s) = true -> closed (chan s) = true \/ In RCancel dn).

Lemma act_closed (s : state) l s1 e1 : RI s -> act s l s1 e1 -> RI s1 -> closed (chan s) = true -> closed (chan s1) = true.
Proof.
  intros Ri A R1 H. pose proof (act_run s l s1 e1 Ri A R1) as E. destruct (run_const (ops s l ++ tail_ops s e1) (chan s)) as (_ & _ & _ & K). rewrite E in K. exact (K H).
Qed.

Lemma why_step (s : state) l s1 e1 es dn : RI s -> why s es dn -> act s l s1 e1 -> RI s1 -> why s1 (es ++ e1) (dn ++ [l]).
Proof.
  intros Ri (W1 & W2 & W3 & W4) A R1. pose proof (act_closed s l s1 e1 Ri A R1) as Mo.
  assert (K : (In Leave e1 -> closed (chan s1) = true) -> (In (Throw Broken) e1 -> closed (chan s1) = true) -> (In (Throw Aborted) e1 -> closed (chan s1) = true \/ In RCancel (dn ++ [l])) ->
    (at_ s1 = Waiting -> can (chan s1) (mine s1) = true -> closed (chan s1) = true \/ In RCancel (dn ++ [l])) -> why s1 (es ++ e1) (dn ++ [l])).
  { intros K1 K2 K3 K4. split; [|split; [|split]]; auto; rewrite in_app_iff; intros [H|H]; auto. destruct (W3 H) as [X|X]; [auto|]. right. apply in_or_app. auto. }
  assert (NC : forall x cs, match x with C _ => False | _ => True end -> ~ In x (map (@C V) cs)) by (intros x cs Hx J; apply in_map_iff in J; destruct J as (y & <- & _); exact Hx).
  destruct A as [r Wh Ee|b El Pc Cd Ev|b El Pc Cd|El Pc|l0 El Ot Ev|El Pc Ev].
  - assert (Re : reason (chan s) (mine s) r).
    { destruct Wh as [(l0 & El & Ot & Wh)|(b & El & Pc & Cd)]; subst l; cbn [ops] in Ee.
      - cbn [Channel_Model.run] in Ee. apply (fails (chan s) l0); [now apply others_acts|]. destruct (step (chan s) l0) as [c e]. cbn [snd] in *. rewrite app_nil_r in Ee. rewrite Ee. left. reflexivity.
      - rewrite Cd in Ee. cbn [Channel_Model.run] in Ee. pose proof (ri_cur _ Ri) as Cu. rewrite Pc in Cu. rewrite (made (chan s) (mine s) (ri_bad _ Ri) Cu) in Ee. set (c1 := set_r _ _ (chan s)) in *.
        destruct (opens c1 (mine s) b) as [X _]; [exact (ri_bad _ Ri)|unfold condition in Cd; destruct (closed (chan s)) eqn:Q; [discriminate|exact Q]|unfold c1, set_r; cbn [rops]; unfold upd; now rewrite Nat.eqb_refl|].
        destruct (step c1 (AwRead (mine s) b)) as [c2 e2]. cbn [snd app] in *. rewrite app_nil_r in Ee. subst e2. destruct (X r (or_introl eq_refl)) as [v ->]. exact Logic.I. }
    assert (Wt : can (chan s) (mine s) = true -> r = RAborted -> closed (chan s) = true \/ In RCancel dn).
    { intros Cn ->. destruct Wh as [(l0 & El & Ot & Wh)|(b & El & Pc & Cd)]; [auto|]. exfalso. subst l. cbn [ops] in Ee. rewrite Cd in Ee. cbn [Channel_Model.run] in Ee. pose proof (ri_cur _ Ri) as Cu. rewrite Pc in Cu. rewrite (made (chan s) (mine s) (ri_bad _ Ri) Cu) in Ee. set (c1 := set_r _ _ (chan s)) in *.
        destruct (opens c1 (mine s) b) as [X _]; [exact (ri_bad _ Ri)|unfold condition in Cd; destruct (closed (chan s)) eqn:Q; [discriminate|exact Q]|unfold c1, set_r; cbn [rops]; unfold upd; now rewrite Nat.eqb_refl|].
        destruct (step c1 (AwRead (mine s) b)) as [c2 e2]. cbn [snd app] in *. rewrite app_nil_r in Ee. subst e2. destruct (X _ (or_introl eq_refl)) as [v X1]. discriminate. }
    apply K.
    + intros [H|[H|[]]]; [discriminate|destruct r; discriminate].
    + intros [H|[H|[]]]; [discriminate|]. destruct r; try discriminate. apply Mo. exact Re.
    + intros [H|[H|[]]]; [discriminate|]. destruct r; try discriminate. destruct (Wt Re eq_refl) as [H1|H1]; [left; apply Mo, H1|right; apply in_or_app; auto].
    + destruct r; discriminate.
  - apply K; try (intro J; exfalso; revert J; apply NC; exact Logic.I). intros _ Cn. exfalso. subst l. cbn [ops] in Cn. rewrite Cd in Cn. unfold mine in Cn at 3. cbn [turn chan] in Cn. fold (mine s) in Cn.
    cbn [Channel_Model.run] in Cn. pose proof (ri_cur _ Ri) as Cu. rewrite Pc in Cu. rewrite (made (chan s) (mine s) (ri_bad _ Ri) Cu) in Cn. set (c1 := set_r _ _ (chan s)) in *.
    destruct (opens c1 (mine s) b) as [_ X]; [exact (ri_bad _ Ri)|unfold condition in Cd; destruct (closed (chan s)) eqn:Q; [discriminate|exact Q]|unfold c1, set_r; cbn [rops]; unfold upd; now rewrite Nat.eqb_refl|].
    destruct (step c1 (AwRead (mine s) b)) as [c2 e2]. cbn [fst snd app] in *. congruence.
  - apply K.
    + intros _. cbn. unfold condition in Cd. destruct (closed (chan s)); [reflexivity|discriminate].
    + intros [H|[]]. discriminate.
    + intros [H|[]]. discriminate.
    + discriminate.
  - apply K; [intros []|intros []|intros []|discriminate].
  - apply K; try (intro J; exfalso; revert J; apply NC; exact Logic.I). cbn [at_]. intros Pc Cn. subst l. cbn [ops Channel_Model.run] in *.
    change (mine (mk (fst (let '(s2, e0) := step (chan s) l0 in (s2, e0 ++ []))) (turn s) (at_ s))) with (mine s) in Cn. cbn [chan] in *.
    assert (E : fst (let '(s2, e0) := step (chan s) l0 in (s2, e0 ++ [])) = fst (step (chan s) l0)) by (destruct (step (chan s) l0); reflexivity). rewrite E in *.
    assert (D : l0 = Close \/ l0 <> Close) by (destruct l0; auto; right; discriminate). destruct D as [->|D].
    + left. apply close_closed. exact (ri_bad _ Ri).
    + rewrite step_can in Cn; [|now apply others_acts|exact D]. destruct (W4 Pc Cn) as [X|X]; [left; apply Mo, X|right; apply in_or_app; auto].
  - apply K; try (intro J; exfalso; revert J; apply NC; exact Logic.I). intros _ _. right. apply in_or_app. right. left. exact El.
Qed.

Lemma ends lim ls (s : state) es : rrun (rinit lim) ls = Some (s, es) -> bad (chan s) = None -> why s es ls.
Proof.
  intros R B. apply (lift why (fun s l s1 e1 es dn Ri W E A R1 => why_step s l s1 e1 es dn Ri W A R1) ls (rinit lim) [] [] s es (RI_init lim)); auto.
  split; [intros []|]. split; [intros []|]. split; [intros []|]. discriminate.
Qed.
(** ** After the channel has been closed *)
Lemma closed_over ls (s s1 : state) es : RI s -> at_ s = Body -> closed (chan s) = true -> rrun s ls = Some (s1, es) -> bad (chan s1) = None ->
  (at_ s1 = Body /\ in_loop es = []) \/ (at_ s1 = Left /\ (in_loop es = [] \/ in_loop es = [Leave])).
Proof.
  intros Ri Pc Cl R B.
  pose (J := fun (x : state) (e : list event) (_ : list label) => closed (chan x) = true /\ ((at_ x = Body /\ in_loop e = []) \/ (at_ x = Left /\ (in_loop e = [] \/ in_loop e = [Leave])))).
  destruct (lift J) with (ls := ls) (s := s) (es := @nil event) (done := @nil label) (s1 := s1) (e1 := es) as (_ & _ & H); auto; [|split; auto].
  clear. intros s l s1 e1 es dn Ri (Cl & H) E A R1. split; [exact (act_closed s l s1 e1 Ri A R1 Cl)|]. rewrite loop_app.
  destruct A as [r Wh Ee|b El Pc Cd Ev|b El Pc Cd|El Pc|l0 El Ot Ev|El Pc Ev]; cbn [at_].
  - exfalso. destruct Wh as [(l0 & _ & _ & Wh)|(b & _ & _ & Cd)]; [destruct H as [[H _]|[H _]]; congruence|]. unfold condition in Cd. rewrite Cl in Cd. discriminate.
  - exfalso. unfold condition in Cd. rewrite Cl in Cd. discriminate.
  - destruct H as [[_ H]|[H _]]; [|congruence]. rewrite H. cbn. auto.
  - destruct H as [[_ H]|[H _]]; [|congruence]. rewrite H. cbn. auto.
  - rewrite loop_C, app_nil_r. exact H.
  - rewrite loop_C, app_nil_r. exact H.
Qed.

Lemma follow ls (s s1 : state) es : RI s -> rrun s ls = Some (s1, es) -> bad (chan s1) = None -> exists cls, run (chan s) cls = (chan s1, on_channel es).
Proof.
  intros Ri R B.
  destruct (lift (fun x e _ => exists cls, run (chan s) cls = (chan x, on_channel e))) with (ls := ls) (s := s) (es := @nil event) (done := @nil label) (s1 := s1) (e1 := es) as (_ & H); auto; [|exists []; reflexivity].
  intros x l x1 e1 e dn Rx [cls H] E A R1. exists (cls ++ (ops x l ++ tail_ops x e1)). rewrite run_app2, H. cbn [fst snd]. rewrite (act_run x l x1 e1 Rx A R1), onch_app. reflexivity.
Qed.

Lemma closed_waiting lim ls0 s0 es0 ls (s1 : state) es : rrun (rinit lim) ls0 = Some (s0, es0) -> bad (chan s0) = None -> In (mine s0) (rq (chan s0)) ->
  rrun s0 (RChan Close :: ls) = Some (s1, es) -> bad (chan s1) = None ->
  (at_ s1 = Waiting /\ in_loop es = []) \/ (at_ s1 = Threw /\ exists x, in_loop es = [Throw x]).
Proof.
  intros R0 B0 Q R B. destruct (tracked lim ls0 s0 es0 R0 B0) as [Ri (_ & cls0 & T2 & _)].
  assert (St : st (chan s0) (mine s0) = Awaited \/ st (chan s0) (mine s0) = Finished).
  { destruct (inv_r _ (ri_chan _ Ri)) as (_ & _ & L). destruct (L (mine s0)) as (L1 & _). cbn in L1. destruct (L1 Q) as [[[A _]|[A _]] _]; auto. }
  assert (Pc : at_ s0 = Waiting). { pose proof (ri_cur _ Ri) as Cu. destruct (at_ s0); auto; destruct St; congruence. }
  cbn [rrun] in R. destruct (rstep s0 (RChan Close)) as [[s2 e2]|] eqn:E; [|discriminate]. destruct (rrun s2 ls) as [[s3 e3]|] eqn:F; [|discriminate]. injection R as -> <-.
  pose proof (rrun_bad _ _ _ _ F B) as B2. destruct (sound s0 _ s2 e2 Ri E B2) as [R2 _].
  assert (Z : e2 = [] /\ chan s2 = fst (step (chan s0) Close) /\ mine s2 = mine s0 /\ at_ s2 = Waiting).
  { unfold rstep in E. cbn [Crd_Model.possible others ops Channel_Model.run] in E. unfold Channel_Model.step in *. rewrite (ri_bad _ Ri) in *. cbn [step_ok app fst Crd_Model.result map] in *. injection E as <- <-. auto. }
  destruct Z as (-> & Z2 & Z3 & Z4). destruct (follow ls s2 s1 e3 R2 F B) as [cls Fo].
  assert (W : forall r, In (ERead (mine s0) r) (on_channel e3) -> r = RBroken \/ r = RAborted).
  { pose proof (waiting_operations_fail false lim cls0 cls (chan s0) (on_channel es0) T2 B0) as X. rewrite run_cons in X. cbn [fst snd] in X. rewrite <- Z2, Fo in X. cbn [fst snd] in X.
    assert (Y : snd (step (chan s0) Close) = []). { unfold Channel_Model.step. rewrite B0. reflexivity. } rewrite Y in X. cbn [app] in X. destruct (X B) as [X1 _]. intros r. apply X1. exact Q. }
  cbn [app].
  pose (J := fun (x : state) (e : list event) (_ : list label) => (at_ x = Waiting /\ mine x = mine s0 /\ in_loop e = []) \/ (at_ x = Threw /\ exists y, in_loop e = [Throw y]) \/ exists v, In (ERead (mine s0) (RVal v)) (on_channel e)).
  destruct (lift J) with (ls := ls) (s := s2) (es := @nil event) (done := @nil label) (s1 := s1) (e1 := e3) as (_ & H); auto.
  - clear. intros s l s1 e1 es dn Ri H E A R1. unfold J in *. rewrite loop_app, onch_app.
    destruct H as [(Pc & M & L)|[(Pc & y & L)|(v & L)]]; [| |right; right; exists v; apply in_or_app; auto].
    + destruct A as [r Wh Ee|b El Pc' Cd Ev|b El Pc' Cd|El Pc'|l0 El Ot Ev|El Pc' Ev]; cbn [at_]; try congruence.
      * rewrite L, M. destruct r as [v| |]; [right; right; exists v; apply in_or_app; right; left; reflexivity|right; left; cbn; eauto|right; left; cbn; eauto].
      * left. rewrite loop_C, app_nil_r. auto.
      * left. rewrite loop_C, app_nil_r. auto.
    + destruct A as [r Wh Ee|b El Pc' Cd Ev|b El Pc' Cd|El Pc'|l0 El Ot Ev|El Pc' Ev]; cbn [at_]; try congruence.
      * exfalso. destruct Wh as [(l0 & _ & _ & Wh)|(b & _ & Wh & _)]; congruence.
      * right. left. rewrite loop_C, app_nil_r. eauto.
  - left. auto.
  - unfold J in H. cbn [app] in H. destruct H as [(H1 & _ & H2)|[H|(v & H)]]; [auto|auto|]. destruct (W _ H); discriminate.
Qed.

(** ** When the loop waits *)
Lemma oneR_buf_step void lim t a ev a' : eff (V := V) void lim t a ev a' -> (t = TAwR -> ar a = [] /\ jr a = []) -> OneR a ->
  (ar a <> [] -> bf a = []) -> ar a' <> [] -> bf a' = [].
Proof.
  unfold OneR. intros E T O H.
  destruct E as
   [t a|a x c y Ej|a x v c k y Ej|a x y Ea|a x v y Ea|a x y Ea|a x v y Ea|a x y i r Ea Hf|a x v y i r Ea Hf
   |a i r Hf|a i v r b Hf|a Eb Ec Ea|a v b Eb Ec Ea|a j v q Eb Ec Er Ew|a i v q u b' b Eb Ec Ew Er Et|a i u b' Et Hv
   |a j v b Eb Hc|a x d c y i r Ej Hf Hdd Hcc|a x d y i u b' Ej Et Hv|a x v c k y i r Ej Hf Hk|a x v y i Ej|a x v y i Ej Eb|a];
   unfold setbf in *; cbn [cl bf ar aw jr jw] in *; auto; try congruence;
   try (intros _; apply H; rewrite Ea; apply nil_mid).
  - rewrite Er in O. cbn in O. destruct q; [congruence|cbn in O; lia].
  - destruct (T eq_refl) as [T1 _]. unfold wkw. cbn [cl bf ar aw jr jw]. rewrite T1 in *. destruct (aw a) as [|z q]; cbn [ar]; [congruence|]. destruct (_ || _); cbn [ar]; congruence.
  - unfold wkr. cbn [cl bf ar aw jr jw]. destruct (ar a) as [|z q] eqn:Ea; cbn [ar bf]; [congruence|]. cbn in O. destruct q; [|cbn in O; lia].
    destruct (_ || _) eqn:Z; cbn [ar bf]; [congruence|]. apply orb_false_iff in Z. destruct (bf a); cbn in Z; destruct Z; discriminate.
  - assert (ar a = []). { rewrite Ej, app_length in O. cbn in O. destruct (ar a); [reflexivity|cbn in O; lia]. } unfold wkw. cbn [cl bf ar aw jr jw]. destruct (aw a) as [|z q]; cbn [ar]; [congruence|]. destruct (_ || _); cbn [ar]; congruence.
  - unfold wkr. cbn [cl bf ar aw jr jw]. destruct (ar a) as [|z q] eqn:Ea; cbn [ar bf]; [congruence|]. cbn in O. destruct q; [|cbn in O; lia].
    destruct (_ || _) eqn:Z; cbn [ar bf]; [congruence|]. intros _. apply H. discriminate.
  - unfold wkr. cbn [cl bf ar aw jr jw]. destruct (ar a) as [|z q] eqn:Ea; cbn [ar bf]; [congruence|]. cbn in O. destruct q; [|cbn in O; lia].
    destruct (_ || _) eqn:Z; cbn [ar bf]; [congruence|]. apply orb_false_iff in Z. destruct (bf a); cbn in Z; destruct Z; discriminate.
Qed.

Lemma one_reader_buf lim (cls : list clabel) c evs : run (init false lim) cls = (c, evs) -> bad c = None -> obeys one_reader (init false lim) cls = true -> rq c <> [] -> buf c = [].
Proof.
  intros R B O Q.
  destruct (run_lift one_reader (fun s (_ : list cevent) => OneR (abs s) /\ (ar (abs s) <> [] -> bf (abs s) = [])) (fun _ => True)) with (ls := cls) (s := init (V := V) false lim) (e := @nil cevent) as [(?&I&_&H)|(h & E & _)]; auto using init_inv.
  - intros s l e I B0 B' [J1 J2] P. pose proof (step_eff s l I B') as Ef. pose proof (one_reader_tag s l P) as T. split; [eapply oneR_step; eauto|eapply oneR_buf_step; eauto].
  - rewrite abs_init. split; [unfold OneR; cbn; lia|reflexivity].
  - rewrite R in H. cbn [fst] in H. apply H. unfold abs, rq_abs. cbn [ar]. destruct (rq c); [congruence|discriminate].
  - rewrite R in E. cbn in E. congruence.
Qed.

Lemma waits lim ls (s : state) es : rrun (rinit lim) ls = Some (s, es) -> bad (chan s) = None -> only_reader ls -> at_ s = Waiting -> idle (chan s) ->
  closed (chan s) = false /\ buf (chan s) = [] /\ wq (chan s) = [].
Proof.
  intros R B Or Pc Id. destruct (tracked lim ls s es R B) as [Ri (_ & cls & T2 & _ & T4)]. destruct (T4 Or) as [Al O1].
  pose proof (ri_cur _ Ri) as Cu. rewrite Pc in Cu. unfold idle in Id.
  destruct (awaited_somewhere_r (chan s) (mine s) (ri_chan _ Ri) Cu) as [[Q _]|Q]; [|rewrite Id in Q; destruct Q].
  assert (Nq : rq (chan s) <> []) by (intro Z; rewrite Z in Q; destruct Q). split; [|split].
  - destruct (closed (chan s)) eqn:Cl; [|reflexivity]. destruct (inv_closed _ (ri_chan _ Ri) Cl). contradiction.
  - exact (one_reader_buf lim cls (chan s) (on_channel es) T2 B O1 Nq).
  - destruct (inv_excl _ (ri_chan _ Ri)); [contradiction|assumption].
Qed.

Lemma served lim ls (s : state) es : rrun (rinit lim) ls = Some (s, es) -> bad (chan s) = None -> at_ s = Waiting -> ~ In (mine s) (rq (chan s)) ->
  exists k s1 e1, rstep s (RChan (Run k)) = Some (s1, e1) /\ (bad (chan s1) = None -> (exists v, in_loop e1 = [Visit v]) \/ exists x, in_loop e1 = [Throw x]).
Proof.
  intros R B Pc Nq. destruct (tracked lim ls s es R B) as [Ri _]. pose proof (ri_cur _ Ri) as Cu. rewrite Pc in Cu.
  destruct (awaited_somewhere_r (chan s) (mine s) (ri_chan _ Ri) Cu) as [[Q _]|Q]; [contradiction|]. apply in_rjobs, In_nth_error in Q. destruct Q as [k Q].
  destruct (rstep s (RChan (Run k))) as [[s1 e1]|] eqn:E.
  - exists k, s1, e1. split; [exact E|]. intro B1. destruct (sound s _ s1 e1 Ri E B1) as [R1 A].
    destruct A as [r Wh Ee|b El Pc' Cd Ev|b El Pc' Cd|El Pc'|l0 El Ot Ev|El Pc' Ev]; try discriminate; [destruct r; cbn; eauto|].
    exfalso. pose proof (ri_cur _ R1) as C1. cbn [at_ chan] in C1. rewrite Pc in C1.
    match type of C1 with st ?c ?m = _ => change m with (mine s) in C1 end.
    cbn [ops] in C1. cbn [Channel_Model.run] in C1. unfold Channel_Model.step in C1. rewrite B in C1. cbn [step_ok] in C1. unfold run_job in C1. rewrite Q in C1. unfold st in Cu. rewrite Cu in C1. cbn [is_awaited] in C1.
    match type of C1 with context [read_resume ?x (mine s)] => pose proof (read_resume_self x (mine s)) as X; destruct (read_resume x (mine s)) as [y z] end. cbn [fst] in *. unfold st in C1. rewrite X in C1. discriminate.
  - exfalso. unfold rstep in E. cbn [Crd_Model.possible others] in E. destruct (run _ _). destruct (Crd_Model.result _ _); discriminate.
Qed.
End Final.
