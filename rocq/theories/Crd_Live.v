(** The loop over a channel: how it follows the channel, why it ends, when it waits. *)
From Coq Require Import List Bool Arith Lia Permutation.
From Verif Require Import Channel_Model Channel_Spec Channel_Inv Channel_Ledger Channel_Complete Channel_Abs Channel_Disc Channel_Close Channel_Final Sel_Model Sel_Chan Gch_Chan Crd_Model Crd_Spec Crd_Inv.
Import ListNotations.

Section Live.
Context {V : Type}.
Notation cstate := (Channel_Model.state V).
Notation clabel := (Channel_Model.label V).
Notation cevent := (Channel_Model.event V).
Notation state := (Crd_Model.state V).
Notation event := (Crd_Model.event V).
Notation label := (Crd_Model.label V).
Notation step := (@Channel_Model.step V).
Notation run := (@Channel_Model.run V).
Notation result := (@Crd_Model.result V).

Definition can (c : cstate) (k : nat) : bool := r_cancelled (rops c k).

(** *** Cancellation flags *)
Lemma ww_can s k : can (wake_writer s) k = can s k.
Proof. unfold wake_writer. destruct (wq s); auto. destruct (negb _); auto. destruct (write_ready s); auto. destruct (w_handle _); auto. Qed.
Lemma wr_can s k : can (wake_reader s) k = can s k.
Proof.
  unfold wake_reader. destruct (rq s) as [|i q]; auto. destruct (negb _); auto. destruct (read_ready s); auto. destruct (r_handle _); auto.
  unfold can, post, set_posted, set_r, set_rq. cbn. unfold upd. destruct (Nat.eqb_spec k i) as [->|]; reflexivity.
Qed.
Lemma fin_can (s : cstate) i k : can (set_r i (r_finish (rops s i)) s) k = can s k.
Proof. unfold can, set_r. cbn. unfold upd. destruct (Nat.eqb_spec k i) as [->|]; reflexivity. Qed.
Lemma rr_can s i k : can (fst (read_resume s i)) k = can s k.
Proof.
  unfold read_resume. destruct (read_broken _ _); [apply fin_can|]. destruct (r_cancelled _); [apply fin_can|].
  destruct (buf _), (r_direct _); cbn [fst]; rewrite ?ww_can; apply (fin_can s i k).
Qed.
Lemma wres_can s j k : can (fst (write_resume s j)) k = can s k.
Proof.
  unfold write_resume. destruct (w_val _); [|reflexivity]. destruct (w_closed _); [reflexivity|]. destruct (w_cancelled _); [reflexivity|].
  destruct (w_direct _); [cbn [fst]; rewrite wr_can; reflexivity|]. destruct (full _); [reflexivity|]. cbn [fst]. rewrite wr_can. reflexivity.
Qed.

Lemma step_can (c : cstate) l k : ~ acts false k l -> l <> Close -> can (fst (step c l)) k = can c k.
Proof.
  intros N NC. unfold Channel_Model.step. destruct (bad c); [reflexivity|].
  assert (Sr : forall i o (x : cstate), i <> k -> can (set_r i o x) k = can x k) by (intros i o x E; unfold can, set_r; cbn; unfold upd; destruct (Nat.eqb_spec k i); [congruence|reflexivity]).
  destruct l; cbn [step_ok]; cbn in N.
  - destruct (r_stage (rops c i)); cbn [fst]; try reflexivity. apply Sr. tauto.
  - destruct (r_stage (rops c i)); cbn [fst]; try reflexivity. unfold read_await. destruct (read_ready c || _); [apply rr_can|].
    destruct (wq c) as [|j q]; [(apply Sr; tauto)|]. destruct (w_handle _); [rewrite wres_can|]; (apply Sr; tauto).
  - destruct (w_stage (wops c i)); reflexivity.
  - destruct (w_stage (wops c i)); cbn [fst]; try reflexivity. unfold write_await. destruct (write_ready c || _); [apply wres_can|].
    destruct (rq c) as [|j q]; [reflexivity|].
    assert (E : forall x : cstate, rops x = upd (rops c) j (Channel_Model.mkR (r_stage (rops c j)) (r_cancelled (rops c j)) (w_val (wops c i)) (r_slot (rops c j)) false) -> can x k = can c k).
    { intros x Ex. unfold can. rewrite Ex. unfold upd. destruct (Nat.eqb_spec k j) as [->|]; reflexivity. }
    destruct (r_handle _); [rewrite rr_can|]; apply E; reflexivity.
  - cbn [fst]. unfold read_cancel. destruct (r_slot _); [|reflexivity]. destruct (r_handle _); (apply Sr; tauto).
  - cbn [fst]. unfold write_cancel. destruct (w_slot _); [|reflexivity]. destruct (w_handle _); reflexivity.
  - assert (Q : can (fst (read_interrupt c i)) k = can c k). { unfold read_interrupt. destruct (is_some _); [reflexivity|]. destruct (r_handle _); [rewrite rr_can|]; (apply Sr; tauto). }
    destruct (r_stage (rops c i)); cbn [fst]; auto.
  - assert (Q : can (fst (write_interrupt c i)) k = can c k). { unfold write_interrupt. destruct (w_direct _); [reflexivity|]. destruct (w_handle _); [rewrite wres_can|]; reflexivity. }
    destruct (w_stage (wops c i)); cbn [fst]; auto.
  - destruct (r_stage (rops c i)); cbn [fst]; try reflexivity; (apply Sr; tauto).
  - destruct (w_stage (wops c i)); reflexivity.
  - congruence.
  - unfold run_job. destruct (nth_error _ _) as [[i|i]|]; [| |reflexivity].
    + destruct (is_awaited _); [rewrite rr_can|]; reflexivity.
    + destruct (is_awaited _); [rewrite wres_can|]; reflexivity.
Qed.

(** *** Why a read fails *)
Definition reason (c : cstate) (k : nat) (r : rresult V) : Prop :=
  match r with RVal _ => True | RAborted => can c k = true | RBroken => closed c = true end.

Lemma rr_reason (s : cstate) i k r : In (ERead k r) (snd (read_resume s i)) -> reason s k r.
Proof.
  unfold read_resume. destruct (read_broken _ _) eqn:Rb.
  - intros [E|[]]. injection E as <- <-. unfold read_broken in Rb. cbn in Rb. cbn. destruct (closed s); [reflexivity|discriminate].
  - destruct (r_cancelled _) eqn:Cn; [intros [E|[]]; injection E as <- <-; exact Cn|]. destruct (buf _), (r_direct _); cbn [snd]; intro J; try (destruct J); try contradiction; injection H as <- <-; exact Logic.I.
Qed.

Lemma fails (c : cstate) l k r : ~ acts false k l -> In (ERead k r) (snd (step c l)) -> reason c k r.
Proof.
  intros N. unfold Channel_Model.step. destruct (bad c); [intros []|]. destruct l; cbn [step_ok] in *; cbn [snd]; try (intros []).
  - destruct (r_stage (rops c i)); intros [].
  - cbn in N. destruct (r_stage (rops c i)); try (intros []). unfold read_await. destruct (read_ready c || _).
    + intro J. apply read_resume_evs in J. subst. tauto.
    + destruct (wq c) as [|j q]; [intros []|]. destruct (w_handle _); [|intros []]. intro J. now apply write_resume_evs in J.
  - destruct (w_stage (wops c i)); intros [].
  - destruct (w_stage (wops c i)); try (intros []). unfold write_await. destruct (write_ready c || _).
    + intro J. now apply write_resume_evs in J.
    + destruct (rq c) as [|j q] eqn:Q; [intros []|]. destruct (r_handle _) eqn:Hh; [|intros []]. intro J. pose proof (read_resume_evs _ _ _ _ J). subst j. apply rr_reason in J.
      unfold reason, can in *. destruct r; auto. cbn in J. unfold upd in J. rewrite Nat.eqb_refl in J. exact J.
  - cbn in N. assert (Q : In (ERead k r) (snd (read_interrupt c i)) -> i = k). { unfold read_interrupt. destruct (is_some _); [intros []|]. destruct (r_handle _); [|intros []]. intro J. symmetry. exact (read_resume_evs _ _ _ _ J). }
    destruct (r_stage (rops c i)); try (intros []); intro J; apply Q in J; subst; tauto.
  - assert (Q : ~ In (ERead k r) (snd (write_interrupt c i))). { unfold write_interrupt. destruct (w_direct _); [intros []|]. destruct (w_handle _); [|intros []]. apply write_resume_evs. }
    destruct (w_stage (wops c i)); try (intros []); intro J; contradiction.
  - destruct (r_stage (rops c i)); intros [].
  - destruct (w_stage (wops c i)); intros [].
  - unfold run_job. destruct (nth_error _ _) as [[i|i]|]; [| |intros []].
    + destruct (is_awaited _); [|intros []]. intro J. apply rr_reason in J. exact J.
    + destruct (is_awaited _); [|intros []]. intro J. now apply write_resume_evs in J.
Qed.

(** A read of an open channel that does not wait gets a value; one that waits is not cancelled. *)
Lemma opens (c : cstate) k b : bad c = None -> closed c = false -> rops c k = Channel_Model.mkR Made false None false false ->
  (forall r, In (ERead k r) (snd (step c (AwRead k b))) -> exists v, r = RVal v) /\ can (fst (step c (AwRead k b))) k = false.
Proof.
  intros B Cl E. unfold Channel_Model.step. rewrite B. cbn [step_ok]. rewrite E. cbn [r_stage]. unfold read_await. rewrite E. cbn [r_cancelled]. destruct (read_ready c || false).
  - split; [|rewrite rr_can; unfold can; now rewrite E]. intros r J. apply rr_reason in J. unfold reason, can in J. rewrite E, Cl in J. destruct r; try discriminate. eauto.
  - destruct (wq c) as [|j q]; [split; [intros r []|unfold can; cbn; unfold upd; now rewrite Nat.eqb_refl]|].
    destruct (w_handle _); [|split; [intros r []|unfold can; cbn; unfold upd; now rewrite Nat.eqb_refl]].
    split; [intros r J; now apply write_resume_evs in J|]. rewrite wres_can. unfold can. cbn. unfold upd. now rewrite Nat.eqb_refl.
Qed.

Lemma close_closed (c : cstate) : bad c = None -> closed (fst (step c Close)) = true.
Proof.
  intro B. unfold Channel_Model.step. rewrite B. cbn [step_ok fst]. unfold close.
  assert (R : forall q (x : cstate), closed (fold_left close_read q x) = closed x). { induction q as [|i q IH]; intro x; [reflexivity|]. cbn. rewrite IH. unfold close_read. destruct (r_handle _); reflexivity. }
  assert (W : forall q (x : cstate), closed (fold_left close_write q x) = closed x). { induction q as [|i q IH]; intro x; [reflexivity|]. cbn. rewrite IH. unfold close_write. destruct (w_handle _); reflexivity. }
  unfold set_wq. cbn [closed]. rewrite W. unfold set_rq. cbn [closed]. rewrite R. reflexivity.
Qed.

(** *** The channel's part of a history is a history of the channel *)
Lemma rrun_app a : forall (s : state) b, rrun s (a ++ b) = match rrun s a with
  | Some (s1, e1) => match rrun s1 b with Some (s2, e2) => Some (s2, e1 ++ e2) | None => None end | None => None end.
Proof.
  induction a as [|l a IH]; intros s b; cbn; [destruct (rrun s b) as [[? ?]|]; reflexivity|].
  destruct (rstep s l) as [[s1 e1]|]; [|reflexivity]. rewrite IH. destruct (rrun s1 a) as [[s2 e2]|]; [|reflexivity].
  destruct (rrun s2 b) as [[s3 e3]|]; [|reflexivity]. now rewrite app_assoc.
Qed.
Lemma robeys_app P a : forall (s : state) b, robeys P s (a ++ b) -> robeys P s a /\ match rrun s a with Some (s1, _) => robeys P s1 b | None => True end.
Proof.
  induction a as [|l a IH]; intros s b; cbn; [auto|]. intros [H1 H2]. destruct (rstep s l) as [[s1 e1]|]; [|auto].
  destruct (IH s1 b H2) as [H3 H4]. split; [auto|]. destruct (rrun s1 a) as [[s2 e2]|]; auto.
Qed.
Lemma obeys_app P a : forall (s : cstate) b, obeys P s (a ++ b) = obeys P s a && obeys P (fst (run s a)) b.
Proof.
  induction a as [|l a IH]; intros s b; cbn [app obeys Channel_Model.run]; [reflexivity|]. rewrite IH, andb_assoc.
  destruct (step s l) as [s1 e1]; cbn [fst]. destruct (run s1 a); reflexivity.
Qed.
Lemma run_app2 (s : cstate) a b : run s (a ++ b) = (fst (run (fst (run s a)) b), snd (run s a) ++ snd (run (fst (run s a)) b)).
Proof. rewrite run_app. destruct (run s a) as [s1 e1]; cbn [fst snd]. destruct (run s1 b); reflexivity. Qed.

Lemma onch_C (es : list cevent) : on_channel (map C es) = es.
Proof. unfold on_channel. induction es; cbn; [reflexivity|]. now f_equal. Qed.
Lemma onch_app (a b : list event) : on_channel (a ++ b) = on_channel a ++ on_channel b.
Proof. apply flat_map_app. Qed.
Lemma visits_app (a b : list event) : visits (a ++ b) = visits a ++ visits b.
Proof. apply flat_map_app. Qed.
Lemma loop_app (a b : list event) : in_loop (a ++ b) = in_loop a ++ in_loop b.
Proof. apply flat_map_app. Qed.
Lemma own_app (a b : list event) : own_reads (a ++ b) = own_reads a ++ own_reads b.
Proof. apply flat_map_app. Qed.
Lemma loop_C (es : list cevent) : in_loop (map C es) = [].
Proof. unfold in_loop. induction es; cbn; auto. Qed.
Lemma visits_C (es : list cevent) : visits (map C es) = [].
Proof. unfold visits. induction es; cbn; auto. Qed.
Lemma own_C (es : list cevent) : (forall i r, In (ERead i r) es -> Nat.even i = false) -> own_reads (map C es) = [].
Proof.
  unfold own_reads. induction es as [|[i r|i v r] t IH]; cbn; auto; intro H.
  - rewrite (H i r) by auto. cbn. apply IH. eauto.
  - apply IH. eauto.
Qed.

(** What the label does to the channel, including the end of the operation. *)
Definition tail_ops (s : state) (e1 : list event) : list clabel := match in_loop e1 with Visit _ :: _ | Throw _ :: _ => [DestroyR (mine s)] | _ => [] end.
Lemma act_run (s : state) l s1 e1 : RI s -> act s l s1 e1 -> RI s1 ->
  run (chan s) (ops s l ++ tail_ops s e1) = (chan s1, on_channel e1).
Proof.
  intros Ri A R1. rewrite run_app2. destruct A as [r Wh Ee|b El Pc Cd Ev|b El Pc Cd|El Pc|l0 El Ot Ev|El Pc Ev]; unfold tail_ops.
  - assert (Z : in_loop [C (ERead (mine s) r); report r] = [report r]) by (destruct r; reflexivity). rewrite Z.
    assert (Y : match report r with Visit _ | Throw _ => True | _ => False end) by (destruct r; exact Logic.I).
    assert (E : match report r with Visit _ => [DestroyR (mine s)] | Throw _ => [DestroyR (mine s)] | _ => [] end = [DestroyR (V := V) (mine s)]) by (destruct r; reflexivity).
    transitivity (fst (run (fst (run (chan s) (ops s l))) [DestroyR (mine s)]), snd (run (chan s) (ops s l)) ++ snd (run (fst (run (chan s) (ops s l))) [DestroyR (mine s)])).
    { destruct r; reflexivity. }
    cbn [chan]. cbn [Channel_Model.run]. set (c := fst (run (chan s) (ops s l))) in *.
    assert (De : snd (step c (DestroyR (mine s))) = []). { unfold Channel_Model.step. destruct (bad c); [reflexivity|]. cbn [step_ok]. destruct (r_stage _); reflexivity. }
    destruct (step c (DestroyR (mine s))) as [c2 e2]. cbn [fst snd] in *. subst e2. cbn [app fst snd]. rewrite Ee. destruct r; reflexivity.
  - rewrite loop_C. cbn [Channel_Model.run fst snd chan]. rewrite app_nil_r, onch_C. reflexivity.
  - subst l. cbn [ops]. rewrite Cd. reflexivity.
  - subst l. reflexivity.
  - rewrite loop_C. cbn [Channel_Model.run fst snd chan]. rewrite app_nil_r, onch_C. reflexivity.
  - rewrite loop_C. cbn [Channel_Model.run fst snd chan]. rewrite app_nil_r, onch_C. reflexivity.
Qed.

Definition fine (P : cstate -> clabel -> bool) : Prop := forall c k, P c (DestroyR k) = true.

(** In the state [s] nobody but the loop reads. *)
Definition alone (s : state) : Prop := forall i, Nat.odd i = true -> st (chan s) i = Absent.
Lemma alone_quiet s : RI s -> alone s -> at_ s <> Waiting -> rq (chan s) = [] /\ rjobs (posted (chan s)) = [].
Proof.
  intros [I B Nw Od Cu] Al Pc.
  assert (X : forall i, st (chan s) i = Absent \/ st (chan s) i = Destroyed).
  { intro i. destruct (Nat.even i) eqn:E.
    - apply even_two in E. destruct E as [k ->]. destruct (lt_eq_lt_dec k (turn s)) as [[H| ->]|H]; [right; auto|left|left; auto]. unfold mine in Cu. rewrite Cu. destruct (at_ s); congruence.
    - left. apply Al. unfold Nat.odd. now rewrite E. }
  destruct (inv_r _ I) as (_ & _ & L). split.
  - destruct (rq (chan s)) as [|i q] eqn:Q; [reflexivity|]. destruct (L i) as (L1 & _). cbn in L1. destruct (L1 (or_introl eq_refl)) as [[[A _]|[A _]] _]; destruct (X i) as [Y|Y]; unfold st in Y; congruence.
  - destruct (rjobs (posted (chan s))) as [|i q] eqn:Q; [reflexivity|]. destruct (L i) as (_ & L2 & _). cbn in L2. destruct (L2 (or_introl eq_refl)) as [A _]; destruct (X i) as [Y|Y]; unfold st in Y; congruence.
Qed.

Lemma ops_one_reader s l : RI s -> alone s -> Crd_Model.possible s l = true -> only_reader [l] -> obeys one_reader (chan s) (ops s l) = true.
Proof.
  intros Ri Al Po Or. destruct l as [l|b| |]; cbn [ops]; try reflexivity.
  - assert (Z := Or l ltac:(left; reflexivity)). destruct l; cbn; try reflexivity; destruct Z.
  - destruct (condition (chan s)); [|reflexivity]. cbn [obeys one_reader]. unfold Crd_Model.possible in Po. destruct (at_ s) eqn:Pc; try discriminate.
    destruct (alone_quiet s Ri Al) as [Q1 Q2]; [congruence|].
    assert (Sm : rq (fst (step (chan s) (MkRead (mine s)))) = rq (chan s) /\ posted (fst (step (chan s) (MkRead (mine s)))) = posted (chan s)).
    { unfold Channel_Model.step. rewrite (ri_bad _ Ri). cbn [step_ok]. destruct (r_stage _); auto. }
    destruct Sm as [-> ->]. rewrite Q1, Q2. reflexivity.
Qed.

Definition track (lim : nat) (s : state) (es : list event) (dn : list label) : Prop :=
  rrun (rinit lim) dn = Some (s, es) /\
  exists cls, run (init false lim) cls = (chan s, on_channel es) /\
    (forall P, fine P -> robeys P (rinit lim) dn -> obeys P (init false lim) cls = true) /\
    (only_reader dn -> alone s /\ obeys one_reader (init false lim) cls = true).

Lemma track_step lim s l s1 e1 es dn : RI s -> track lim s es dn -> rstep s l = Some (s1, e1) -> act s l s1 e1 -> RI s1 -> track lim s1 (es ++ e1) (dn ++ [l]).
Proof.
  intros Ri (T1 & cls & T2 & T3 & T4) E A R1. split.
  - rewrite rrun_app, T1. cbn. rewrite E. now rewrite app_nil_r.
  - exists (cls ++ (ops s l ++ tail_ops s e1)). pose proof (act_run s l s1 e1 Ri A R1) as Ar.
    assert (To : forall P, fine P -> forall c, obeys P c (tail_ops s e1) = true).
    { intros P F c. unfold tail_ops. destruct (in_loop e1) as [|[| | |] t]; cbn; rewrite ?F; reflexivity. }
    split; [|split].
    + rewrite run_app2, T2. cbn [fst snd]. rewrite Ar. cbn [fst snd]. now rewrite onch_app.
    + intros P F O. apply robeys_app in O. rewrite T1 in O. cbn in O. destruct O as (O1 & O2 & _).
      rewrite obeys_app, T2. cbn [fst]. rewrite (T3 P F O1), obeys_app, O2. cbn. apply To, F.
    + intro Or. assert (Or0 : only_reader dn) by (intros l0 J; apply Or, in_or_app; auto). destruct (T4 Or0) as [Al O1]. split.
      * intros i Oi.
        assert (Na : ~ acts false i (DestroyR (V := V) (mine s))) by (intros [_ <-]; unfold mine in Oi; rewrite even2 in Oi; discriminate).
        assert (St : forall (c : cstate) l0, Channel_Inv.Inv c -> bad (fst (step c l0)) = None -> ~ acts false i l0 -> st c i = Absent -> st (fst (step c l0)) i = Absent).
        { intros c l0 Ic Bc N S. destruct (stays c l0 i Ic Bc N) as [[_ Z]|(r & Z & _)]; [congruence|]. exfalso. assert (Y : st c i = Awaited) by (apply (wakes c l0 i r Ic N); rewrite Z; left; reflexivity). congruence. }
        assert (Rn : forall ks (c : cstate), Channel_Inv.Inv c -> bad (fst (run c ks)) = None -> (forall k, In k ks -> ~ acts false i k) -> st c i = Absent -> st (fst (run c ks)) i = Absent).
        { induction ks as [|k ks IH]; intros c Ic Bc N S; [exact S|]. rewrite run_cons in *. cbn [fst] in *.
          pose proof (run_good_prefix _ _ Bc) as B1. apply IH; auto; [now apply step_inv|intros k0 J; apply N; now right|]. apply St; auto. apply N. now left. }
        pose proof (Rn (ops s l ++ tail_ops s e1) (chan s) (ri_chan _ Ri)) as X. rewrite Ar in X. cbn [fst] in X. apply X; [exact (ri_bad _ R1)| |apply Al, Oi].
        intros k J. apply in_app_or in J. destruct J as [J|J].
        -- destruct l as [l|b| |]; cbn [ops] in J.
           ++ destruct J as [->|[]]. assert (Z := Or k ltac:(apply in_or_app; right; left; reflexivity)). destruct k; cbn; try tauto; intros [Y _]; discriminate.
           ++ destruct (condition _); [|destruct J]. destruct J as [<-|[<-|[]]]; intros [_ <-]; unfold mine in Oi; rewrite even2 in Oi; discriminate.
           ++ destruct J as [<-|[]]; intros [_ <-]; unfold mine in Oi; rewrite even2 in Oi; discriminate.
           ++ destruct J.
        -- unfold tail_ops in J. destruct (in_loop e1) as [|[| | |] t]; try destruct J as [<-|[]]; try exact Na; destruct J.
      * rewrite obeys_app, T2. cbn [fst]. rewrite O1, obeys_app. rewrite (To one_reader (fun _ _ => eq_refl)), andb_true_r. cbn [andb].
        apply ops_one_reader; auto; [unfold rstep in E; destruct (Crd_Model.possible s l); [reflexivity|discriminate]|]. intros l0 [->|[]]. apply Or, in_or_app. right. left. reflexivity.
Qed.

Lemma track_init lim : track lim (rinit lim) [] [].
Proof. split; [reflexivity|]. exists []. split; [reflexivity|]. split; [reflexivity|]. intros _. split; [|reflexivity]. intros i _. reflexivity. Qed.

Lemma tracked lim ls s es : rrun (rinit lim) ls = Some (s, es) -> bad (chan s) = None -> RI s /\ track lim s es ls.
Proof.
  intros R B. exact (lift (track lim) (fun s l s1 e1 es dn Ri T E A R1 => track_step lim s l s1 e1 es dn Ri T E A R1) ls (rinit lim) [] [] s es (RI_init lim) (track_init lim) R B).
Qed.
(** *** Safety, from the channel's *)
Definition guard (a : bool) (P : cstate -> clabel -> bool) : cstate -> clabel -> bool := both (fun c l => if a then one_reader c l else true) P.
Lemma guarded a P ks : forall c : cstate, obeys P c ks = true -> (a = true -> obeys one_reader c ks = true) -> obeys (guard a P) c ks = true.
Proof. intros c O1 O2. unfold guard. rewrite obeys_both, O1, andb_true_r. destruct a; [auto|]. clear. revert c. induction ks; cbn; auto. Qed.

Lemma rstep_good (s : state) l s1 e1 : rstep s l = Some (s1, e1) -> bad (fst (run (chan s) (ops s l))) = None -> bad (chan s1) = None.
Proof.
  unfold rstep. destruct (Crd_Model.possible s l); [|discriminate]. destruct (run (chan s) (ops s l)) as [c es]. cbn [fst]. intros H B.
  destruct (result (mine s) es) as [r|].
  - injection H as <- _. cbn [chan]. unfold Channel_Model.step. rewrite B. cbn [step_ok]. destruct (r_stage _); exact B.
  - destruct l; try (destruct (condition (chan s))); injection H as <- _; exact B.
Qed.

Lemma safe lim a P : fine P -> (forall cls, obeys (guard a P) (init false lim) cls = true -> bad (fst (run (init false lim) cls)) = None) ->
  forall ls s es, rrun (rinit lim) ls = Some (s, es) -> robeys P (rinit lim) ls -> (a = true -> only_reader ls) -> bad (chan s) = None.
Proof.
  intros F H ls. induction ls as [|l ls IH] using rev_ind; intros s es R O Or.
  - injection R as <- _. reflexivity.
  - rewrite rrun_app in R. apply robeys_app in O. destruct O as [O1 O2]. destruct (rrun (rinit lim) ls) as [[s0 e0]|] eqn:R0; [|discriminate].
    assert (Or0 : a = true -> only_reader ls) by (intros Ea l0 J; apply (Or Ea), in_or_app; auto).
    pose proof (IH s0 e0 eq_refl O1 Or0) as B0. cbn in R, O2. destruct (rstep s0 l) as [[s1 e1]|] eqn:E; [|discriminate]. injection R as <- _. destruct O2 as [O2 _].
    destruct (tracked lim ls s0 e0 R0 B0) as [Ri (_ & cls & T2 & T3 & T4)].
    apply (rstep_good s0 l s1 e1 E). specialize (H (cls ++ ops s0 l)). rewrite run_app2, T2 in H. cbn [fst] in H. apply H.
    apply guarded; rewrite obeys_app, T2; cbn [fst].
    + rewrite (T3 P F O1), O2. reflexivity.
    + intro Ea. destruct (T4 (Or0 Ea)) as [Al Oa]. rewrite Oa. cbn [andb]. apply ops_one_reader; auto.
      * unfold rstep in E. destruct (Crd_Model.possible s0 l); [reflexivity|discriminate].
      * intros l0 [->|[]]. apply (Or Ea), in_or_app. right. left. reflexivity.
Qed.
End Live.
