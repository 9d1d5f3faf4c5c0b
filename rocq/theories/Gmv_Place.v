(** * Runs of the machine; which generator is where *)
From Coq Require Import List Bool Arith Lia.
From Verif Require Import Gen_Model Gen_Spec Gen_Inv Gmv_Model Gmv_Spec Gmv_Proofs Gmv_Sim.
Import ListNotations.

Section Place.
Context {Y P E : Type} (mf : Y -> Y) (mfp : P -> P) (nv : bool).
Notation mst := (mst Y P E).
Notation mevent := (mevent Y P E).
Notation mlabel := (mlabel Y P E).
Notation recv := (recv Y P E).
Notation state := (state Y P (xt E)).
Notation event := (event Y P (xt E)).

(** ** Runs *)
Lemma run_snoc (s : state) ls l s1 tr1 s2 e2 :
  run nv s ls = Some (s1, tr1) -> step nv l s1 = Some (s2, e2) -> run nv s (ls ++ [l]) = Some (s2, tr1 ++ e2).
Proof.
  revert s tr1. induction ls as [|a t IH]; intros s tr1 H1 H2; cbn in *.
  - injection H1 as <- <-. rewrite H2. now rewrite app_nil_r.
  - destruct (step nv a s) as [[x y]|]; [|discriminate]. destruct (run nv x t) as [[x' y']|] eqn:Q; [|discriminate]. injection H1 as <- <-.
    rewrite (IH _ _ Q H2). now rewrite app_assoc.
Qed.
Lemma correct_snoc (s : state) ls l s1 tr1 :
  run nv s ls = Some (s1, tr1) -> correct nv s ls -> ok s1 l = true -> correct nv s (ls ++ [l]).
Proof.
  revert s tr1. induction ls as [|a t IH]; intros s tr1 H1 H2 H3; cbn in *.
  - injection H1 as <- <-. split; auto. destruct (step nv l s) as [[? ?]|]; auto.
  - destruct H2 as [H2 H4]. split; auto. destruct (step nv a s) as [[x y]|]; [|discriminate]. destruct (run nv x t) as [[x' y']|] eqn:Q; [|discriminate]. injection H1 as <- <-.
    eapply IH; eauto.
Qed.

Lemma mrun_app (m : mst) ls1 ls2 : mrun mf mfp nv m (ls1 ++ ls2) =
  match mrun mf mfp nv m ls1 with
  | Some (m1, e1) => match mrun mf mfp nv m1 ls2 with Some (m2, e2) => Some (m2, e1 ++ e2) | None => None end
  | None => None
  end.
Proof.
  revert m. induction ls1 as [|a t IH]; intros m; cbn.
  - destruct (mrun mf mfp nv m ls2) as [[? ?]|]; reflexivity.
  - destruct (mstep mf mfp nv a m) as [[m1 e1]|]; [|reflexivity]. rewrite IH.
    destruct (mrun mf mfp nv m1 t) as [[m2 e2]|]; [|reflexivity]. destruct (mrun mf mfp nv m2 ls2) as [[m3 e3]|]; [|reflexivity]. now rewrite app_assoc.
Qed.

Lemma history_app g (a b : list mevent) : history g (a ++ b) = history g a ++ history g b.
Proof. apply flat_map_app. Qed.
Lemma history_in g (tr : list mevent) e : In (Ev (Some g) e) tr -> In e (history g tr).
Proof. intros H. apply in_flat_map. exists (Ev (Some g) e). split; auto. cbn. rewrite Nat.eqb_refl. now left. Qed.

Theorem sim_run ls (m : mst) (S : nat -> state) m' tr :
  R nv m S -> mcorrect mf mfp nv m ls -> mrun mf mfp nv m ls = Some (m', tr) ->
  exists S', R nv m' S' /\ clean tr /\
    forall g, exists ls', correct nv (S g) ls' /\ run nv (S g) ls' = Some (S' g, history g tr).
Proof.
  revert m S tr. induction ls as [|l t IH]; intros m S tr HR C Rn; cbn in *.
  - injection Rn as <- <-. exists S. split; auto. split; [intros b []|]. intros g. exists []. split; [exact I|reflexivity].
  - destruct C as [K C]. destruct (mstep mf mfp nv l m) as [[m1 e1]|] eqn:St; [|discriminate]. destruct (mrun mf mfp nv m1 t) as [[m2 e2]|] eqn:R2; [|discriminate].
    injection Rn as <- <-. destruct (sim_step mf mfp nv _ _ _ _ _ HR K St) as (S1 & HR1 & Cl & H1).
    destruct (IH _ _ _ HR1 C R2) as (S2 & HR2 & Cl2 & H2). exists S2. split; auto. split.
    + intros b H. apply in_app_or in H as [H|H]; [eapply Cl|eapply Cl2]; eauto.
    + intros g. rewrite history_app. destruct (H2 g) as (ls2 & A & B). destruct (H1 g) as [[Q1 Q2]|(lg & Q1 & Q2)].
      * exists ls2. rewrite Q2, <- Q1. auto.
      * exists (lg :: ls2). cbn. rewrite Q2, B. auto.
Qed.

Lemma INV_run ls (s : state) s' tr : INV nv s -> correct nv s ls -> run nv s ls = Some (s', tr) -> forall b, ~ In (EBad b) tr.
Proof.
  revert s tr. induction ls as [|l t IH]; intros s tr I C Rn; cbn in *.
  - injection Rn as <- <-. intros b [].
  - destruct C as [K C]. destruct (step nv l s) as [[s1 e1]|] eqn:St; [|discriminate]. destruct (run nv s1 t) as [[s2 e2]|] eqn:R2; [|discriminate]. injection Rn as <- <-.
    destruct (step_INV nv _ _ _ _ I K St) as [I1 N]. intros b H. apply in_app_or in H as [H|H]; [eapply N; eauto|eapply IH; eauto].
Qed.

(** A generator whose awaits are not interrupted and whose get() is not used. *)
Lemma calm_run ls (s : state) s' tr : correct nv s ls -> run nv s ls = Some (s', tr) -> quiet tr -> forallb calm ls = true.
Proof.
  revert s tr. induction ls as [|l t IH]; intros s tr C Rn Q; cbn in *; [reflexivity|].
  destruct C as [K C]. destruct (step nv l s) as [[s1 e1]|] eqn:St; [|discriminate]. destruct (run nv s1 t) as [[s2 e2]|] eqn:R2; [|discriminate]. injection Rn as <- <-.
  apply andb_true_iff. split.
  - destruct l; try reflexivity; exfalso.
    + cbn in St. destruct (ws s w); try discriminate St. destruct (live s); try discriminate St. injection St as <- <-. apply (Q (EInterrupt w)). now left.
    + cbn in St, K. destruct (lifeof s); try discriminate St. destruct (exc s); [injection St as <- <-; apply (Q (EGet (RExc e))); now left|].
      destruct (res s); [injection St as <- <-; apply (Q (EGet (RVal y))); now left|]. discriminate K.
  - eapply IH; eauto. intros e H. apply Q. apply in_or_app. auto.
Qed.

(** ** Where the generators are *)
Definition same (m m' : mst) : Prop := forall o, gid_at m' o = gid_at m o.
Lemma same_refl (m : mst) : same m m. Proof. intros o. reflexivity. Qed.
Lemma same_trans (m1 m2 m3 : mst) : same m1 m2 -> same m2 m3 -> same m1 m3.
Proof. intros A B o. now rewrite B, A. Qed.
Lemma same_objs (m m' : mst) : objs m' = objs m -> same m m'.
Proof. intros H o. unfold gid_at, robj. now rewrite H. Qed.
Lemma same_put (m n : mst) o r r' : objs n = objs m -> robj m o = Some r -> r_gid r' = r_gid r -> same m (put o r' n).
Proof.
  intros En Ho G x. unfold gid_at, robj, put in *. rewrite En. destruct (objs m o) eqn:Oo; try discriminate Ho; injection Ho as ->.
  all: cbn -[upd]; rewrite En; unfold upd; destruct (Nat.eqb_spec x o) as [->|N]; [rewrite Oo; exact G|reflexivity].
Qed.
Lemma same_await o w tp (m m' : mst) ev : m_await_resume o w tp m = (m', ev) -> same m m'.
Proof.
  unfold m_await_resume. destruct (robj m o) as [r|] eqn:Ho; [|intros H; injection H as <- <-; now apply same_objs].
  destruct (r_exc r); [intros H; injection H as <- <-; now apply (same_put m m o r)|].
  destruct (r_res r); [|intros H; injection H as <- <-; apply same_refl].
  destruct tp as [p|]; cbn -[put]; destruct (r_yf r); cbn -[put]; try destruct (r_lazy r); intros H; injection H as <- <-; now apply (same_put m _ o r).
Qed.
Lemma same_resume g w (m m' : mst) ev : m_resume g w m = (m', ev) -> same m m'.
Proof.
  unfold m_resume. destruct (mws m w) as [|o c tp|]; intros H; try (injection H as <- <-; apply same_refl).
  apply same_await in H. exact H.
Qed.
Lemma same_continue c (m m' : mst) ev : m_continue c m = (m', ev) -> same m m'.
Proof.
  unfold m_continue. destruct (crecp m c) as [o|]; [|intros H; injection H as <- <-; now apply same_objs].
  destruct (robj m o) as [r|] eqn:Ho; [|intros H; injection H as <- <-; now apply same_objs].
  destruct (r_pushed r); intros H; injection H as <- <-; [|apply same_refl].
  eapply same_trans; [exact (same_put m m o r (sr_pushed None r) eq_refl Ho eq_refl)|]. now apply same_objs.
Qed.
Lemma same_kill g x (m m' : mst) ev : m_kill g x m = (m', ev) -> same m m'.
Proof. unfold m_kill. destruct x; intros H; injection H as <- <-; [now apply same_objs|apply same_refl]. Qed.
Lemma same_arrive c o (m m' : mst) ev : m_arrive nv c o m = (m', ev) -> same m m'.
Proof.
  unfold m_arrive. destruct (robj m o) as [r|] eqn:Ho; [|intros H; injection H as <- <-; now apply same_objs].
  destruct (_ && _); [apply same_continue|]. intros H.
  assert (A : same m (set_ccst c Yielding (put o (sr_aw None (sr_yf (Some c) r)) m))).
  { eapply same_trans; [exact (same_put m m o r (sr_aw None (sr_yf (Some c) r)) eq_refl Ho eq_refl)|]. now apply same_objs. }
  destruct (r_aw r); [|injection H as <- <-; exact A]. eapply same_trans; [exact A|]. eapply same_resume; eauto.
Qed.
Lemma same_final c (m m' : mst) ev : m_final c m = (m', ev) -> same m m'.
Proof.
  unfold m_final. destruct (crecp m c) as [o|]; [|intros H; injection H as <- <-; now apply same_objs].
  destruct (robj m o) as [r|] eqn:Ho; [|intros H; injection H as <- <-; now apply same_objs].
  assert (A : same m (put o (sr_aw None (sr_done true r)) (set_ccst c Dead (set_recp c None m)))) by now apply (same_put m _ o r).
  destruct (r_aw r); [|intros H; injection H as <- <-; exact A].
  destruct (m_resume (Some c) n _) as [m3 e3] eqn:Q. intros H. injection H as <- <-. eapply same_trans; [exact A|]. eapply same_resume; eauto.
Qed.
Lemma same_cancel o t r (m m' : mst) ev : m_cancel o t r m = (m', ev) -> same m m'.
Proof.
  unfold m_cancel. destruct (r_done r); [intros H; injection H as <- <-; apply same_refl|].
  destruct (r_ref r) as [c|]; [destruct (cframe m c)|]; intros H; injection H as <- <-; try apply same_refl; now apply same_objs.
Qed.
Lemma same_cancel_objs o t r (m m' : mst) ev : m_cancel o t r m = (m', ev) -> objs m' = objs m.
Proof.
  unfold m_cancel. destruct (r_done r); [intros H; now injection H as <- <-|].
  destruct (r_ref r) as [c|]; [destruct (cframe m c)|]; intros H; now injection H as <- <-.
Qed.
Lemma release_objs r (m m' : mst) ev : release r m = (m', ev) -> objs m' = objs m.
Proof. unfold release, m_kill. destruct (r_yf r), (r_aw r); intros H; injection H as <- <-; reflexivity. Qed.
Lemma unref_objs o c (m : mst) : objs (unref o c m) = objs m.
Proof. unfold unref. destruct (crecp m c) as [x|]; [destruct (x =? o)|]; reflexivity. Qed.
Lemma take_objs o r (m m' : mst) : take_over o r m = Some m' -> objs m' = objs m.
Proof.
  unfold take_over. destruct (r_done r); [intros H; now injection H as <-|]. destruct (r_ref r); [destruct (cframe m n)|]; intros H; try discriminate; now injection H as <-.
Qed.

Lemma same_mco c l x (m m' : mst) ev :
  (forall o r, x = Some (o, r) -> robj m o = Some r) -> mco nv c l x m = Some (m', ev) -> same m m'.
Proof.
  intros X. unfold mco.
  destruct l; try discriminate; destruct (ccst m c); try discriminate.
  - destruct x as [[o r]|].
    + pose proof (X _ _ eq_refl) as Ho. destruct (m_arrive nv c o _) as [m1 e1] eqn:Q. intros H. injection H as <- <-. eapply same_trans; [|eapply same_arrive; exact Q].
      exact (same_put m (set_ini c m) o r (sr_lazy true r) eq_refl Ho eq_refl).
    + intros H. injection H as <- <-. now apply same_objs.
  - destruct x as [[o r]|].
    + pose proof (X _ _ eq_refl) as Ho. destruct (m_store y r) as [r1|] eqn:Ms; [|intros H; injection H as <- <-; apply same_refl].
      assert (G : r_gid r1 = r_gid r) by (unfold m_store in Ms; destruct (r_res r), (r_buf r); try discriminate Ms; now injection Ms as <-).
      destruct (m_arrive nv c o _) as [m1 e1] eqn:Q. intros H. injection H as <- <-. eapply same_trans; [|eapply same_arrive; exact Q].
      exact (same_put m m o r r1 eq_refl Ho G).
    + intros H. injection H as <- <-. now apply same_objs.
  - destruct x as [[o r]|].
    + pose proof (X _ _ eq_refl) as Ho. destruct (m_store y r) as [r1|] eqn:Ms; intros H; injection H as <- <-; [|apply same_refl].
      assert (G : r_gid r1 = r_gid r) by (unfold m_store in Ms; destruct (r_res r), (r_buf r); try discriminate Ms; now injection Ms as <-).
      eapply same_trans; [exact (same_put m m o r r1 eq_refl Ho G)|]. now apply same_objs.
    + intros H. injection H as <- <-. now apply same_objs.
  - destruct x as [[o r]|].
    + pose proof (X _ _ eq_refl) as Ho. destruct (m_final c _) as [m1 e1] eqn:Q. intros H. injection H as <- <-. eapply same_trans; [|eapply same_final; exact Q].
      exact (same_put m m o r (sr_exc (Some (XUser e)) r) eq_refl Ho eq_refl).
    + intros H. injection H as <- <-. now apply same_objs.
  - intros H. injection H as H. eapply same_final; eauto.
  - destruct x as [[o r]|].
    + pose proof (X _ _ eq_refl) as Ho. cbn -[put m_kill].
      match goal with |- (let (_, _) := m_kill ?a ?b ?n in _) = _ -> _ => destruct (m_kill a b n) as [m2 e2] eqn:Q end. intros H. injection H as <- <-.
      eapply same_trans; [|eapply same_kill; exact Q]. now apply (same_put m _ o r).
    + intros H. injection H as <- <-. now apply same_objs.
  - destruct x as [[o r]|]; intros H.
    + injection H as H. eapply same_continue; eauto.
    + injection H as <- <-. now apply same_objs.
Qed.

Lemma gid_set (m : mst) o x o1 :
  gid_at (set_obj o x m) o1 = if o1 =? o then match x with OLive r | ODying r | OAssign r => r_gid r | _ => None end else gid_at m o1.
Proof. unfold gid_at, robj. cbn -[upd]. unfold upd. destruct (o1 =? o); [now destruct x|reflexivity]. Qed.

Lemma place_step l (m m' : mst) ev f :
  mstep mf mfp nv l m = Some (m', ev) -> ub m' = false -> (forall o, gid_at m o = f o) -> forall o, gid_at m' o = place1 f l o.
Proof.
  intros St U Hf. unfold mstep in St. destruct (ub m) eqn:U0; [discriminate|].
  assert (Sm : same m m' -> place1 f l = f -> forall o, gid_at m' o = place1 f l o) by (intros A -> o; now rewrite A).
  destruct l as [o g|o g y|c l|o l|w|w t|o o'|o'|o' o].
  - destruct (objs m o) eqn:Oo; try discriminate St. destruct (ccst m g); try discriminate St. injection St as <- <-.
    intros x. rewrite gid_set. cbn [place1]. destruct (x =? o); auto. rewrite <- Hf. reflexivity.
  - destruct (objs m o) eqn:Oo; try discriminate St. destruct (ccst m g); try discriminate St. injection St as <- <-.
    intros x. rewrite gid_set. cbn [place1]. destruct (x =? o); auto. rewrite <- Hf. reflexivity.
  - apply Sm; [|reflexivity]. destruct (crecp m c) as [o|].
    + destruct (robj m o) as [r|] eqn:Ho.
      * eapply same_mco; [|exact St]. intros o1 r1 Q. injection Q as <- <-. exact Ho.
      * destruct (ccst m c); try discriminate St; injection St as <- <-; now apply same_objs.
    + eapply same_mco; [|exact St]. intros o1 r1 Q. discriminate Q.
  - destruct (objs m o) as [|r|r|r|] eqn:Oo; try (destruct l; discriminate St).
    + assert (Ho : robj m o = Some r) by (unfold robj; now rewrite Oo).
      destruct l; try discriminate St; (apply Sm; [|reflexivity]).
      * destruct (mws m w); try discriminate St. destruct (rready r).
        -- destruct (m_await_resume o w (Some p) m) as [m1 e1] eqn:Q. injection St as <- <-. eapply same_await; eauto.
        -- destruct (r_aw r); [injection St as <- <-; apply same_refl|]. destruct (r_ref r) as [c|]; [|discriminate St].
           set (r1 := sr_aw (Some w) (if r_lazy r && negb (is_some (r_pushed r)) then sr_pushed (Some p) r else r)) in *.
           assert (G : r_gid r1 = r_gid r) by (unfold r1; destruct (_ && _); reflexivity).
           destruct (r_yf r) as [c'|].
           ++ destruct (m_continue c' _) as [m2 e2] eqn:Q in St. injection St as <- <-. eapply same_trans; [|eapply same_continue; exact Q].
              eapply (same_put m _ o r (sr_yf None r1)); auto.
           ++ injection St as <- <-. eapply (same_put m _ o r r1); auto.
      * destruct (r_exc r); [injection St as <- <-; apply same_refl|]. destruct (r_res r); injection St as <- <-; [|apply same_refl].
        now apply (same_put m m o r).
      * injection St as St. eapply same_cancel; eauto.
      * destruct (m_cancel o ct_all r m) as [m1 e1] eqn:Q. injection St as <- <-. intros x. rewrite gid_set.
        destruct (Nat.eqb_spec x o) as [->|N]; [unfold gid_at; now rewrite Ho|]. unfold gid_at, robj. now rewrite (same_cancel_objs _ _ _ _ _ _ Q).
    + destruct l; try discriminate St.
      match type of St with (match ?e with Some _ => _ | None => _ end) = _ => destruct e as [m1|] eqn:X end.
      2:{ injection St as <- <-. discriminate U. }
      assert (Em : objs m1 = objs m).
      { destruct (r_done r); [now injection X as <-|]. destruct (r_ref r) as [c|]; [|discriminate]. destruct (cframe m c); [|discriminate]. injection X as <-. apply unref_objs. }
      destruct (release r m1) as [m2 e2] eqn:Rl. injection St as <- <-. intros x. rewrite gid_set. cbn [place1]. destruct (x =? o); auto.
      rewrite <- Hf. unfold gid_at, robj. now rewrite (release_objs _ _ _ _ Rl), Em.
  - apply Sm; [|reflexivity]. destruct (mws m w) as [|o c tp|]; try discriminate St. destruct (robj m o) as [r|] eqn:Ho; [|discriminate St].
    destruct (r_aw r); [|discriminate St]. destruct (n =? w); [|discriminate St]. injection St as <- <-.
    now apply (same_put m _ o r).
  - apply Sm; [|reflexivity]. destruct (mws m w); try discriminate St. injection St as <- <-. apply same_refl.
  - destruct (objs m o) as [|r|r|r|] eqn:Oo; try discriminate St. destruct (objs m o') eqn:Oo'; try discriminate St.
    destruct (take_over o' r m) as [m1|] eqn:T; injection St as <- <-; [|discriminate U].
    intros x. rewrite !gid_set. cbn [place1]. destruct (x =? o').
    + rewrite <- Hf. unfold gid_at, robj. now rewrite Oo.
    + destruct (x =? o); auto. rewrite <- Hf. unfold gid_at, robj. now rewrite (take_objs _ _ _ _ T).
  - apply Sm; [|reflexivity]. destruct (objs m o') as [|r|r|r|] eqn:Oo; try discriminate St. destruct (m_cancel o' ct_all r m) as [m1 e1] eqn:Q. injection St as <- <-.
    intros x. rewrite gid_set. destruct (Nat.eqb_spec x o') as [->|N]; [unfold gid_at, robj; now rewrite Oo|]. unfold gid_at, robj. now rewrite (same_cancel_objs _ _ _ _ _ _ Q).
  - destruct (objs m o') as [|r'|r'|r'|] eqn:Oo'; try discriminate St. destruct (objs m o) as [|r|r|r|] eqn:Oo; try discriminate St.
    match type of St with (match ?e with Some _ => _ | None => _ end) = _ => destruct e as [m1|] eqn:X end.
    2:{ injection St as <- <-. discriminate U. }
    assert (Em : objs m1 = objs m).
    { destruct (r_ref r') as [c|]; [|now injection X as <-]. destruct (cframe m c); [|discriminate]. injection X as <-. apply unref_objs. }
    destruct (release r' m1) as [m2 e2] eqn:Rl. destruct (take_over o' r m2) as [m3|] eqn:T; injection St as <- <-; [|discriminate U].
    intros x. rewrite !gid_set. cbn [place1]. destruct (x =? o').
    + rewrite <- Hf. unfold gid_at, robj. now rewrite Oo.
    + destruct (x =? o); auto. rewrite <- Hf. unfold gid_at, robj. now rewrite (take_objs _ _ _ _ T), (release_objs _ _ _ _ Rl), Em.
Qed.

Lemma step_ub l (m m' : mst) ev : mstep mf mfp nv l m = Some (m', ev) -> ub m = false.
Proof. unfold mstep. destruct (ub m); [discriminate|reflexivity]. Qed.

Theorem place_run ls (m m' : mst) tr f :
  mrun mf mfp nv m ls = Some (m', tr) -> ub m' = false -> (forall o, gid_at m o = f o) -> forall o, gid_at m' o = fold_left place1 ls f o.
Proof.
  revert m tr f. induction ls as [|l t IH]; intros m tr f Rn U Hf; cbn in *.
  - injection Rn as <- <-. exact Hf.
  - destruct (mstep mf mfp nv l m) as [[m1 e1]|] eqn:St; [|discriminate]. destruct (mrun mf mfp nv m1 t) as [[m2 e2]|] eqn:R2; [|discriminate]. injection Rn as <- <-.
    eapply IH; eauto. eapply place_step; eauto. destruct t as [|a t']; cbn in R2; [now injection R2 as <- <-|].
    destruct (mstep mf mfp nv a m1) as [[m3 e3]|] eqn:St2; [|discriminate]. eapply step_ub; eauto.
Qed.
End Place.
