(** Whole-run consequences for tasks. *)
From Coq Require Import List Bool Arith Lia.
From Verif Require Import Task_Model Task_Spec Task_Inv Task_Step.
Import ListNotations.

Section Final.
Context {V E : Type}.
Notation event := (event V E).
Notation state := (state V E).
Notation view := (view V E).

Lemma run_from (s : state) (a : list event) ls s' tr : INV s (view_of a) -> QS s -> correct s ls -> run s ls = Some (s', tr) ->
  INV s' (view_of (a ++ tr)) /\ Pall a tr /\ QS s'.
Proof.
  revert s a tr. induction ls as [|l ls IH]; intros s a tr I Q C H; cbn in H.
  - injection H as <- <-. rewrite app_nil_r. cbn. auto.
  - destruct C as [C1 C2]. destruct (step l s) as [[s1 e1]|] eqn:S; [|discriminate].
    destruct (run s1 ls) as [[s2 e2]|] eqn:R; [|discriminate]. injection H as <- <-.
    pose proof (step_QS _ _ _ _ _ I Q C1 S) as Q1.
    destruct (step_ok _ _ _ _ _ I Q C1 S) as [I1 P1]. destruct (IH _ (a ++ e1) _ I1 Q1 C2 R) as (I2 & P2 & Q2).
    rewrite app_assoc. split; auto. split; auto. apply Pall_app. auto.
Qed.
Lemma init_QS : QS (init : state).
Proof. intros c h H. discriminate. Qed.

Section Run.
Variables (ls : list (label V E)) (s : state) (tr : list event).
Hypothesis C : correct init ls.
Hypothesis H : run init ls = Some (s, tr).

Lemma run_INV : INV s (view_of tr).
Proof. exact (proj1 (run_from init [] ls s tr init_INV init_QS C H)). Qed.
Lemma run_QS : QS s.
Proof. exact (proj2 (proj2 (run_from init [] ls s tr init_INV init_QS C H))). Qed.
Lemma run_P a e b : tr = a ++ e :: b -> P a e.
Proof.
  intros ->. destruct (run_from init [] ls s _ init_INV init_QS C H) as (_ & Q & _). apply Pall_app in Q as [_ Q]. apply Q.
Qed.

Theorem no_ub : ~ undefined tr.
Proof. intros (b & Q). apply in_split in Q as (x & y & Q). exact (run_P _ _ _ Q). Qed.

Lemma begun_mono (b : list event) (v : view) c : begun v c = true -> begun (fold_left observe b v) c = true.
Proof.
  revert v. induction b as [|e b IH]; intros v B; cbn; auto. apply IH.
  destruct e; cbn -[upd]; auto; try (unfold v_asked, v_give; destruct (own v h); cbn -[upd]; auto; destruct r as [[]|]; auto; fail);
  unfold upd; destruct (c =? c0); auto.
Qed.
Lemma over_mono (b : list event) (v : view) c : over v c = true -> over (fold_left observe b v) c = true.
Proof.
  revert v. induction b as [|e b IH]; intros v B; cbn; auto. apply IH.
  destruct e; cbn -[upd]; auto; try (unfold v_asked, v_give; destruct (own v h); cbn -[upd]; auto; destruct r as [[]|]; auto; fail);
  unfold upd; destruct (c =? c0); auto.
Qed.
Lemma begun_in (a : list event) c : In (EBegin c) a -> begun (view_of a) c = true.
Proof.
  intros Q. apply in_split in Q as (x & y & ->). rewrite view_app. cbn. apply begun_mono. cbn. unfold upd. now rewrite Nat.eqb_refl.
Qed.

Theorem lazy a c b : tr = a ++ EBegin c :: b -> asked (view_of a) c = true.
Proof. intros T. apply run_P in T. cbn in T. tauto. Qed.
Theorem begin_once a c b : tr = a ++ EBegin c :: b -> ~ In (EBegin c) a /\ ~ In (EBegin c) b.
Proof.
  intros T. split.
  - intros Q. apply begun_in in Q. apply run_P in T. cbn in T. intuition congruence.
  - intros Q. apply in_split in Q as (x & y & ->). rewrite app_comm_cons, app_assoc in T. apply run_P in T. cbn in T.
    destruct T as (_ & _ & T & _). rewrite (begun_in (a ++ EBegin c :: x)) in T; [discriminate|]. apply in_app_iff. cbn. auto.
Qed.
Theorem discarded a c b : tr = a ++ EDiscard c :: b -> ~ In (EBegin c) tr.
Proof.
  intros T Q. rewrite T in Q. apply in_app_iff in Q as [Q|[Q|Q]]; [|discriminate|].
  - apply begun_in in Q. apply run_P in T. cbn in T. congruence.
  - apply in_split in Q as (x & y & ->). rewrite app_comm_cons, app_assoc in T. apply run_P in T. cbn in T.
    destruct T as (_ & _ & _ & T & _). rewrite view_app in T. cbn in T. rewrite over_mono in T; [discriminate|].
    cbn. unfold upd. now rewrite Nat.eqb_refl.
Qed.
Theorem destroy_unstarted h s' ev c : own (view_of tr) h = Some c -> begun (view_of tr) c = false -> fate (view_of tr) c = None ->
  ok s (LDestroy h) = true -> step (LDestroy h) s = Some (s', ev) -> ev = [EDestroy h; EDiscard c].
Proof.
  intros O B F K S. pose proof run_INV as I. cbn -[upd kill_w] in S.
  destruct (user s h) eqn:U; [|discriminate]. destruct (user_live _ _ U) as [L Pv].
  cbn in K. rewrite !andb_true_iff, !negb_true_iff in K. destruct K as (K3 & K4). apply noaw in K3. rewrite K3 in S.
  pose proof (ih _ _ I h) as Q. unfold HI in Q. rewrite L, O in Q. unfold Owned in Q. rewrite F in Q.
  destruct Q as [(D & X1 & X2 & R & _ & Q)|(_ & [] & _)]. rewrite D in S.
  destruct (rec_live _ _ _ _ I R) as (_ & _ & Pr). rewrite Pr, R, Nat.eqb_refl in S.
  pose proof (ic _ _ I c) as Y. unfold CI in Y. unfold frame in S.
  destruct (cs (co s c)); try contradiction; cbn -[upd] in S; [now injection S as _ <-|destruct Y as ((_ & Y & _) & _); congruence].
Qed.
Theorem result_right : forall a w h r b, tr = a ++ EResult w h r :: b ->
  let v := view_of a in waits v w = Some h /\
  match own v h with
  | Some c => answers v c r \/ r = RExc XDetached /\ (exists a', a = a' ++ [EInterrupt w])
  | None => hollow_answer r
  end.
Proof. intros a w h r b T. exact (run_P _ _ _ T). Qed.
Theorem handler_right : forall a w h r b, tr = a ++ EHandler w h r :: b ->
  let v := view_of a in waits v w = Some h /\ match own v h with Some c => answers v c r | None => hollow_answer r end.
Proof. intros a w h r b T. apply run_P in T. destruct T as (T1 & _ & T2). split; [exact T1|exact T2]. Qed.
Theorem gave_once : NoDup (gave (view_of tr)).
Proof. exact (ig _ _ run_INV). Qed.

Lemma called_keep (b : list event) (v : view) w : In w (called v) -> In w (called (fold_left observe b v)).
Proof.
  revert v. induction b as [|e b IH]; intros v B; cbn; auto. apply IH.
  destruct e; cbn -[upd]; auto; try apply in_app_iff; try left; unfold v_asked, v_give; destruct (own v h); cbn -[upd]; auto; destruct r as [[]|]; auto.
Qed.
Theorem handler_once a w h r b : tr = a ++ EHandler w h r :: b -> forall h' r', ~ In (EHandler w h' r') b.
Proof.
  intros T h' r' Q. apply in_split in Q as (x & y & ->). rewrite app_comm_cons, app_assoc in T. apply run_P in T. cbn in T.
  destruct T as (_ & T & _). apply T. rewrite view_app. cbn. apply called_keep. cbn. apply in_app_iff. cbn. auto.
Qed.
Theorem killed_why a w b : tr = a ++ EKilled w :: b -> exists a' c, a = a' ++ [EKill c] \/ a = a' ++ [EDiscard c].
Proof. intros T. exact (run_P _ _ _ T). Qed.
Theorem signal_alive a c t b : tr = a ++ ESignal c t :: b -> born (view_of a) c = true /\ over (view_of a) c = false.
Proof. intros T. exact (run_P _ _ _ T). Qed.
Theorem escape_unowned a c e b : tr = a ++ EEscape c e :: b -> forall h, own (view_of a) h <> Some c.
Proof. intros T. exact (run_P _ _ _ T). Qed.

End Run.

(** ** Everyone who waits can be served *)
Lemma done_result (s : state) v h : INV s v -> live s h = true -> done (hs s h) = true -> own v h <> None -> exc (hs s h) <> None \/ res (hs s h) <> None.
Proof.
  intros I L D O. pose proof (ih _ _ I h) as Q. unfold HI in Q. rewrite L in Q. destruct (own v h) as [c|]; [|congruence].
  destruct Q as [(Q & _)|(_ & Q & _)]; [congruence|]. destruct (fate v c) as [[]|].
  - right. destruct Q as [_ [[-> _]|[-> _]]]; discriminate.
  - left. rewrite Q. discriminate.
  - left. rewrite Q. discriminate.
  - contradiction.
Qed.
Lemma final_await (s : state) v c h w : INV s v -> cs (co s c) = Returning -> rec (co s c) = Some h -> aw (hs s h) = Some w -> ws s w = WAwait h ->
  exists s' r, step (LFinal c) s = Some (s', [EFinal c; EResult w h r]).
Proof.
  intros I Cs R A W. destruct (rec_live _ _ _ _ I R) as (L & O & _).
  assert (D : done (hs s h) = true).
  { pose proof (rec_owned _ _ _ _ I R) as Q. destruct Q as [(_ & _ & _ & _ & _ & Q)|(D & _)]; auto. now rewrite Cs in Q. }
  assert (X : exc (hs s h) <> None \/ res (hs s h) <> None) by (eapply done_result; eauto; congruence).
  cbn -[upd]. rewrite Cs. unfold final. rewrite R, L, A. unfold resume. cbn -[upd]. rewrite W.
  assert (L1 : live (set_h h (set_aw None (hs s h)) (set_c c {| cs := Dead; rec := None |} s)) h = true).
  { unfold live in *. cbn -[upd]. rewrite upd_eq. cbn. exact L. }
  rewrite L1. unfold get_result. cbn -[upd]. rewrite upd_eq. cbn. rewrite D.
  destruct (exc (hs s h)); [eauto|]. destruct (res (hs s h)); [eauto|]. destruct X; congruence.
Qed.
Lemma handler_can (s : state) v w h : INV s v -> ws s w = WPosted h -> exists s' r, step (LHandler w) s = Some (s', [EHandler w h r]).
Proof.
  intros I W. pose proof (iw _ _ I w) as Q. unfold WI in Q. rewrite W in Q. destruct Q as (L & _). cbn -[upd]. rewrite W, L. eauto.
Qed.
Lemma final_spawn (s : state) v c h w : INV s v -> cs (co s c) = Returning -> rec (co s c) = Some h -> aw (hs s h) = Some w -> ws s w = WSpawn h ->
  exists s' r, run s [LFinal c; LHandler w] = Some (s', [EFinal c; EHandler w h r]).
Proof.
  intros I Cs R A W. destruct (rec_live _ _ _ _ I R) as (L & O & _).
  cbn -[upd final]. rewrite Cs. unfold final. rewrite R, L, A. unfold resume. cbn -[upd]. rewrite W. cbn -[upd live]. rewrite !upd_eq. cbn -[upd live].
  assert (L1 : live (set_w w (WPosted h) (set_h h (set_aw None (hs s h)) (set_c c {| cs := Dead; rec := None |} s))) h = true).
  { unfold live in *. cbn -[upd]. rewrite upd_eq. cbn. exact L. }
  rewrite L1. eexists. eexists. reflexivity.
Qed.
Lemma run_cons l (s : state) s1 e1 ls s2 e2 : step l s = Some (s1, e1) -> run s1 ls = Some (s2, e2) -> run s (l :: ls) = Some (s2, e1 ++ e2).
Proof. intros H1 H2. cbn. now rewrite H1, H2. Qed.

Theorem can_be_served ls (s : state) (tr : list event) (x : V) : correct init ls -> run init ls = Some (s, tr) -> forall w h, waits (view_of tr) w = Some h ->
  exists ls' s' tr' r, run s ls' = Some (s', tr') /\ ~ undefined tr' /\ (In (EResult w h r) tr' \/ In (EHandler w h r) tr').
Proof.
  intros C H w h W. pose proof (run_INV _ _ _ C H) as I. pose proof (run_QS _ _ _ C H) as QQ.
  pose proof (iw _ _ I w) as Q. unfold WI in Q.
  assert (ND : forall e (l : list event), (match e with EBad _ => False | _ => True end) -> ~ undefined l -> ~ undefined (e :: l)).
  { intros e l He Hl (b & [->|B]); [exact He|apply Hl; exists b; exact B]. }
  assert (N0 : ~ undefined (@nil event)) by (intros (b & [])).
  assert (AW : aw (hs s h) = Some w -> exists c, own (view_of tr) h = Some c /\ rec (co s c) = Some h /\
     (cs (co s c) = Queued \/ cs (co s c) = Running \/ cs (co s c) = Returning)).
  { intros A. pose proof (ih _ _ I h) as Z. unfold HI, Free in Z. destruct (live s h) eqn:L; [|destruct Z; congruence].
    destruct (own (view_of tr) h) as [c|] eqn:O; [|destruct Z as (Z & _); congruence].
    exists c. split; auto. destruct Z as [(_ & _ & _ & R & _ & Z)|(_ & _ & Z)]; [|destruct (Z _ A); auto].
    split; auto. destruct (cs (co s c)); try contradiction; auto. congruence. }
  (* one step of return, for a running coroutine *)
  assert (RET : forall (s0 : state) (v0 : view), INV s0 v0 -> forall c, rec (co s0 c) = Some h -> cs (co s0 c) = Running ->
     exists s1, step (LReturn c x) s0 = Some (s1, [EReturn c x]) /\ INV s1 (v_fate c (FRet x) v0) /\
       rec (co s1 c) = Some h /\ cs (co s1 c) = Returning /\ aw (hs s1 h) = aw (hs s0 h) /\ ws s1 = ws s0).
  { intros s0 v0 I0 c R Cs. destruct (rec_live _ _ _ _ I0 R) as (L & _). cbn -[upd]. rewrite Cs, R, L.
    eexists. split; [reflexivity|]. cbn -[upd]. rewrite !upd_eq. cbn. split; auto.
    pose proof (rec_owned _ _ _ _ I0 R) as Q0. unfold Owned in Q0. destruct (running_fate s0 v0 c I0) as (B1 & B2 & _); [auto|]. rewrite B2 in Q0.
    apply end_INV; auto. cbn. split; auto. tauto. }
  destruct (ws s w) as [|k|k|k| |] eqn:Ww; try (destruct Q; congruence).
  - destruct Q as (A & Pv & Wt & _). assert (k = h) by congruence. subst k.
    destruct (AW A) as (c & O & R & [Cs|[Cs|Cs]]).
    + now elim (QQ c h Cs R).
    + destruct (RET s _ I c R Cs) as (s1 & S1 & I1 & R1 & C1 & A1 & W1). rewrite A in A1. rewrite <- W1 in Ww.
      destruct (final_await s1 _ c h w I1 C1 R1 A1 Ww) as (s2 & r & S2).
      exists [LReturn c x; LFinal c], s2, [EReturn c x; EFinal c; EResult w h r], r.
      split; [change [EReturn c x; EFinal c; EResult w h r] with ([EReturn c x] ++ [EFinal c; EResult w h r] ++ []) at 1; eapply run_cons; [exact S1|]; eapply run_cons; [exact S2|reflexivity]|].
      split; [repeat apply ND; auto; exact Logic.I|cbn; auto].
    + destruct (final_await s _ c h w I Cs R A Ww) as (s2 & r & S2).
      exists [LFinal c], s2, [EFinal c; EResult w h r], r.
      split; [change [EFinal c; EResult w h r] with ([EFinal c; EResult w h r] ++ []) at 1; eapply run_cons; [exact S2|reflexivity]|].
      split; [repeat apply ND; auto; exact Logic.I|cbn; auto].
  - destruct Q as (A & Pv & Wt & _). assert (k = h) by congruence. subst k.
    assert (RUN : forall (s0 : state) (v0 : view), INV s0 v0 -> forall c, rec (co s0 c) = Some h -> cs (co s0 c) = Running -> aw (hs s0 h) = Some w -> ws s0 w = WSpawn h ->
       exists s2 r, run s0 [LReturn c x; LFinal c; LHandler w] = Some (s2, [EReturn c x; EFinal c; EHandler w h r])).
    { intros s0 v0 I0 c R Cs A0 W0. destruct (RET s0 _ I0 c R Cs) as (s1 & S1 & I1 & R1 & C1 & A1 & W1). rewrite A0 in A1. rewrite <- W1 in W0.
      destruct (final_spawn s1 _ c h w I1 C1 R1 A1 W0) as (s2 & r & S2). exists s2, r.
      change [EReturn c x; EFinal c; EHandler w h r] with ([EReturn c x] ++ [EFinal c; EHandler w h r]). eapply run_cons; eauto. }
    destruct (AW A) as (c & O & R & [Cs|[Cs|Cs]]).
    + destruct (RUN (set_c c (mkC Running (rec (co s c))) s) _ (begin_INV _ _ c I Cs) c) as (s2 & r & S2); cbn -[upd]; rewrite ?upd_eq; auto.
      exists [LBegin c; LReturn c x; LFinal c; LHandler w], s2, [EBegin c; EReturn c x; EFinal c; EHandler w h r], r.
      split; [change [EBegin c; EReturn c x; EFinal c; EHandler w h r] with ([EBegin c] ++ [EReturn c x; EFinal c; EHandler w h r]); eapply run_cons; [|exact S2]; cbn -[upd]; now rewrite Cs|].
      split; [repeat apply ND; auto; exact Logic.I|cbn; auto 6].
    + destruct (RUN s _ I c R Cs A Ww) as (s2 & r & S2). eexists; exists s2; eexists; exists r. split; [exact S2|].
      split; [repeat apply ND; auto; exact Logic.I|cbn; auto].
    + destruct (final_spawn s _ c h w I Cs R A Ww) as (s2 & r & S2). eexists; exists s2; eexists; exists r. split; [exact S2|].
      split; [repeat apply ND; auto; exact Logic.I|cbn; auto].
  - destruct Q as (_ & _ & _ & _ & _ & _ & Wt & _). assert (k = h) by congruence. subst k.
    destruct (handler_can s _ w h I Ww) as (s2 & r & S2). exists [LHandler w], s2, [EHandler w h r], r.
    split; [change [EHandler w h r] with ([EHandler w h r] ++ []) at 1; eapply run_cons; [exact S2|reflexivity]|].
    split; [repeat apply ND; auto; exact Logic.I|cbn; auto].
Qed.
End Final.
