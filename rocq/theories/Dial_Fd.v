(** * Descriptors in the model of connect, and what follows a signal *)
From Coq Require Import List Bool Arith Lia.
From Verif Require Import Sock_Model Rsv_Model Dial_Model Dial_Spec Dial_Inv Dial_Good.
Import ListNotations.

Section fd.
Variable k : kind.

(** the possible effects of a step on the descriptor *)
Inductive change : option desc -> nat -> option desc -> nat -> list nat -> list nat -> Prop :=
| c_same : forall f n, change f n f n [] []
| c_opt : forall d d' n, d_id d' = d_id d -> change (Some d) n (Some d') n [] []
| c_close : forall f n, change f n None n [] (match f with Some d => [d_id d] | None => [] end)
| c_open : forall n p, change None n (Some (mkd n p [])) (S n) [n] []
| c_swap : forall f n p, change f n (Some (mkd n p [])) (S n) [n] (match f with Some d => [d_id d] | None => [] end).

Lemma opn_closing : forall f e, opened (closing f ++ e) = opened e.
Proof. intros [d|] e; reflexivity. Qed.
Lemma cls_closing : forall f, closed (closing f) = match f with Some d => [d_id d] | None => [] end.
Proof. intros [d|]; reflexivity. Qed.

Lemma attempt_change : forall s o e ok s' es, attempt s o e ok = (s', es) -> fd s = None -> change (fd s) (fresh s) (fd s') (fresh s') (opened es) (closed es).
Proof. intros s o e [x|] s' es H F; injection H as <- <-; cbn; rewrite F; constructor. Qed.
Lemma next_change : forall s o e ok s' es, next s o e ok = (s', es) -> change (fd s) (fresh s) (fd s') (fresh s') (opened es) (closed es).
Proof.
  intros s o e ok s' es H. unfold next in H. destruct (attempt s o e ok) as [s1 e1] eqn:A. injection H as <- <-.
  rewrite opn_closing, cls_app, cls_closing. destruct ok as [x|]; injection A as <- <-; cbn; rewrite app_nil_r; constructor.
Qed.
Lemma finish_change : forall s o r s' es, finish s o r = (s', es) -> change (fd s) (fresh s) (fd s') (fresh s') (opened es) (closed es).
Proof. intros s o r s' es H. injection H as <- <-. constructor. Qed.
Lemma abort_quiet : forall o o' ea, abort o = (o', ea) -> opened ea = [] /\ closed ea = [].
Proof. intros o o' ea H. unfold abort in H. destruct (o_phase o); injection H as <- <-; auto. Qed.

Lemma exec_change : forall l s s' e, exec k l s = Some (s', e) -> change (fd s) (fresh s) (fd s') (fresh s') (opened e) (closed e).
Proof.
  intros l s s' e H. destruct l; cbn [exec] in H.
  - destruct (fd s) as [d|] eqn:D, ok; injection H as <- <-; cbn; rewrite ?D; constructor.
  - destruct (fd s) as [d|] eqn:D; [|discriminate]. injection H as <- <-. cbn. now constructor.
  - destruct (op s) as [o|].
    + destruct (abort o) as [o' ea] eqn:A. injection H as <- <-. destruct (abort_quiet _ _ _ A) as [A1 A2].
      change (change (fd s) (fresh s) None (fresh s) (opened (closing (fd s) ++ ea)) (closed (closing (fd s) ++ ea))).
      rewrite opn_closing, cls_app, cls_closing, A1, A2, app_nil_r. constructor.
    + injection H as <- <-. cbn. rewrite cls_closing. replace (opened (closing (fd s))) with (@nil nat) by (destruct (fd s); reflexivity). constructor.
  - destruct (op s) as [o|].
    + destruct (abort o) as [o' ea] eqn:A. injection H as <- <-. destruct (abort_quiet _ _ _ A) as [A1 A2].
      cbn. change (change (fd s) (fresh s) (fd s) (fresh s) (opened ea) (closed ea)). rewrite A1, A2. constructor.
    + injection H as <- <-. constructor.
  - destruct (op s); [discriminate|]. destruct (fd s) as [d|] eqn:D.
    + injection H as <- <-. cbn. rewrite ?D. constructor.
    + destruct (attempt _ _ _ ok) as [s1 e1] eqn:A. injection H as <- <-.
      pose proof (attempt_change _ _ _ _ _ _ A eq_refl) as C. exact C.
  - destruct (op s); [discriminate|]. destruct (map (adopted k) l) as [|e1 eps].
    + injection H as <- <-. constructor.
    + destruct (next _ _ e1 ok) as [s1 e2] eqn:A. injection H as <- <-. exact (next_change _ _ _ _ _ _ A).
  - destruct (op s) as [o|]; [|discriminate]. destruct (passes o c).
    + destruct (abort _) as [o' ea] eqn:A. injection H as <- <-. destruct (abort_quiet _ _ _ A) as [A1 A2].
      change (change (fd s) (fresh s) (fd s) (fresh s) (opened ea) (closed ea)). rewrite A1, A2. constructor.
    + injection H as <- <-. constructor.
  - destruct (op s) as [o|]; [|discriminate]. destruct (o_phase o); [|discriminate]. injection H as <- <-. constructor.
  - destruct (op s) as [o|]; [|discriminate]. destruct (o_phase o) as [|r]; [discriminate|]. injection H as H.
    destruct (o_single o).
    + unfold single in H. destruct r, (nth_error (o_eps o) 0); exact (finish_change _ _ _ _ _ H).
    + unfold process in H. destruct (nth_error (o_eps o) (o_idx o)); [|exact (finish_change _ _ _ _ _ H)].
      destruct (fd s) as [d|] eqn:D; rewrite <- D; [|exact (finish_change _ _ _ _ _ H)].
      destruct r; [|exact (finish_change _ _ _ _ _ H)]. destruct (o_stop o); [exact (finish_change _ _ _ _ _ H)|].
      destruct (nth_error (o_eps o) (S (o_idx o))); [exact (next_change _ _ _ _ _ _ H)|exact (finish_change _ _ _ _ _ H)].
Qed.

Lemma NoDup_snoc : forall (l : list nat) a, NoDup l -> ~ In a l -> NoDup (l ++ [a]).
Proof.
  induction l as [|b l IH]; intros a N I; [repeat constructor; auto|]. inversion N; subst. cbn. constructor.
  - intro K. apply in_app_or in K. destruct K as [K|[->|[]]]; [auto|apply I; now left].
  - apply IH; [auto|intro K; apply I; now right].
Qed.

Definition sound (f : option desc) (n : nat) (O C : list nat) : Prop :=
  (forall d, In d O <-> d < n) /\ NoDup O /\ NoDup C /\
  (forall d, In d C <-> (d < n /\ match f with Some g => d_id g <> d | None => True end)) /\
  (forall g, f = Some g -> d_id g < n).

Lemma in_snoc : forall (l : list nat) a b, In a (l ++ [b]) <-> In a l \/ a = b.
Proof. intros. rewrite in_app_iff. cbn. intuition. Qed.

Lemma sound_change : forall f n f' n' o c O C, change f n f' n' o c -> sound f n O C -> sound f' n' (O ++ o) (C ++ c).
Proof.
  intros f n f' n' o c O C H (A & B & D & L & F). inversion H; subst; rewrite ?app_nil_r.
  - exact (conj A (conj B (conj D (conj L F)))).
  - split; [auto|]. split; [auto|]. split; [auto|]. split; [intro x; rewrite L, H0; tauto|].
    intros g E. injection E as <-. rewrite H0. apply F. auto.
  - destruct f as [d|]; rewrite ?app_nil_r.
    + specialize (F d eq_refl). assert (~ In (d_id d) C) as NI by (rewrite L; tauto).
      split; [auto|]. split; [auto|]. split; [apply NoDup_snoc; auto|]. split; [|discriminate].
      intro x. rewrite in_snoc, L. destruct (Nat.eq_dec x (d_id d)) as [->|N]; [tauto|]. intuition congruence.
    + exact (conj A (conj B (conj D (conj L F)))).
  - assert (~ In n O) as NI by (rewrite A; lia).
    split; [intro x; rewrite in_snoc, A; lia|]. split; [apply NoDup_snoc; auto|]. split; [auto|]. split.
    + intro x. rewrite L. cbn. lia.
    + intros g E. injection E as <-. cbn. lia.
  - assert (~ In n O) as NI by (rewrite A; lia).
    split; [intro x; rewrite in_snoc, A; lia|]. split; [apply NoDup_snoc; auto|].
    destruct f as [d|]; rewrite ?app_nil_r.
    + specialize (F d eq_refl). assert (~ In (d_id d) C) as NC by (rewrite L; tauto).
      split; [apply NoDup_snoc; auto|]. split; [|intros g E; injection E as <-; cbn; lia].
      intro x. rewrite in_snoc, L. cbn. destruct (Nat.eq_dec x (d_id d)) as [->|N]; intuition lia.
    + split; [auto|]. split; [|intros g E; injection E as <-; cbn; lia]. intro x. rewrite L. cbn. lia.
Qed.

Theorem descs_run : forall ls s es, run k ls init = Some (s, es) -> sound (fd s) (fresh s) (opened es) (closed es).
Proof.
  apply (hist_ind k (fun s es => sound (fd s) (fresh s) (opened es) (closed es))).
  - cbn. unfold sound. cbn. split; [intro; split; [tauto|lia]|]. split; [constructor|]. split; [constructor|].
    split; [intro; split; [tauto|lia]|discriminate].
  - intros s es l s' e H X. rewrite opn_app, cls_app. eapply sound_change; eauto. eapply exec_change; eauto.
Qed.

(** ** after a signal no new attempt begins *)
Definition cut (i : nat) (s : state) : Prop := i < count s /\ forall o, op s = Some o -> o_id o = i -> o_stop o = true.

Lemma abort_id : forall o o' ea, abort o = (o', ea) -> o_id o' = o_id o /\ o_stop o' = o_stop o /\ attempts (o_id o) ea = [] /\
  forall i, attempts i ea = [].
Proof. intros o o' ea H. unfold abort in H. destruct (o_phase o); injection H as <- <-; auto. Qed.

Lemma attempt_shape : forall s o e ok s' es, attempt s o e ok = (s', es) ->
  count s' = count s /\ (exists p, op s' = Some (mko (o_id o) (o_single o) (o_eps o) (o_idx o) (o_stop o) p)) /\
  forall i, i <> o_id o -> attempts i es = [].
Proof.
  intros s o e [x|] s' es H; injection H as <- <-; cbn; (split; [reflexivity|]); (split; [eauto|]); intros i N; cbn;
  (replace (o_id o =? i) with false by (symmetry; apply Nat.eqb_neq; auto)); reflexivity.
Qed.

Lemma attempts_closing : forall i f e, attempts i (closing f ++ e) = attempts i e.
Proof. intros i [d|] e; reflexivity. Qed.

Lemma next_shape : forall s o e ok s' es, next s o e ok = (s', es) ->
  count s' = count s /\ (exists p, op s' = Some (mko (o_id o) (o_single o) (o_eps o) (o_idx o) (o_stop o) p)) /\
  forall i, i <> o_id o -> attempts i es = [].
Proof.
  intros s o e ok s' es H. unfold next in H. destruct (attempt s o e ok) as [s1 e1] eqn:A. injection H as <- <-.
  destruct (attempt_shape _ _ _ _ _ _ A) as (P & Q & R). repeat split; auto. intros i N. rewrite attempts_closing. auto.
Qed.

Lemma finish_cut : forall s o r s' es i, finish s o r = (s', es) -> cut i s -> cut i s' /\ attempts i es = [].
Proof. intros s o r s' es i H [A B]. injection H as <- <-. repeat split; auto. discriminate. Qed.

Lemma cut_step : forall i l s s' e, exec k l s = Some (s', e) -> cut i s -> cut i s' /\ attempts i e = [].
Proof.
  intros i l s s' e H CU. pose proof CU as [C1 C2]. destruct l; cbn [exec] in H.
  - destruct (fd s) as [d|], ok; injection H as <- <-; repeat split; auto.
  - destruct (fd s) as [d|]; [|discriminate]. injection H as <- <-; repeat split; auto.
  - destruct (op s) as [o|] eqn:O.
    + destruct (abort o) as [o' ea] eqn:A. injection H as <- <-. destruct (abort_id _ _ _ A) as (A1 & A2 & _ & A4).
      split; [|change (attempts i (closing (fd s) ++ ea) = []); rewrite attempts_closing; auto].
      split; [exact C1|]. cbn. intros o2 E I. injection E as <-. rewrite A2. apply C2; congruence.
    + injection H as <- <-. split; [|destruct (fd s); reflexivity]. split; [exact C1|discriminate].
  - destruct (op s) as [o|] eqn:O.
    + destruct (abort o) as [o' ea] eqn:A. injection H as <- <-. destruct (abort_id _ _ _ A) as (A1 & A2 & _ & A4).
      split; [|exact (A4 i)]. split; [exact C1|]. cbn. intros o2 E I. injection E as <-. rewrite A2. apply C2; congruence.
    + injection H as <- <-. auto.
  - destruct (op s) as [o|] eqn:O; [discriminate|]. destruct (fd s) as [d|] eqn:D.
    + injection H as <- <-. split; [split; cbn; [lia|intros o E I; injection E as <-; cbn in I; lia]|].
      cbn. replace (count s =? i) with false by (symmetry; apply Nat.eqb_neq; lia). reflexivity.
    + destruct (attempt _ _ _ ok) as [s1 e1] eqn:A. injection H as <- <-. destruct (attempt_shape _ _ _ _ _ _ A) as (P & (p & Q) & R). cbn in P, Q, R.
      split; [split; [lia|]|apply (R i); lia]. intros o E I. rewrite Q in E. injection E as <-. cbn in I. lia.
  - destruct (op s) as [o|] eqn:O; [discriminate|]. destruct (map (adopted k) l) as [|e1 eps].
    + injection H as <- <-. split; [split; cbn; [lia|intros o E I; injection E as <-; cbn in I; lia]|reflexivity].
    + destruct (next _ _ _ ok) as [s1 e2] eqn:A. injection H as <- <-. destruct (next_shape _ _ _ _ _ _ A) as (P & (p & Q) & R). cbn in P, Q, R.
      split; [split; [lia|]|apply (R i); lia]. intros o E I. rewrite Q in E. injection E as <-. cbn in I. lia.
  - destruct (op s) as [o|] eqn:O; [|discriminate]. destruct (passes o c).
    + destruct (abort _) as [o' ea] eqn:A. injection H as <- <-. destruct (abort_id _ _ _ A) as (A1 & A2 & _ & A4). cbn in A2.
      split; [|exact (A4 i)]. split; [exact C1|]. cbn. intros o2 E I. injection E as <-. exact A2.
    + injection H as <- <-. split; [|reflexivity]. split; [exact C1|]. rewrite O. exact C2.
  - destruct (op s) as [o|] eqn:O; [|discriminate]. destruct (o_phase o); [|discriminate]. injection H as <- <-.
    split; [|reflexivity]. split; [exact C1|]. cbn. intros o2 E I. injection E as <-. cbn in *. apply C2; auto.
  - destruct (op s) as [o|] eqn:O; [|discriminate]. destruct (o_phase o) as [|r]; [discriminate|]. injection H as H.
    assert (cut i s) as CU' by (split; [auto|rewrite O; auto]).
    destruct (o_single o).
    + unfold single in H. destruct r, (nth_error (o_eps o) 0); exact (finish_cut _ _ _ _ _ i H CU').
    + unfold process in H. destruct (nth_error (o_eps o) (o_idx o)); [|exact (finish_cut _ _ _ _ _ i H CU')].
      destruct (fd s); [|exact (finish_cut _ _ _ _ _ i H CU')].
      destruct r; [|exact (finish_cut _ _ _ _ _ i H CU')]. destruct (o_stop o) eqn:ST; [exact (finish_cut _ _ _ _ _ i H CU')|].
      destruct (nth_error (o_eps o) (S (o_idx o))); [|exact (finish_cut _ _ _ _ _ i H CU')].
      assert (i <> o_id o) as N by (intros ->; rewrite (C2 o eq_refl eq_refl) in ST; discriminate).
      destruct (next_shape _ _ _ _ _ _ H) as (P & (p & Q) & R). cbn in P, Q, R.
      split; [split; [lia|]|apply (R i N)]. intros o2 E I. rewrite Q in E. injection E as <-. cbn in I. congruence.
Qed.

Lemma cut_run : forall i ls s s' es, run k ls s = Some (s', es) -> cut i s -> attempts i es = [].
Proof.
  intros i ls. induction ls as [|l ls IH]; intros s s' es H C; cbn in H.
  - injection H as <- <-. reflexivity.
  - destruct (exec k l s) as [[s1 e1]|] eqn:X; [|discriminate]. destruct (run k ls s1) as [[s2 e2]|] eqn:R; [|discriminate].
    injection H as <- <-. destruct (cut_step _ _ _ _ _ X C) as [C' A]. rewrite att_app, A. eapply IH; eauto.
Qed.

(** ** every connect can end *)
Lemma run_end : forall s o, op s = Some o -> exists ls s' es, run k ls s = Some (s', es) /\ Forall automatic ls /\ exists r, In (EGot (o_id o) r) es.
Proof.
  intros s o HO.
  (* let the system fail every attempt *)
  remember (2 * (length (o_eps o) - o_idx o) + match o_phase o with Waiting => 1 | Posted _ => 0 end) as n eqn:EN.
  revert s o HO EN. induction n as [n IH] using lt_wf_ind. intros s o HO EN.
  destruct (o_phase o) as [|r] eqn:PH.
  - set (s1 := mk (fd s) (fresh s) (count s) (Some (mko (o_id o) (o_single o) (o_eps o) (o_idx o) (o_stop o) (Posted (Some (Sys 0)))))).
    assert (exec k (LDone (Some 0)) s = Some (s1, [EAnswer (o_id o) (Some (Sys 0))])) as X by (cbn; rewrite HO, PH; reflexivity).
    destruct (IH (2 * (length (o_eps o) - o_idx o) + 0)) with (s := s1) (o := mko (o_id o) (o_single o) (o_eps o) (o_idx o) (o_stop o) (Posted (Some (Sys 0))))
      as (ls & s' & es & R & F & r & K); [lia|reflexivity|reflexivity|].
    exists (LDone (Some 0) :: ls), s', (EAnswer (o_id o) (Some (Sys 0)) :: es). cbn [run]. rewrite X, R. repeat split; auto.
    + constructor; [exact Logic.I|auto].
    + exists r. right. exact K.
  - destruct (if o_single o then single s o r else process s o r None) as [s1 e1] eqn:H.
    assert (exec k (LRun None) s = Some (s1, e1)) as X by (cbn; rewrite HO, PH, H; reflexivity).
    assert ((exists r', In (EGot (o_id o) r') e1) \/
            exists p, op s1 = Some (mko (o_id o) (o_single o) (o_eps o) (S (o_idx o)) (o_stop o) p) /\ S (o_idx o) < length (o_eps o)) as [K|(p & K & L)].
    { assert (forall s2 r0 , finish s2 o r0 = (s1, e1) -> exists r', In (EGot (o_id o) r') e1) as FI by (intros s2 r0 E; injection E as <- <-; exists r0; now left).
      destruct (o_single o) eqn:SI.
      - left. unfold single in H. destruct r, (nth_error (o_eps o) 0); exact (FI _ _ H).
      - unfold process in H. destruct (nth_error (o_eps o) (o_idx o)); [|left; exact (FI _ _ H)].
        destruct (fd s); [|left; exact (FI _ _ H)]. destruct r; [|left; exact (FI _ _ H)]. destruct (o_stop o); [left; exact (FI _ _ H)|].
        destruct (nth_error (o_eps o) (S (o_idx o))) eqn:NE; [|left; exact (FI _ _ H)]. right.
        destruct (next_shape _ _ _ _ _ _ H) as (_ & (p & Q) & _). cbn in Q. exists p. rewrite Q, SI. split; [reflexivity|].
        apply nth_error_Some. congruence. }
    + exists [LRun None], s1, (e1 ++ []). cbn [run]. rewrite X. repeat split; [constructor; [exact Logic.I|constructor]|]. destruct K as (r' & K).
      exists r'. apply in_or_app. auto.
    + destruct (IH (2 * (length (o_eps o) - S (o_idx o)) + match p with Waiting => 1 | Posted _ => 0 end)) with (s := s1) (2 := K)
        as (ls & s' & es & R & F & r' & K'); [destruct p; lia|reflexivity|].
      exists (LRun None :: ls), s', (e1 ++ es). cbn [run]. rewrite X, R. repeat split; [constructor; [exact Logic.I|auto]|].
      exists r'. apply in_or_app. auto.
Qed.
End fd.
