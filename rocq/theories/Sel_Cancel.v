(** Races that are started while no partner waits: cancelling the await makes the race end. *)
From Coq Require Import List Bool Arith Lia.
From Verif Require Import Channel_Model Channel_Spec Channel_Inv Rch_Chan Sel_Model Sel_Spec Sel_Chan Sel_Inv Sel_Quiet Sel_Step Sel_Live Gch_Chan.
Import ListNotations.

Section Chan.
Context {V : Type}.
Notation state := (state V).
Notation label := (label V).

(** A waiting operation whose coroutine has a cancellation slot can be cancelled, or is on its way. *)
Lemma set_r_A s i o w k : r_stage o <> Awaited -> A (look (V := V) w s k) -> A (look w (set_r i o s) k).
Proof.
  intros No Ha. destruct w; [exact Ha|]. unfold look in *. cbn. rewrite upd_eq. destruct (Nat.eqb_spec k i); [intro X; cbn in X; congruence|exact Ha].
Qed.
Lemma set_w_A s i o w k : w_stage o <> Awaited -> A (look (V := V) w s k) -> A (look w (set_w i o s) k).
Proof.
  intros No Ha. destruct w; [|exact Ha]. unfold look in *. cbn. rewrite upd_eq. destruct (Nat.eqb_spec k i); [intro X; cbn in X; congruence|exact Ha].
Qed.
Lemma rr_A (s : state) i s1 ev w k : read_resume s i = (s1, ev) -> ((w, k) <> (false, i) -> A (look w s k)) -> A (look w s1 k).
Proof.
  unfold read_resume. intros H Ha. set (s0 := set_r i (r_finish (rops s i)) s) in *.
  assert (A0 : A (look w s0 k)).
  { destruct (Bool.bool_dec w false) as [->|N]; [destruct (Nat.eq_dec k i) as [->|N]|].
    - unfold s0, look. cbn. rewrite upd_eq, Nat.eqb_refl. intro X. discriminate.
    - apply set_r_A; [discriminate|]. apply Ha. congruence.
    - apply set_r_A; [discriminate|]. apply Ha. congruence. }
  destruct (read_broken _ _); [injection H as <- <-; exact A0|]. destruct (r_cancelled _); [injection H as <- <-; exact A0|].
  destruct (buf s0) as [|b bs]; destruct (r_direct _); injection H as <- <-; try exact A0; refine (kept_A _ _ _ _ (ww_kept _ _ _) _); destruct w; exact A0.
Qed.
Lemma wres_A (s : state) i s1 ev w k : write_resume s i = (s1, ev) -> ((w, k) <> (true, i) -> A (look w s k)) -> A (look w s1 k).
Proof.
  unfold write_resume. intros H Ha. set (s0 := set_w i (w_finish (wops s i)) s) in *.
  assert (A0 : A (look w s0 k)).
  { destruct (Bool.bool_dec w true) as [->|N]; [destruct (Nat.eq_dec k i) as [->|N]|].
    - unfold s0, look. cbn. rewrite upd_eq, Nat.eqb_refl. intro X. discriminate.
    - apply set_w_A; [discriminate|]. apply Ha. congruence.
    - apply set_w_A; [discriminate|]. apply Ha. congruence. }
  destruct (w_val _); [|injection H as <- <-; exact A0]. destruct (w_closed _); [injection H as <- <-; exact A0|]. destruct (w_cancelled _); [injection H as <- <-; exact A0|].
  destruct (w_direct _); [injection H as <- <-; exact (kept_A _ _ _ _ (wr_kept _ _ _) A0)|].
  destruct (full _); injection H as <- <-; [destruct w; exact A0|]. refine (kept_A _ _ _ _ (wr_kept _ _ _) _); destruct w; exact A0.
Qed.
(** [l] is not an await by a coroutine without slot of operation [k]. *)
Definition slotted (w : bool) (k : nat) (l : label) : Prop := l <> (if w then AwWrite k false else AwRead k false).
Lemma step_A w k (s : state) l s1 ev : step s l = (s1, ev) -> Inv s -> bad s1 = None -> slotted w k l -> A (look w s k) -> A (look w s1 k).
Proof.
  unfold step. destruct (bad s) as [b|] eqn:B. { intros H _ _ _ Ha. injection H as <- <-. exact Ha. }
  intros H I B1 N Ha. destruct l as [i|i sl|j v|j sl|i|j|i|j|i|j| |q]; cbn [step_ok] in H.
  - destruct (r_stage _); injection H as <- <-; try exact Ha. apply set_r_A; [discriminate|exact Ha].
  - destruct (r_stage _) eqn:St; try (injection H as <- <-; exact Ha). unfold read_await in H. destruct (read_ready s || _); [exact (rr_A _ _ _ _ _ _ H (fun _ => Ha))|].
    destruct (wq s) as [|j q] eqn:Q.
    + injection H as <- <-. destruct w; [exact Ha|]. unfold look. cbn. rewrite upd_eq. destruct (Nat.eqb_spec k i) as [->|]; [|exact Ha].
      intros _. left. cbn. destruct sl; [reflexivity|]. destruct N. reflexivity.
    + destruct (w_handle (wops s j)) eqn:Hj; [|injection H as <- <-; discriminate B1]. refine (wres_A _ _ _ _ _ _ H _). intro Nj. unfold look in *. cbn. rewrite !upd_eq. destruct w.
      * destruct (Nat.eqb_spec k j); [congruence|exact Ha].
      * destruct (Nat.eqb_spec k i) as [->|]; [|exact Ha]. intros _. right. cbn. split; [reflexivity|]. right.
        pose proof (inv_wval _ I j) as X. destruct (w_val (wops s j)); [reflexivity|]. destruct X; [|reflexivity].
        destruct (inv_w _ I) as (_ & _ & L). destruct (L j) as (_ & _ & _ & L4 & _). cbn in L4. destruct (L4 Hj) as [-> _]. discriminate.
  - destruct (w_stage _); injection H as <- <-; try exact Ha. apply set_w_A; [discriminate|exact Ha].
  - destruct (w_stage _) eqn:St; try (injection H as <- <-; exact Ha). unfold write_await in H. destruct (write_ready s || _); [exact (wres_A _ _ _ _ _ _ H (fun _ => Ha))|].
    destruct (rq s) as [|i q] eqn:Q.
    + injection H as <- <-. destruct w; [|exact Ha]. unfold look. cbn. rewrite upd_eq. destruct (Nat.eqb_spec k j) as [->|]; [|exact Ha].
      intros _. left. cbn. destruct sl; [reflexivity|]. destruct N. reflexivity.
    + destruct (r_handle (rops s i)) eqn:Hj; [|injection H as <- <-; discriminate B1]. refine (rr_A _ _ _ _ _ _ H _). intro Nj. unfold look in *. cbn. rewrite !upd_eq. destruct w.
      * destruct (Nat.eqb_spec k j) as [->|]; [|exact Ha]. intros _. right. cbn. auto.
      * destruct (Nat.eqb_spec k i); [congruence|exact Ha].
  - injection H as <- <-. unfold read_cancel. destruct (r_slot _); [|exact Ha]. destruct w; [destruct (r_handle _); exact Ha|].
    destruct (r_handle _); unfold look; cbn; rewrite upd_eq; (destruct (Nat.eqb_spec k i); [intros _; right; cbn; auto|exact Ha]).
  - injection H as <- <-. unfold write_cancel. destruct (w_slot _); [|exact Ha]. destruct w; [|destruct (w_handle _); exact Ha].
    destruct (w_handle _); unfold look; cbn; rewrite upd_eq; (destruct (Nat.eqb_spec k j); [intros _; right; cbn; auto|exact Ha]).
  - assert (X : (s, []) = (s1, ev) \/ read_interrupt s i = (s1, ev)) by (destruct (r_stage _); auto). clear H. destruct X as [H|H]; [injection H as <- <-; exact Ha|].
    unfold read_interrupt in H. destruct (is_some _); [injection H as <- <-; exact Ha|]. set (s2 := set_r i _ s) in H.
    assert (A2 : A (look w s2 k)).
    { unfold s2, look. cbn. destruct w; [exact Ha|]. rewrite upd_eq. destruct (Nat.eqb_spec k i); [intros _; right; cbn; auto|exact Ha]. }
    destruct (r_handle _); [exact (rr_A _ _ _ _ _ _ H (fun _ => A2))|injection H as <- <-; exact A2].
  - assert (X : (s, []) = (s1, ev) \/ write_interrupt s j = (s1, ev)) by (destruct (w_stage _); auto). clear H. destruct X as [H|H]; [injection H as <- <-; exact Ha|].
    unfold write_interrupt in H. destruct (w_direct _); [injection H as <- <-; exact Ha|]. set (s2 := set_w j _ s) in H.
    assert (A2 : A (look w s2 k)).
    { unfold s2, look. cbn. destruct w; [|exact Ha]. rewrite upd_eq. destruct (Nat.eqb_spec k j); [intros _; right; cbn; auto|exact Ha]. }
    destruct (w_handle _); [exact (wres_A _ _ _ _ _ _ H (fun _ => A2))|injection H as <- <-; exact A2].
  - destruct (r_stage _); injection H as <- <-; try exact Ha; (apply (set_r_A s); [discriminate|exact Ha]).
  - destruct (w_stage _); injection H as <- <-; try exact Ha; (apply (set_w_A s); [discriminate|exact Ha]).
  - injection H as <- <-. unfold close. set (s2 := set_rq [] _). assert (A2 : A (look w s2 k)).
    { apply (kept_A w k s); [|exact Ha]. refine (kept_trans _ _ _ _ _ (close_reads_kept (rq s) (set_closed s) w k) _). apply kept_eq; destruct w; reflexivity. }
    refine (kept_A w k s2 _ _ A2). refine (kept_trans _ _ _ _ _ (close_writes_kept (wq s) s2 w k) _). apply kept_eq; destruct w; reflexivity.
  - unfold run_job in H. destruct (nth_error _ q) as [[i|j]|]; [| |injection H as <- <-; exact Ha].
    + destruct (is_awaited _); [|injection H as <- <-; exact Ha]. refine (rr_A _ _ _ _ _ _ H _). intros _. exact Ha.
    + destruct (is_awaited _); [|injection H as <- <-; exact Ha]. refine (wres_A _ _ _ _ _ _ H _). intros _. exact Ha.
Qed.
Definition Z (w : bool) (k : nat) (x : state) : Prop := bad x = None -> Inv x /\ A (look w x k).
Lemma step_Z w k (s : state) l s1 ev : step s l = (s1, ev) -> slotted w k l -> Z w k s -> Z w k s1.
Proof.
  intros H N Zs B1. assert (B : bad s = None). { destruct (bad s) eqn:B; [|reflexivity]. unfold step in H. rewrite B in H. injection H as <- <-. congruence. }
  destruct (Zs B) as [I Ha]. split; [|exact (step_A _ _ _ _ _ _ H I B1 N Ha)]. pose proof (step_inv s l I) as P. rewrite H in P. apply P. exact B1.
Qed.
End Chan.

Section Cancel.
Context {V : Type}.
Variable cf : cfg V.
Variable Ap : apart cf.
Notation rstate := (rstate V).
Notation revent := (revent V).
Notation rlabel := (rlabel V).
Notation op s k := (look (isw cf k) (chs s (chan cf k)) k).
Notation G := (@Sel_Step.G V cf).

Definition AS (s : rstate) : Prop := forall c w k, k < n cf -> Z w k (chs s c).
(** Pieces of a step. *)
Definition W (s s1 : rstate) : Prop := (AS s -> AS s1) /\ (idx s <> None -> idx s1 <> None).
Lemma W_refl s : W s s.
Proof. split; auto. Qed.
Lemma W_trans a b c : W a b -> W b c -> W a c.
Proof. unfold W. intros [A1 A2] [B1 B2]. auto. Qed.
Lemma on_W c l s s1 ev : on c l s = (s1, ev) -> (forall w k, k < n cf -> slotted w k l) -> W s s1.
Proof.
  intros O Sl. apply on_eq in O as (x & S & ->). split; [|auto]. intros As c' w k K. cbn. rewrite upd_eq. destruct (Nat.eqb_spec c' c) as [->|]; [|apply As, K].
  exact (step_Z _ _ _ _ _ _ S (Sl w k K) (As c w k K)).
Qed.
Lemma sl_ok : forall k' w k, slotted w k (making cf k') /\ slotted w k (awaiting cf k') /\ slotted w k (interrupting cf k') /\ slotted w k (cancelling cf k') /\ slotted w k (destroying cf k').
Proof.
  intros k' w k. unfold slotted, making, awaiting, interrupting, cancelling, destroying. destruct (act cf k'), (isw cf k'), w; repeat split; discriminate.
Qed.
Lemma sl_own l : own cf l = false -> forall w k, k < n cf -> slotted w k l.
Proof. intros O w k K E. subst l. apply Nat.ltb_lt in K. destruct w; cbn [own] in O; congruence. Qed.
Lemma complete_W k r s : W s (complete cf k r s).
Proof. split; [auto|]. intros _. cbn. discriminate. Qed.
Lemma each_W f : (forall s k s1 e, f s k = (s1, e) -> W s s1) -> forall ks (s s1 : rstate) e, each f ks s = (s1, e) -> W s s1.
Proof.
  intro Hf. induction ks as [|k t IH]; intros s s1 e H; cbn [each] in H; [injection H as <- <-; apply W_refl|].
  destruct (f s k) as [s2 e2] eqn:E2. destruct (each f t s2) as [s3 e3] eqn:E3. injection H as <- <-. exact (W_trans _ _ _ (Hf _ _ _ _ E2) (IH _ _ _ E3)).
Qed.
Ltac sl := intros w0 k0 K0; apply sl_ok.
Lemma interrupt_one_W s k s1 e : interrupt_one cf s k = (s1, e) -> W s s1.
Proof.
  unfold interrupt_one. destruct (working s k); [|intro H; injection H as <- <-; apply W_refl]. destruct (on _ _ s) as [s2 ev] eqn:O. intro H. injection H as <- <-.
  eapply W_trans; [eapply on_W; [exact O|sl]|]. destruct (answer _ _ _); [apply complete_W|apply W_refl].
Qed.
Lemma emit_one_W s k s1 e : emit_one cf s k = (s1, e) -> W s s1.
Proof.
  unfold emit_one. destruct (armed s k); [|intro H; injection H as <- <-; apply W_refl]. destruct (on _ _ _) as [s2 ev] eqn:O. intro H. injection H as <- <-.
  exact (on_W _ _ _ _ _ O ltac:(sl)).
Qed.
Lemma forward_one_W s k s1 e : forward_one cf s k = (s1, e) -> W s s1.
Proof.
  unfold forward_one. destruct (armed s k); [|intro H; injection H as <- <-; apply W_refl]. destruct (on _ _ _) as [s2 ev] eqn:O. intro H. injection H as <- <-.
  exact (on_W _ _ _ _ _ O ltac:(sl)).
Qed.
Lemma cancel_all_W m s s1 e : cancel_all cf m s = (s1, e) -> W s s1.
Proof.
  unfold cancel_all. destruct (each (interrupt_one cf) _ s) as [s2 e2] eqn:E2. destruct (each (emit_one cf) _ s2) as [s3 e3] eqn:E3. intro H. injection H as <- <-.
  exact (W_trans _ _ _ (each_W _ interrupt_one_W _ _ _ _ E2) (each_W _ emit_one_W _ _ _ _ E3)).
Qed.

(** While the race is undecided every member that was started can be cancelled. *)
Definition AR (s : rstate) : Prop := idx s = None -> forall k, working s k = true -> armed s k = true.
Definition X (s s1 : rstate) : Prop := W s s1 /\ (AR s -> AR s1).
Lemma X_refl s : X s s.
Proof. split; [apply W_refl|auto]. Qed.
Lemma X_trans a b c : X a b -> X b c -> X a c.
Proof. unfold X. intros [A1 A2] [B1 B2]. split; [exact (W_trans _ _ _ A1 B1)|auto]. Qed.
Lemma on_X c l s s1 ev : on c l s = (s1, ev) -> (forall w k, k < n cf -> slotted w k l) -> X s s1.
Proof. intros O Sl. split; [exact (on_W _ _ _ _ _ O Sl)|]. apply on_eq in O as (x & S & ->). intros Ar I k. exact (Ar I k). Qed.
Lemma dec_X s s1 : W s s1 -> idx s1 <> None -> X s s1.
Proof. intros Ws D. split; [exact Ws|]. intros _ I. congruence. Qed.
Lemma finish_X k r s s1 e : finish cf k r s = (s1, e) -> X s s1.
Proof.
  unfold finish. intro H. pose proof (cancel_all_W _ _ _ _ H) as Wc. apply dec_X; [exact (W_trans _ _ _ (complete_W _ _ _) Wc)|]. apply Wc. cbn. discriminate.
Qed.
Lemma each_X f : (forall s k s1 e, f s k = (s1, e) -> X s s1) -> forall ks (s s1 : rstate) e, each f ks s = (s1, e) -> X s s1.
Proof.
  intro Hf. induction ks as [|k t IH]; intros s s1 e H; cbn [each] in H; [injection H as <- <-; apply X_refl|].
  destruct (f s k) as [s2 e2] eqn:E2. destruct (each f t s2) as [s3 e3] eqn:E3. injection H as <- <-. exact (X_trans _ _ _ (Hf _ _ _ _ E2) (IH _ _ _ E3)).
Qed.
Lemma forward_one_X s k s1 e : forward_one cf s k = (s1, e) -> X s s1.
Proof.
  unfold forward_one. destruct (armed s k); [|intro H; injection H as <- <-; apply X_refl]. destruct (on _ _ _) as [s2 ev] eqn:O. intro H. injection H as <- <-.
  exact (on_X _ _ _ _ _ O ltac:(sl)).
Qed.
Lemma interrupt_fork_X s k s1 e : interrupt_fork cf s k = (s1, e) -> X s s1.
Proof.
  unfold interrupt_fork. destruct (working s k); [|intro H; injection H as <- <-; apply X_refl]. destruct (on _ _ s) as [s2 ev] eqn:O. intro H.
  pose proof (on_X _ _ _ _ _ O ltac:(sl)) as Xo. destruct (answer _ _ _) as [r|]; [|injection H as <- <-; exact Xo]. destruct (finish cf k r s2) as [s3 e3] eqn:F. injection H as <- <-.
  exact (X_trans _ _ _ Xo (finish_X _ _ _ _ _ F)).
Qed.
Lemma settle_X s s1 e : settle cf s = (s1, e) -> X s s1.
Proof.
  unfold settle. destruct (pc s) as [| |m|] eqn:P; try (intro H; injection H as <- <-; apply X_refl). destruct (forallb _ _); [|intro H; injection H as <- <-; apply X_refl].
  destruct (each _ _ s) as [s2 e2] eqn:E2. assert (X2 : X s s2).
  { revert E2. apply each_X. intros a k b e0 H. destruct (on _ _ a) as [c ev] eqn:O. injection H as <- <-. exact (on_X _ _ _ _ _ O ltac:(sl)). }
  assert (Xp : X s (set_pc Returned s2)).
  { destruct X2 as [[A1 A2] A3]. split; [split; [exact A1|exact A2]|]. intros _ _ k Wk. unfold working in Wk. cbn in Wk. rewrite andb_false_r in Wk. discriminate. }
  assert (Xu : X s (set_ub s2)) by exact X2.
  destruct (idx s); [destruct (out s); [|destruct (forallb _ _)]|]; intro H; injection H as <- <-; assumption.
Qed.
Lemma meet_X c j l m s s1 e : (forall w k, k < n cf -> slotted w k l) -> meet cf c j l m s = (s1, e) -> X s s1 /\ idx s1 <> None.
Proof.
  intro Sl. unfold meet. destruct (idx s) as [i|] eqn:Ii. { intro H. injection H as <- <-. split; [exact (X_refl s)|cbn; congruence]. }
  destruct (transact cf m s) as [s2 e2] eqn:T. cbn [seq2]. unfold resume. destruct (on c l s2) as [s3 ev] eqn:O. unfold transact in T.
  pose proof (cancel_all_W _ _ _ _ T) as Wt. assert (D2 : idx s2 <> None) by (apply Wt; discriminate).
  pose proof (on_W _ _ _ _ _ O Sl) as Wo. assert (W3 : W s s3).
  { refine (W_trans _ _ _ _ Wo). destruct Wt as [A1 A2]. split; [exact A1|intros _; exact D2]. }
  assert (D3 : idx s3 <> None) by (apply Wo; exact D2).
  destruct (answer _ _ _) as [r|]; [|intro H; injection H as <- <-; split; [apply dec_X; assumption|assumption]].
  cbn [seq2]. destruct (finish cf m r s3) as [s4 e4] eqn:F. intro H. injection H as <- <-. destruct (finish_X _ _ _ _ _ F) as [Wf _].
  assert (D4 : idx s4 <> None) by (apply Wf; exact D3). split; [apply dec_X; [exact (W_trans _ _ _ W3 Wf)|exact D4]|exact D4].
Qed.
Lemma env_one_X c l s s1 e : own cf l = false -> env_one cf c l s = (s1, e) -> X s s1.
Proof.
  intros O H. pose proof (sl_own l O) as Sl. unfold env_one in H.
  assert (R : forall m, resume cf c l m s = (s1, e) -> X s s1).
  { intros m. unfold resume. destruct (on c l s) as [s2 ev] eqn:On. pose proof (on_X _ _ _ _ _ On Sl) as Xo.
    destruct (answer _ _ _) as [r|]; [|intro Q; injection Q as <- <-; exact Xo]. cbn [seq2]. destruct (finish cf m r s2) as [s3 e3] eqn:F. intro Q. injection Q as <- <-.
    exact (X_trans _ _ _ Xo (finish_X _ _ _ _ _ F)). }
  destruct (affects cf (chs s c) l) as [m|]; [|destruct (on c l s) as [s2 ev] eqn:On; injection H as <- <-; exact (on_X _ _ _ _ _ On Sl)].
  destruct l; try exact (R m H); exact (proj1 (meet_X _ _ _ _ _ _ _ Sl H)).
Qed.
Lemma start_one_X k b s s1 e : pc s = Starting k b -> start_one cf k s = (s1, e) -> X s s1.
Proof.
  intros P H. unfold start_one in H. destruct (on _ (making cf k) s) as [sa ea] eqn:Oa. pose proof (on_X _ _ _ _ _ Oa ltac:(sl)) as Xa.
  assert (Pa : pc sa = Starting k b) by (apply on_eq in Oa as (x & _ & ->); exact P).
  destruct (affects _ _ _) as [m|].
  { destruct (meet _ _ _ _ _ _) as [s2 e2] eqn:Mt. injection H as <- <-. destruct (meet_X _ _ (awaiting cf k) _ _ _ _ ltac:(sl) Mt) as [Xm D].
    pose proof (X_trans _ _ _ Xa Xm) as [[A1 A2] A3]. apply dec_X; [split; [exact A1|exact A2]|exact D]. }
  destruct (on _ (awaiting cf k) sa) as [sb eb] eqn:Ob. pose proof (on_X _ _ _ _ _ Ob ltac:(sl)) as Xb.
  assert (Pb : pc sb = Starting k b) by (apply on_eq in Ob as (x & _ & ->); exact Pa).
  pose proof (X_trans _ _ _ Xa Xb) as Xs. destruct (answer _ k eb) as [r|].
  - unfold seq2 in H. destruct (finish cf k r _) as [s3 e3] eqn:F. destruct (settle cf s3) as [s4 e4] eqn:Se. injection H as <- <-.
    refine (X_trans _ _ _ _ (settle_X _ _ _ Se)). destruct (finish_X _ _ _ _ _ F) as [Wf Af]. destruct Xs as [Ws As].
    apply dec_X; [refine (W_trans _ _ _ _ Wf); destruct Ws as [A1 A2]; split; [exact A1|exact A2]|].
    unfold finish in F. apply (cancel_all_W _ _ _ _ F). cbn. discriminate.
  - injection H as <- <-. destruct Xs as [[A1 A2] A3]. split; [split; [exact A1|exact A2]|]. intros Ar I j Wj. specialize (A3 Ar I j). unfold working in *. cbn in *.
    rewrite Pb in A3. rewrite upd_eq. destruct (Nat.eqb_spec j k) as [->|N]; [reflexivity|]. apply A3. apply andb_true_iff in Wj as [W1 W2]. rewrite W1. cbn.
    apply Nat.ltb_lt. apply Nat.leb_le in W2. lia.
Qed.
Lemma rstep_X s l s1 e : rstep cf s l = Some (s1, e) -> X s s1.
Proof.
  unfold rstep. destruct (ub s); [discriminate|]. destruct l as [| |c l| |].
  - destruct (pc s) eqn:P; try discriminate. intro H. injection H as <- <-. split; [split; auto|]. intros _ _ k Wk. unfold working in Wk. cbn in Wk. rewrite andb_false_r in Wk. discriminate.
  - destruct (pc s) as [|k r| |] eqn:P; try discriminate. destruct (k <? n cf) eqn:L.
    + intro H. injection H as H. exact (start_one_X _ _ _ _ _ P H).
    + intro H. injection H as H. refine (X_trans _ _ _ _ (settle_X _ _ _ H)). split; [split; auto|]. intros Ar I j Wj. specialize (Ar I j). unfold working in *. cbn in *. rewrite P in Ar.
      apply Ar. apply andb_true_iff in Wj as [W1 W2]. rewrite W1. cbn. apply Nat.ltb_lt. apply Nat.ltb_ge in L. apply Nat.ltb_lt in W2. lia.
  - destruct (may_run _ _ && negb (own cf l)) eqn:E; [|discriminate]. apply andb_true_iff in E as [_ O]. apply negb_true_iff in O. intro H. injection H as H. unfold seq2 in H.
    destruct (env_one cf c l s) as [s2 e2] eqn:En. destruct (settle cf s2) as [s3 e3] eqn:Se. injection H as <- <-. exact (X_trans _ _ _ (env_one_X _ _ _ _ _ O En) (settle_X _ _ _ Se)).
  - destruct (pc s) as [| |m|]; try discriminate. intro H. injection H as H. exact (each_X _ forward_one_X _ _ _ _ H).
  - destruct (pc s) as [| |m|]; try discriminate. intro H. injection H as H. unfold seq2 in H. destruct (each _ _ s) as [s2 e2] eqn:En. destruct (settle cf s2) as [s3 e3] eqn:Se.
    injection H as <- <-. exact (X_trans _ _ _ (each_X _ interrupt_fork_X _ _ _ _ En) (settle_X _ _ _ Se)).
Qed.
Lemma rrun_X : forall ls s s1 e, rrun cf s ls = Some (s1, e) -> X s s1.
Proof.
  induction ls as [|l t IH]; intros s s1 e H; cbn [rrun] in H; [injection H as <- <-; apply X_refl|].
  destruct (rstep cf s l) as [[s2 e2]|] eqn:St; [|discriminate]. destruct (rrun cf s2 t) as [[s3 e3]|] eqn:R; [|discriminate]. injection H as <- <-.
  exact (X_trans _ _ _ (rstep_X _ _ _ _ St) (IH _ _ _ R)).
Qed.
Lemma rinit_X : AS (rinit cf) /\ AR (rinit cf).
Proof.
  split.
  - intros c w k K _. split; [apply init_inv|]. intro St. pose proof (init_look (V := V) w (isvoid cf c) (lim cf c) k) as E. cbn [rinit chs] in St. congruence.
  - intros _ k Wk. unfold working in Wk. cbn in Wk. discriminate.
Qed.

(** After the cancellation every member is about to be resumed. *)
Lemma forward_D : forall ks (s s1 : rstate) e, each (forward_one cf) ks s = (s1, e) -> NoDup ks -> (forall k, In k ks -> k < n cf /\ armed s k = true) ->
  AS s -> (forall c, bad (chs s c) = None) ->
  (forall k, In k ks -> D (op s1 k)) /\ (forall k, ~ In k ks -> k < n cf -> look (isw cf k) (chs s1 (chan cf k)) k = op s k) /\ idx s1 = idx s.
Proof.
  induction ks as [|k t IH]; intros s s1 e H Nd Ha As B; cbn [each] in H.
  - injection H as <- <-. split; [intros k []|auto].
  - destruct (forward_one cf s k) as [s2 e2] eqn:E2. destruct (each _ t s2) as [s3 e3] eqn:E3. injection H as <- <-. inversion Nd; subst.
    destruct (Ha k (or_introl eq_refl)) as [K Ak]. pose proof (forward_one_W _ _ _ _ E2) as [W2 _]. specialize (W2 As).
    unfold forward_one in E2. rewrite Ak in E2. destruct (on _ _ s) as [sx ev] eqn:O. injection E2 as <- <-. apply on_eq in O as (x & S & ->). rewrite can_eq in S.
    pose proof (As (chan cf k) (isw cf k) k K (B _)) as [_ A0]. destruct (cancel_op _ _ _ _ _ S (B _) A0) as (_ & Bx & _ & _ & Dk).
    destruct (cancel_any _ _ _ _ _ S) as (_ & _ & Kp & _).
    destruct (IH _ _ _ E3 H2) as (Q1 & Q2 & Q3).
    + intros j J. exact (Ha j (or_intror J)).
    + exact W2.
    + intro c. cbn. rewrite upd_eq. destruct (Nat.eqb c (chan cf k)); [exact Bx|apply B].
    + split; [|split; [|exact Q3]].
      * intros j [<-|J]; [|exact (Q1 j J)]. rewrite (Q2 k H1 K). cbn [chs]. rewrite upd_eq, Nat.eqb_refl. exact Dk.
      * intros j J Jn. rewrite (Q2 j (fun Y => J (or_intror Y)) Jn). cbn [chs]. rewrite upd_eq. destruct (Nat.eqb_spec (chan cf j) (chan cf k)) as [Ec|]; [|reflexivity].
        assert (Nk : j <> k) by (intros ->; apply J; left; reflexivity). destruct (Kp (isw cf j) j) as [Kp1 _]; [congruence|]. rewrite Kp1, Ec. reflexivity.
Qed.

(** The executor resumes the first member. *)
Lemma resume_first s m k : G s -> pc s = Waiting m -> idx s = None -> k < m -> D (op s k) ->
  exists q s1 e, env_one cf (chan cf k) (Run q) s = (s1, e) /\ G s1 /\ pc s1 = Waiting m /\ idx s1 <> None.
Proof.
  intros Gs P Ii Km Dk. pose proof (g_m _ _ Gs) as Mm. pose proof (g_start _ _ Gs) as Lm. rewrite P in Lm. assert (K : k < n cf) by lia. assert (N : k <> n cf) by lia.
  pose proof (g_dec _ _ Gs) as Dc. rewrite Ii in Dc. destruct Dc as [Fn On].
  assert (Wk : working s k = true) by (unfold working; rewrite P, Fn; apply Nat.ltb_lt; exact Km).
  pose proof (proj2 (m_k1 _ _ _ Mm k K N) Wk) as Aw. pose proof (m_k0 _ _ _ Mm k K N Aw) as Dr.
  destruct (Dk Aw) as [Hh [Ck|Dd]]; [|congruence]. pose proof (m_val _ _ _ Mm k K ltac:(congruence)) as Va.
  assert (J : exists q, nth_error (posted (chs s (chan cf k))) q = Some (job_of (isw cf k) k)).
  { clear - Mm Aw Ck Hh. pose proof (m_inv _ _ _ Mm (chan cf k)) as I. destruct (isw cf k); cbn [look job_of] in *.
    - destruct (inv_w _ I) as (_ & _ & Q). destruct (Q k) as (_ & _ & Q3 & _). cbn beta in *. destruct (Q3 Aw) as [[H1 _]|[_ J]]; [congruence|].
      unfold wjobs in J. apply in_flat_map in J as ([i'|j'] & J & Y); cbn in Y; [destruct Y|destruct Y as [->|[]]]. apply In_nth_error in J. exact J.
    - destruct (inv_r _ I) as (_ & _ & Q). destruct (Q k) as (_ & _ & Q3 & _). cbn beta in *. destruct (Q3 Aw) as [[H1 _]|[_ J]]; [congruence|].
      unfold rjobs in J. apply in_flat_map in J as ([i'|j'] & J & Y); cbn in Y; [destruct Y as [->|[]]|destruct Y]. apply In_nth_error in J. exact J. }
  destruct J as [q J]. exists q.
  assert (Af : affects cf (chs s (chan cf k)) (Run q) = Some k).
  { cbn [affects]. unfold resumed. rewrite J. pose proof K as K'. apply Nat.ltb_lt in K'. destruct (isw cf k); cbn [job_of]; rewrite K'; reflexivity. }
  unfold env_one. rewrite Af. unfold resume.
  destruct (on (chan cf k) (Run q) s) as [s3 ev] eqn:O. apply on_eq in O as (x & S & ->).
  destruct (run_member _ _ _ _ _ _ S (m_bad _ _ _ Mm _) (m_inv _ _ _ Mm _) J) as (R1 & Cs & Nn). destruct (Nn Ck Aw) as [Ne Bx]. rewrite Va in Cs.
  destruct Cs as [[-> _]|(_ & R2 & Vx & r & De & R3)]; [congruence|]. assert (Ix : Inv x).
  { pose proof (step_inv (chs s (chan cf k)) (Run q) (m_inv _ _ _ Mm _)) as Y. rewrite S in Y. apply Y. exact Bx. }
  rewrite (done_answer _ _ _ _ _ De). unfold seq2. rewrite (m_ub _ _ _ Mm), Bx. cbn [orb is_some]. set (s2 := mkR _ _ _ _ _ _ _).
  destruct (finish cf k r s2) as [s4 e4] eqn:F. do 2 eexists. split; [reflexivity|].
  assert (M2 : Sel_Quiet.M cf k s2) by (apply on_exempt; auto; apply M_weaken; exact Mm).
  assert (St2 : c_stage (op s2 k) = Finished) by (cbn [s2 chs]; rewrite upd_eq, Nat.eqb_refl; exact R2).
  assert (D2 : match idx s2 with None => (forall j, fin s2 j = false) /\ out s2 = None
               | Some i0 => (i0 = k /\ ok r = true) \/ (i0 < n cf /\ fin s2 i0 = true /\ out s2 <> None /\ i0 <> k) end).
  { cbn [s2 idx fin out]. rewrite Ii. auto. }
  destruct (finish_spec _ _ _ _ _ _ M2 K St2 D2 F) as (Q1 & Q2' & _ & Q5 & Q6).
  assert (P4 : pc s4 = Waiting m) by (rewrite Q2'; exact P).
  split; [apply (G_intro cf s4 m); auto|]. auto.
Qed.

Lemma settle_safe s m s1 e : G s -> pc s = Waiting m -> idx s <> None -> settle cf s = (s1, e) -> ub s1 = false.
Proof.
  intros Gs P Ni Se. pose proof (m_ub _ _ _ (g_m _ _ Gs)) as U0. unfold settle in Se. rewrite P in Se. destruct (forallb (fin s) (seq 0 m)) eqn:Fb; [|injection Se as <- <-; exact U0].
  pose proof (g_dec _ _ Gs) as Dc. destruct (idx s) as [i|]; [|congruence]. destruct Dc as (_ & _ & Oo & _). destruct (each _ _ s) as [s5 e5] eqn:E5.
  destruct (out s) as [r|]; [|congruence]. injection Se as <- <-. cbn.
  fold (destroy_one (V := V) cf) in E5. pose proof (g_start _ _ Gs) as Lm. rewrite P in Lm. rewrite forallb_forall in Fb. destruct (g_m _ _ Gs) as [U B I Ab Vv K1 K0].
  assert (Lq : forall j, In j (seq 0 m) -> j < n cf) by (intros j J; apply in_seq in J; lia).
  assert (Wn : forall j, j < n cf -> c_stage (op s j) <> Awaited).
  { intros j J Aw. apply (K1 j J) in Aw; [|lia]. unfold working in Aw. rewrite P in Aw. apply andb_true_iff in Aw as [A1 A2]. apply Nat.ltb_lt in A2.
    rewrite Fb in A1; [discriminate|]. apply in_seq. lia. }
  destruct (destroy_loop cf _ _ _ _ Lq U B I Ab Vv Wn E5) as (_ & U2 & _). exact U2.
Qed.
Lemma quiet_cancel ls : quiet_start (V := V) cf ls -> quiet_start cf (ls ++ [Cancel]).
Proof.
  intros Q p q s e E R. assert (exists q', ls = p ++ Await :: q').
  { clear R Q. revert p E. induction ls as [|l t IH]; intros p E.
    - exfalso. cbn in E. destruct p as [|y p]; [discriminate|]. injection E as _ E. destruct p; discriminate.
    - destruct p as [|y p]; cbn in E; injection E as <- E.
      + exists t. reflexivity.
      + destruct (IH p E) as [q' ->]. exists q'. reflexivity. }
  destruct H as [q' ->]. exact (Q p q' s e eq_refl R).
Qed.
Lemma rrun_split : forall a b s s2 e, rrun cf s (a ++ b) = Some (s2, e) -> exists s1 e1 e2, rrun (V := V) cf s a = Some (s1, e1) /\ rrun cf s1 b = Some (s2, e2).
Proof.
  induction a as [|l t IH]; intros b s s2 e H; cbn [rrun app] in *; [eauto|].
  destruct (rstep cf s l) as [[s3 e3]|]; [|discriminate]. destruct (rrun cf s3 (t ++ b)) as [[s4 e4]|] eqn:R; [|discriminate]. injection H as <- <-.
  destruct (IH _ _ _ _ R) as (s1 & e1 & e2 & -> & R2). eauto.
Qed.
Theorem cancel_ends (ls : list rlabel) (s : rstate) tr : quiet_start cf ls -> rrun cf (rinit cf) (ls ++ [Cancel]) = Some (s, tr) -> ub s = false ->
  exists ls' s' tr' m r, Forall resumption ls' /\ rrun cf s ls' = Some (s', tr') /\ ub s' = false /\ ends (tr ++ tr') = [(m, r)].
Proof.
  intros Q R U. pose proof (quiet_cancel _ Q) as Qc. destruct (idx s) as [i|] eqn:Ii.
  { apply (returns cf Ap (ls ++ [Cancel]) s tr Qc R U). congruence. }
  destruct (rrun_split _ _ _ _ _ R) as (s0 & e0 & ec & R0 & Rc). cbn [rrun] in Rc. destruct (rstep cf s0 Cancel) as [[sx ex]|] eqn:St; [|discriminate]. injection Rc as -> <-.
  destruct (quiet_run cf Ap _ s tr Qc R) as (Gs & _). specialize (Gs U).
  destruct (rinit_X) as [As0 Ar0]. destruct (rrun_X _ _ _ _ R0) as [[XA _] XR]. specialize (XA As0). specialize (XR Ar0).
  pose proof (rrun_pending cf ls (rinit cf) s0 e0 ltac:(intros m0 P0; discriminate) R0) as Pe.
  unfold rstep in St. destruct (ub s0) eqn:U0; [discriminate|]. destruct (pc s0) as [| |m|] eqn:P0; try discriminate. injection St as St.
  destruct (quiet_run cf Ap _ s0 e0 Q R0) as (Gs0 & _). specialize (Gs0 U0). pose proof (g_start _ _ Gs0) as Lm. rewrite P0 in Lm.
  pose proof (Pe m P0 U0) as Fa. assert (Hm : 0 < m) by (destruct m; [discriminate|lia]).
  destruct (each_fin cf _ _ _ _ St) as (Ef & Ep & _). 
  assert (I0 : idx s0 = None). { destruct (each_W _ forward_one_W _ _ _ _ St) as [_ Y]. destruct (idx s0); [|reflexivity]. destruct Y; [discriminate|exact Ii]. }
  pose proof (g_dec _ _ Gs0) as Dc. rewrite I0 in Dc. destruct Dc as [Fn _].
  destruct (forward_D _ _ _ _ St (seq_NoDup _ _)) as (Dk & _ & _); [|exact XA|apply (g_m _ _ Gs0)|].
  { intros k Ik. apply in_seq in Ik. split; [lia|]. apply XR; [exact I0|]. unfold working. rewrite P0, Fn. apply Nat.ltb_lt. lia. }
  assert (P : pc s = Waiting m) by congruence.
  destruct (resume_first s m 0 Gs P Ii Hm) as (q & s2 & e2 & En & G2 & P2 & I2); [apply Dk, in_seq; lia|].
  destruct (settle cf s2) as [s3 e3] eqn:Se.
  assert (St3 : rstep cf s (Env (chan cf 0) (Run q)) = Some (s3, e2 ++ e3)).
  { unfold rstep. rewrite U, P. cbn [may_run own negb andb]. rewrite En. cbn [seq2]. rewrite Se. reflexivity. }
  pose proof (settle_X _ _ _ Se) as [[_ D3] _]. specialize (D3 I2).
  assert (R3 : rrun cf s [Env (chan cf 0) (Run q)] = Some (s3, e2 ++ e3)) by (cbn [rrun]; rewrite St3, app_nil_r; reflexivity).
  assert (F3 : Forall (resumption (V := V)) [Env (chan cf 0) (Run q)]) by (constructor; [do 2 eexists; reflexivity|constructor]).
  assert (U3 : ub s3 = false) by exact (settle_safe _ _ _ _ G2 P2 I2 Se).
  destruct (returns cf Ap ((ls ++ [Cancel]) ++ [Env (chan cf 0) (Run q)]) s3 (tr ++ e2 ++ e3) (quiet_app _ _ _ Qc F3) (rrun_app _ _ _ _ _ _ _ _ R R3) U3 D3)
    as (ls' & s' & tr' & m' & r' & A1 & A2 & A3 & A4).
  exists (Env (chan cf 0) (Run q) :: ls'), s', ((e2 ++ e3) ++ tr'), m', r'. split; [constructor; [do 2 eexists; reflexivity|exact A1]|].
  split; [cbn [rrun]; rewrite St3, A2; reflexivity|]. split; [exact A3|]. rewrite app_assoc. exact A4.
Qed.
End Cancel.
