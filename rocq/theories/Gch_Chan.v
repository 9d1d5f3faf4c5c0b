(** Facts about one channel that are needed for gather and join: what a step leaves alone. *)
From Coq Require Import List Bool Arith Lia.
From Verif Require Import Channel_Model Channel_Spec Channel_Inv Channel_Complete Channel_Abs Channel_Disc Channel_Final Rch_Chan Sel_Model Sel_Chan.
Import ListNotations.

Section Chan.
Context {V : Type}.
Notation state := (state V).
Notation label := (label V).
Notation event := (event V).

(** An operation that goes on waiting. *)
Definition kept (w : bool) (k : nat) (x x1 : state) : Prop :=
  let a := look w x k in let b := look w x1 k in
  c_stage b = c_stage a /\ c_direct b = c_direct a /\ (c_cancelled a = true -> c_cancelled b = true) /\ (c_handle b = true -> c_handle a = true) /\
  (c_slot b = c_slot a \/ (c_handle b = false /\ c_cancelled b = true)).
Lemma kept_refl w k x : kept w k x x.
Proof. unfold kept. auto 10. Qed.
Lemma kept_eq w k x x1 : look w x1 k = look w x k -> kept w k x x1.
Proof. unfold kept. intros ->. auto 10. Qed.
Lemma kept_trans w k a b c : kept w k a b -> kept w k b c -> kept w k a c.
Proof.
  intros (A1 & A2 & A3 & A4 & A5) (B1 & B2 & B3 & B4 & B5). unfold kept. rewrite B1, B2. split; [exact A1|]. split; [exact A2|]. split; [auto|]. split; [auto|].
  destruct B5 as [B5|B5]; [|auto]. rewrite B5. destruct A5 as [A5|[A5 A6]]; [auto|]. right. split; [|auto]. destruct (c_handle (look w c k)); [|reflexivity]. rewrite B4 in A5; [discriminate|reflexivity].
Qed.

(** What an operation that waits in the channel or is about to be resumed looks like. *)
Definition A (c : core) : Prop := c_stage c = Awaited -> c_slot c = true \/ (c_handle c = false /\ (c_cancelled c = true \/ c_direct c = true)).
(** ... if it is about to be resumed and need not find a value. *)
Definition D (c : core) : Prop := c_stage c = Awaited -> c_handle c = false /\ (c_cancelled c = true \/ c_direct c = true).
Lemma kept_A w k x x1 : kept w k x x1 -> A (look w x k) -> A (look w x1 k).
Proof.
  intros (K1 & K2 & K3 & K4 & K5) H S. rewrite K1 in S. specialize (H S). rewrite K2. destruct K5 as [K5|[K5 K6]]; [|auto].
  destruct H as [H|[H1 H2]]; [left; congruence|]. right. split; [|tauto]. destruct (c_handle (look w x1 k)); [|reflexivity]. rewrite K4 in H1; [discriminate|reflexivity].
Qed.
Lemma kept_D w k x x1 : kept w k x x1 -> D (look w x k) -> D (look w x1 k).
Proof.
  intros (K1 & K2 & K3 & K4 & K5) H S. rewrite K1 in S. specialize (H S). rewrite K2. destruct H as [H1 H2]. split; [|tauto].
  destruct (c_handle (look w x1 k)); [|reflexivity]. rewrite K4 in H1; [discriminate|reflexivity].
Qed.

Ltac lk := unfold kept, look; cbn; rewrite ?upd_eq; auto 10.
Lemma ww_kept s w k : kept w k s (wake_writer s).
Proof.
  unfold wake_writer. destruct (wq s) as [|j q]; [apply kept_refl|]. destruct (negb _); [apply kept_eq; reflexivity|]. destruct (write_ready s); [|apply kept_refl].
  destruct (w_handle (wops s j)) eqn:Hh; [|apply kept_eq; reflexivity]. destruct w; lk. destruct (Nat.eqb_spec k j) as [->|N]; cbn; auto 10.
Qed.
Lemma wr_kept s w k : kept w k s (wake_reader s).
Proof.
  unfold wake_reader. destruct (rq s) as [|j q]; [apply kept_refl|]. destruct (negb _); [apply kept_eq; reflexivity|]. destruct (read_ready s); [|apply kept_refl].
  destruct (r_handle (rops s j)) eqn:Hh; [|apply kept_eq; reflexivity]. destruct w; lk. destruct (Nat.eqb_spec k j) as [->|N]; cbn; auto 10.
Qed.
Lemma set_r_kept s i o w k : (w, k) <> (false, i) -> kept w k s (set_r i o s).
Proof. intro N. apply kept_eq. destruct w; [reflexivity|]. unfold look. cbn. rewrite upd_eq. destruct (Nat.eqb_spec k i); [congruence|reflexivity]. Qed.
Lemma set_w_kept s i o w k : (w, k) <> (true, i) -> kept w k s (set_w i o s).
Proof. intro N. apply kept_eq. destruct w; [|reflexivity]. unfold look. cbn. rewrite upd_eq. destruct (Nat.eqb_spec k i); [congruence|reflexivity]. Qed.
Lemma rr_kept s i s1 ev w k : read_resume s i = (s1, ev) -> (w, k) <> (false, i) -> kept w k s s1 /\ answer w k ev = None.
Proof.
  unfold read_resume. intros H N. set (s0 := set_r i (r_finish (rops s i)) s) in *. pose proof (set_r_kept s i (r_finish (rops s i)) w k N) as K. fold s0 in K.
  assert (Q : forall r : rresult V, answer w k [ERead i r] = None).
  { intro r. cbn. destruct w; [reflexivity|]. cbn. destruct (Nat.eqb_spec i k); [congruence|reflexivity]. }
  destruct (read_broken s0 (rops s i)); [injection H as <- <-; auto|]. destruct (r_cancelled (rops s i)); [injection H as <- <-; auto|].
  destruct (buf s0) as [|b bs]; destruct (r_direct (rops s i)) as [d|]; injection H as <- <-.
  - split; [exact (kept_trans _ _ _ _ _ K (ww_kept _ _ _))|apply Q].
  - split; [exact (kept_trans _ _ _ _ _ K (kept_eq _ _ _ _ eq_refl))|reflexivity].
  - split; [exact (kept_trans _ _ _ _ _ (kept_trans _ _ _ _ _ K (kept_eq _ _ _ (set_buf (bs ++ [d]) s0) eq_refl)) (ww_kept _ _ _))|apply Q].
  - split; [exact (kept_trans _ _ _ _ _ (kept_trans _ _ _ _ _ K (kept_eq _ _ _ (set_buf bs s0) eq_refl)) (ww_kept _ _ _))|apply Q].
Qed.
Lemma wr_res_kept s i s1 ev w k : write_resume s i = (s1, ev) -> (w, k) <> (true, i) -> kept w k s s1 /\ answer w k ev = None.
Proof.
  unfold write_resume. intros H N. set (s0 := set_w i (w_finish (wops s i)) s) in *. pose proof (set_w_kept s i (w_finish (wops s i)) w k N) as K. fold s0 in K.
  assert (Q : forall (v : V) r, answer w k [EWrite i v r] = None).
  { intros v r. cbn. destruct w; [|reflexivity]. cbn. destruct (Nat.eqb_spec i k); [congruence|reflexivity]. }
  destruct (w_val (wops s i)) as [v|]; [|injection H as <- <-; auto].
  destruct (w_closed (wops s i)); [injection H as <- <-; auto|]. destruct (w_cancelled (wops s i)); [injection H as <- <-; auto|].
  destruct (w_direct (wops s i)); [injection H as <- <-; split; [exact (kept_trans _ _ _ _ _ K (wr_kept _ _ _))|apply Q]|].
  destruct (full s0); injection H as <- <-.
  - split; [exact (kept_trans _ _ _ _ _ K (kept_eq _ _ _ _ eq_refl))|reflexivity].
  - split; [exact (kept_trans _ _ _ _ _ (kept_trans _ _ _ _ _ K (kept_eq _ _ _ (set_buf (buf s0 ++ [v]) s0) eq_refl)) (wr_kept _ _ _))|apply Q].
Qed.
(** The coroutine that awaits the operation gets a result. *)
Lemma rr_done (s : state) i s1 ev : read_resume s i = (s1, ev) -> bad s1 = None -> exists r, answer false i ev = Some r.
Proof.
  unfold read_resume. intros H B. assert (Q : forall r : rresult V, exists x, answer false i [ERead i r] = Some x) by (intro r; cbn; rewrite Nat.eqb_refl; eauto).
  destruct (read_broken _ _); [injection H as <- <-; apply Q|]. destruct (r_cancelled _); [injection H as <- <-; apply Q|].
  destruct (buf _) as [|b bs]; destruct (r_direct _) as [d|]; injection H as <- <-; try apply Q. discriminate.
Qed.
Lemma wr_done (s : state) i s1 ev : write_resume s i = (s1, ev) -> w_val (wops s i) <> None -> bad s1 = None -> exists r, answer true i ev = Some r.
Proof.
  unfold write_resume. intros H W B. assert (Q : forall v (r : wresult), exists x, answer true i [EWrite (V := V) i v r] = Some x) by (intros v r; cbn; rewrite Nat.eqb_refl; eauto).
  destruct (w_val _) as [v|]; [|congruence]. destruct (w_closed _); [injection H as <- <-; apply Q|]. destruct (w_cancelled _); [injection H as <- <-; apply Q|].
  destruct (w_direct _); [injection H as <- <-; apply Q|]. destruct (full _); injection H as <- <-; [discriminate|apply Q].
Qed.

(** The label acts on operation [k] itself. *)
Definition acts (w : bool) (k : nat) (l : label) : Prop :=
  match l with
  | MkRead i | AwRead i _ | CancelR i | InterruptR i | DestroyR i => w = false /\ i = k
  | MkWrite i _ | AwWrite i _ | CancelW i | InterruptW i | DestroyW i => w = true /\ i = k
  | _ => False
  end.
Lemma close_reads_kept q : forall s w k, kept w k s (fold_left close_read q s).
Proof.
  induction q as [|i q IH]; intros s w k; [apply kept_refl|]. cbn [fold_left]. eapply kept_trans; [|apply IH].
  unfold close_read. destruct w; [destruct (r_handle _); apply kept_eq; reflexivity|]. destruct (r_handle (rops s i)) eqn:Hh; lk; destruct (Nat.eqb_spec k i) as [->|N]; cbn; auto 10; rewrite Hh; auto 10.
Qed.
Lemma close_writes_kept q : forall s w k, kept w k s (fold_left close_write q s).
Proof.
  induction q as [|i q IH]; intros s w k; [apply kept_refl|]. cbn [fold_left]. eapply kept_trans; [|apply IH].
  unfold close_write. destruct w; [|destruct (w_handle _); apply kept_eq; reflexivity]. destruct (w_handle (wops s i)) eqn:Hh; lk; destruct (Nat.eqb_spec k i) as [->|N]; cbn; auto 10; rewrite Hh; auto 10.
Qed.

(** A step that does not act on the operation leaves it waiting or ends it. *)
Lemma other w k (s : state) l s1 ev : step s l = (s1, ev) -> Inv s -> bad s1 = None -> ~ acts w k l ->
  (answer w k ev = None /\ kept w k s s1) \/ exists r, answer w k ev = Some r.
Proof.
  unfold step. destruct (bad s) eqn:B. { intros H _ _ _. injection H as <- <-. left. split; [reflexivity|apply kept_refl]. }
  assert (Z : forall x, kept w k s x -> (x, []) = (s1, ev) -> (answer w k ev = None /\ kept w k s s1) \/ exists r, answer w k ev = Some r).
  { intros x K H. injection H as <- <-. left. split; [reflexivity|exact K]. }
  intros H I B1 N. destruct l; cbn [step_ok acts] in *.
  - destruct (r_stage _); try (exact (Z _ (kept_refl _ _ _) H)). refine (Z _ _ H). apply set_r_kept. intro E. injection E as -> ->. apply N. auto.
  - destruct (r_stage (rops s i)) eqn:Sg; try (exact (Z _ (kept_refl _ _ _) H)). assert (Ne : (w, k) <> (false, i)) by (intro E; injection E as -> ->; apply N; auto).
    unfold read_await in H. destruct (read_ready s || _) eqn:Rr.
    { left. apply (rr_kept _ _ _ _ w k) in H; [|exact Ne]. tauto. }
    destruct (wq s) as [|j q] eqn:Q.
    { refine (Z _ _ H). exact (kept_trans _ _ _ _ _ (set_r_kept s i _ w k Ne) (kept_eq _ _ _ _ eq_refl)). }
    set (w0 := mkW (w_stage (wops s j)) (w_cancelled (wops s j)) true (w_closed (wops s j)) (w_slot (wops s j)) false (w_val (wops s j))) in *.
    destruct (w_handle (wops s j)) eqn:Hh.
    + destruct (Bool.bool_dec w true) as [Ew|Ew], (Nat.eq_dec k j) as [Ek|Ek].
      1: { subst w k. right. apply wr_done in H; [exact H| |exact B1]. cbn. rewrite upd_eq, Nat.eqb_refl. cbn.
           apply (inv_wval _ I). destruct (q_head_facts _ _ _ (inv_w _ I) j q Q Hh) as (St & _). cbn in St. rewrite St. discriminate. }
      all: left; assert (Nj : (w, k) <> (true, j)) by congruence; apply (wr_res_kept _ _ _ _ w k) in H; [|exact Nj]; destruct H as [H1 H2]; split; [exact H2|];
        refine (kept_trans _ _ _ _ _ _ H1); eapply kept_trans; [apply set_r_kept; exact Ne|]; eapply kept_trans; [apply (set_w_kept _ j w0 w k Nj)|apply kept_eq; reflexivity].
    + injection H as <- <-. discriminate.
  - destruct (w_stage _); try (exact (Z _ (kept_refl _ _ _) H)). refine (Z _ _ H). apply set_w_kept. intro E. injection E as -> ->. apply N. auto.
  - destruct (w_stage (wops s i)) eqn:Sg; try (exact (Z _ (kept_refl _ _ _) H)). assert (Ne : (w, k) <> (true, i)) by (intro E; injection E as -> ->; apply N; auto).
    unfold write_await in H. destruct (write_ready s || _) eqn:Rr.
    { left. apply (wr_res_kept _ _ _ _ w k) in H; [|exact Ne]. tauto. }
    destruct (rq s) as [|j q] eqn:Q.
    { refine (Z _ _ H). exact (kept_trans _ _ _ _ _ (set_w_kept s i _ w k Ne) (kept_eq _ _ _ _ eq_refl)). }
    set (r0 := Channel_Model.mkR (r_stage (rops s j)) (r_cancelled (rops s j)) (w_val (wops s i)) (r_slot (rops s j)) false) in *.
    destruct (r_handle (rops s j)) eqn:Hh.
    + destruct (Bool.bool_dec w false) as [Ew|Ew], (Nat.eq_dec k j) as [Ek|Ek].
      1: { subst w k. right. apply rr_done in H; [exact H|exact B1]. }
      all: left; assert (Nj : (w, k) <> (false, j)) by congruence; apply (rr_kept _ _ _ _ w k) in H; [|exact Nj]; destruct H as [H1 H2]; split; [exact H2|];
        refine (kept_trans _ _ _ _ _ _ H1); eapply kept_trans; [apply set_w_kept; exact Ne|]; eapply kept_trans; [apply (set_r_kept _ j r0 w k Nj)|apply kept_eq; reflexivity].
    + injection H as <- <-. discriminate.
  - refine (Z _ _ H). assert (Ne : (w, k) <> (false, i)) by (intro E; injection E as -> ->; apply N; auto). unfold read_cancel. destruct (r_slot _); [|apply kept_refl].
    destruct (r_handle _); exact (kept_trans _ _ _ _ _ (set_r_kept s i _ w k Ne) (kept_eq _ _ _ _ eq_refl)).
  - refine (Z _ _ H). assert (Ne : (w, k) <> (true, i)) by (intro E; injection E as -> ->; apply N; auto). unfold write_cancel. destruct (w_slot _); [|apply kept_refl].
    destruct (w_handle _); exact (kept_trans _ _ _ _ _ (set_w_kept s i _ w k Ne) (kept_eq _ _ _ _ eq_refl)).
  - assert (Ne : (w, k) <> (false, i)) by (intro E; injection E as -> ->; apply N; auto).
    assert (X : read_interrupt s i = (s1, ev) -> (answer w k ev = None /\ kept w k s s1) \/ exists r, answer w k ev = Some r).
    { unfold read_interrupt. destruct (is_some _); [apply Z, kept_refl|]. destruct (r_handle _).
      - intro G. apply (rr_kept _ _ _ _ w k) in G; [|exact Ne]. destruct G as [G1 G2]. left. split; [exact G2|]. refine (kept_trans _ _ _ _ _ _ G1). apply set_r_kept, Ne.
      - apply Z, set_r_kept, Ne. }
    destruct (r_stage _); first [exact (X H)|exact (Z _ (kept_refl _ _ _) H)].
  - assert (Ne : (w, k) <> (true, i)) by (intro E; injection E as -> ->; apply N; auto).
    assert (X : write_interrupt s i = (s1, ev) -> (answer w k ev = None /\ kept w k s s1) \/ exists r, answer w k ev = Some r).
    { unfold write_interrupt. destruct (w_direct _); [apply Z, kept_refl|]. destruct (w_handle _).
      - intro G. apply (wr_res_kept _ _ _ _ w k) in G; [|exact Ne]. destruct G as [G1 G2]. left. split; [exact G2|]. refine (kept_trans _ _ _ _ _ _ G1). apply set_w_kept, Ne.
      - apply Z, set_w_kept, Ne. }
    destruct (w_stage _); first [exact (X H)|exact (Z _ (kept_refl _ _ _) H)].
  - assert (Ne : (w, k) <> (false, i)) by (intro E; injection E as -> ->; apply N; auto).
    destruct (r_stage _); refine (Z _ _ H); try apply kept_refl; exact (kept_trans _ _ _ _ _ (set_r_kept s i _ w k Ne) (kept_eq _ _ _ _ eq_refl)).
  - assert (Ne : (w, k) <> (true, i)) by (intro E; injection E as -> ->; apply N; auto).
    destruct (w_stage _); refine (Z _ _ H); try apply kept_refl; exact (kept_trans _ _ _ _ _ (set_w_kept s i _ w k Ne) (kept_eq _ _ _ _ eq_refl)).
  - refine (Z _ _ H). unfold close. eapply kept_trans; [|apply kept_eq; reflexivity]. eapply kept_trans; [|apply close_writes_kept].
    eapply kept_trans; [|apply kept_eq; reflexivity]. eapply kept_trans; [|apply close_reads_kept]. apply kept_eq. reflexivity.
  - unfold run_job in H. destruct (nth_error (posted s) k0) as [[i|i]|] eqn:P.
    + destruct (run_r_finish_inv _ _ _ I P) as [_ Aw]. rewrite Aw in H. cbn [is_awaited] in H. destruct (Bool.bool_dec w false) as [Ew|Ew], (Nat.eq_dec k i) as [Ek|Ek].
      1: { subst w k. right. exact (rr_done _ _ _ _ H B1). }
      all: left; apply (rr_kept _ _ _ _ w k) in H; [|congruence]; destruct H as [H1 H2]; split; [exact H2|]; exact H1.
    + destruct (run_w_finish_inv _ _ _ I P) as [_ Aw]. rewrite Aw in H. cbn [is_awaited] in H. destruct (Bool.bool_dec w true) as [Ew|Ew], (Nat.eq_dec k i) as [Ek|Ek].
      1: { subst w k. right. refine (wr_done _ _ _ _ H _ B1). apply (inv_wval _ I). rewrite Aw. discriminate. }
      all: left; apply (wr_res_kept _ _ _ _ w k) in H; [|congruence]; destruct H as [H1 H2]; split; [exact H2|]; exact H1.
    + exact (Z _ (kept_refl _ _ _) H).
Qed.

(** *** Steps of the operation itself *)
Lemma start_op w k (s : state) s1 ev : step s (l_aw w k) = (s1, ev) -> Inv s -> bad s1 = None -> c_stage (look w s k) = Made ->
  (answer w k ev = None /\ ready w s = false /\ c_stage (look w s1 k) = Awaited /\ A (look w s1 k)) \/ exists r, answer w k ev = Some r.
Proof.
  unfold step, l_aw. intros H I B1 St. destruct (bad s) eqn:B. { injection H as <- <-. congruence. }
  destruct w; cbn [step_ok] in H; unfold look in *; cbn in St; rewrite St in H.
  - unfold write_await in H. destruct (write_ready s || _) eqn:Rr.
    { right. refine (wr_done _ _ _ _ H _ B1). apply (inv_wval _ I). congruence. }
    destruct (rq s) as [|j q] eqn:Q.
    { injection H as <- <-. left. split; [reflexivity|]. split; [apply orb_false_iff in Rr; exact (proj1 Rr)|]. cbn. rewrite upd_eq, Nat.eqb_refl. cbn. split; [reflexivity|]. intros _. auto. }
    destruct (r_handle (rops s j)) eqn:Hh; [|injection H as <- <-; discriminate].
    left. apply (rr_kept _ _ _ _ true k) in H; [|discriminate]. destruct H as [(K1 & K2 & K3 & K4 & K5) H2]. split; [exact H2|]. split; [apply orb_false_iff in Rr; exact (proj1 Rr)|]. unfold look in *. cbn in K1, K2, K3, K4, K5. rewrite upd_eq, Nat.eqb_refl in K1, K2, K3, K4, K5. cbn in K1, K2, K3, K4, K5.
    split; [exact K1|]. intros _. right. cbn. split; [destruct (w_handle (wops s1 k)); [discriminate (K4 eq_refl)|reflexivity]|right; exact K2].
  - unfold read_await in H. destruct (read_ready s || _) eqn:Rr.
    { right. exact (rr_done _ _ _ _ H B1). }
    destruct (wq s) as [|j q] eqn:Q.
    { injection H as <- <-. left. split; [reflexivity|]. split; [apply orb_false_iff in Rr; exact (proj1 Rr)|]. cbn. rewrite upd_eq, Nat.eqb_refl. cbn. split; [reflexivity|]. intros _. auto. }
    destruct (w_handle (wops s j)) eqn:Hh; [|injection H as <- <-; discriminate].
    left. apply (wr_res_kept _ _ _ _ false k) in H; [|discriminate]. destruct H as [(K1 & K2 & K3 & K4 & K5) H2]. split; [exact H2|]. split; [apply orb_false_iff in Rr; exact (proj1 Rr)|]. unfold look in *. cbn in K1, K2, K3, K4, K5. rewrite upd_eq, Nat.eqb_refl in K1, K2, K3, K4, K5. cbn in K1, K2, K3, K4, K5.
    split; [exact K1|]. intros _. right. cbn. split; [destruct (r_handle (rops s1 k)); [discriminate (K4 eq_refl)|reflexivity]|]. right. rewrite K2.
    destruct (w_val (wops s j)) eqn:Wv; [reflexivity|]. exfalso. apply (inv_wval _ I j); [|exact Wv].
    destruct (q_head_facts _ _ _ (inv_w _ I) j q Q Hh) as (Sj & _). cbn in Sj. rewrite Sj. discriminate.
Qed.
Lemma cancel_op w k (s : state) s1 ev : step s (l_can w k) = (s1, ev) -> bad s = None -> A (look w s k) ->
  ev = [] /\ bad s1 = None /\ c_stage (look w s1 k) = c_stage (look w s k) /\ A (look w s1 k) /\ D (look w s1 k).
Proof.
  unfold step, l_can. intros H B Ha. rewrite B in H. destruct w; cbn [step_ok] in H; injection H as <- <-; (split; [reflexivity|]); unfold look, A, D in *.
  - unfold write_cancel. destruct (w_slot (wops s k)) eqn:Sl.
    + destruct (w_handle (wops s k)); cbn; rewrite upd_eq, Nat.eqb_refl; cbn; auto 10.
    + split; [exact B|]. split; [reflexivity|]. split; [exact Ha|]. intro St. destruct (Ha St) as [X|X]; [cbn in X; congruence|exact X].
  - unfold read_cancel. destruct (r_slot (rops s k)) eqn:Sl.
    + destruct (r_handle (rops s k)); cbn; rewrite upd_eq, Nat.eqb_refl; cbn; auto 10.
    + split; [exact B|]. split; [reflexivity|]. split; [exact Ha|]. intro St. destruct (Ha St) as [X|X]; [cbn in X; congruence|exact X].
Qed.
Lemma interrupt_op w k (s : state) s1 ev : step s (l_int w k) = (s1, ev) -> Inv s -> bad s1 = None -> c_stage (look w s k) = Awaited -> A (look w s k) ->
  (answer w k ev = None /\ c_stage (look w s1 k) = Awaited /\ A (look w s1 k) /\ (D (look w s k) -> D (look w s1 k))) \/ exists r, answer w k ev = Some r.
Proof.
  intros H I B1 St Ha. assert (B : bad s = None). { destruct (bad s) eqn:B; [|reflexivity]. unfold step in H. rewrite B in H. injection H as <- <-. congruence. }
  rewrite (step_int w s k B), St in H. destruct (c_direct (look w s k)) eqn:Dr.
  { injection H as <- <-. left. auto. }
  destruct (c_handle (look w s k)) eqn:Hd.
  - right. destruct w; cbn [oresume] in H; [refine (wr_done _ _ _ _ H _ B1)|exact (rr_done _ _ _ _ H B1)].
    cbn. rewrite upd_eq, Nat.eqb_refl. cbn. apply (inv_wval _ I). unfold look in St. cbn in St. rewrite St. discriminate.
  - injection H as <- <-. left. split; [reflexivity|]. destruct (intr_at w k s) as (I1 & I2 & I3 & _).
    assert (Hh : c_handle (look w (intr w k s) k) = false) by (destruct w; unfold intr, look; cbn; rewrite upd_eq, Nat.eqb_refl; reflexivity).
    split; [congruence|]. split; [intros _; right; auto|]. intros _ _. auto.
Qed.

(** *** Without interruptions *)
Definition live (s : state) : Prop := (forall i, In i (rq s) -> r_handle (rops s i) = true) /\ (forall j, In j (wq s) -> w_handle (wops s j) = true).
Definition interrupts (l : label) : Prop := match l with InterruptR _ | InterruptW _ => True | _ => False end.
Lemma live_init b m : live (init b m).
Proof. split; intros i []. Qed.
Lemma ww_live s : live s -> NoDup (wq s) -> live (wake_writer s).
Proof.
  intros [L1 L2] N. unfold wake_writer. destruct (wq s) as [|j q] eqn:Q; [split; [exact L1|rewrite Q; intros ? []]|]. destruct (negb _); [split; cbn; [exact L1|rewrite Q; exact L2]|].
  destruct (write_ready s); [|split; [exact L1|rewrite Q; exact L2]]. destruct (w_handle (wops s j)); [|split; cbn; [exact L1|rewrite Q; exact L2]].
  split; cbn; [exact L1|]. intros i Ii. rewrite upd_eq. inversion N; subst. destruct (Nat.eqb_spec i j) as [->|]; [contradiction|]. apply L2. right. exact Ii.
Qed.
Lemma wr_live s : live s -> NoDup (rq s) -> live (wake_reader s).
Proof.
  intros [L1 L2] N. unfold wake_reader. destruct (rq s) as [|j q] eqn:Q; [split; [rewrite Q; intros ? []|exact L2]|]. destruct (negb _); [split; cbn; [rewrite Q; exact L1|exact L2]|].
  destruct (read_ready s); [|split; [rewrite Q; exact L1|exact L2]]. destruct (r_handle (rops s j)); [|split; cbn; [rewrite Q; exact L1|exact L2]].
  split; cbn; [|exact L2]. intros i Ii. rewrite upd_eq. inversion N; subst. destruct (Nat.eqb_spec i j) as [->|]; [contradiction|]. apply L1. right. exact Ii.
Qed.
Lemma rr_live s i s1 ev : read_resume s i = (s1, ev) -> live s -> NoDup (wq s) -> ~ In i (rq s) -> live s1.
Proof.
  unfold read_resume. intros H [L1 L2] N Ni. set (s0 := set_r i (r_finish (rops s i)) s) in *.
  assert (L0 : live s0). { split; [|exact L2]. cbn. intros j Ij. rewrite upd_eq. destruct (Nat.eqb_spec j i) as [->|]; [contradiction|]. apply L1, Ij. }
  destruct (read_broken s0 (rops s i)); [injection H as <- <-; exact L0|]. destruct (r_cancelled (rops s i)); [injection H as <- <-; exact L0|].
  destruct (buf s0) as [|b bs]; destruct (r_direct (rops s i)) as [d|]; injection H as <- <-; try exact L0; apply ww_live; try exact L0; exact N.
Qed.
Lemma wres_live s i s1 ev : write_resume s i = (s1, ev) -> live s -> NoDup (rq s) -> ~ In i (wq s) -> live s1.
Proof.
  unfold write_resume. intros H [L1 L2] N Ni. set (s0 := set_w i (w_finish (wops s i)) s) in *.
  assert (L0 : live s0). { split; [exact L1|]. cbn. intros j Ij. rewrite upd_eq. destruct (Nat.eqb_spec j i) as [->|]; [contradiction|]. apply L2, Ij. }
  destruct (w_val (wops s i)); [|injection H as <- <-; exact L0]. destruct (w_closed (wops s i)); [injection H as <- <-; exact L0|]. destruct (w_cancelled (wops s i)); [injection H as <- <-; exact L0|].
  destruct (w_direct (wops s i)); [injection H as <- <-; apply wr_live; [exact L0|exact N]|]. destruct (full s0); injection H as <- <-; [exact L0|]. apply wr_live; [exact L0|exact N].
Qed.
Lemma step_live (s : state) l s1 ev : step s l = (s1, ev) -> Inv s -> bad s1 = None -> ~ interrupts l -> live s -> live s1.
Proof.
  unfold step. destruct (bad s) eqn:B. { intros H _ _ _ L. injection H as <- <-. exact L. }
  intros H I B1 N L. destruct (inv_r _ I) as (Nr & Njr & Lr). destruct (inv_w _ I) as (Nw & Njw & Lw). pose proof L as [L1 L2].
  assert (Qr : forall i, r_stage (rops s i) = Made \/ r_stage (rops s i) = Absent -> ~ In i (rq s)) by (intros i M; exact (proj1 (q_not_awaited_out _ _ _ (inv_r _ I) i M))).
  assert (Qw : forall i, w_stage (wops s i) = Made \/ w_stage (wops s i) = Absent -> ~ In i (wq s)) by (intros i M; exact (proj1 (q_not_awaited_out _ _ _ (inv_w _ I) i M))).
  assert (Sr : forall i o, ~ In i (rq s) -> live (set_r i o s)).
  { intros i o M. split; [|exact L2]. cbn. intros j Ij. rewrite upd_eq. destruct (Nat.eqb_spec j i) as [->|]; [contradiction|]. apply L1, Ij. }
  assert (Sw : forall i o, ~ In i (wq s) -> live (set_w i o s)).
  { intros i o M. split; [exact L1|]. cbn. intros j Ij. rewrite upd_eq. destruct (Nat.eqb_spec j i) as [->|]; [contradiction|]. apply L2, Ij. }
  destruct l; cbn [step_ok interrupts] in *; try (exfalso; apply N; exact Logic.I).
  - destruct (r_stage _) eqn:St; injection H as <- <-; try exact L. apply Sr, Qr. auto.
  - destruct (r_stage (rops s i)) eqn:St; try (injection H as <- <-; exact L). specialize (Qr i (or_introl St)). unfold read_await in H. destruct (read_ready s || _); [exact (rr_live _ _ _ _ H L Nw Qr)|].
    destruct (wq s) as [|j q] eqn:Q.
    + injection H as <- <-. split; cbn; [|rewrite Q; intros ? []]. intros j Ij. rewrite upd_eq. destruct (Nat.eqb_spec j i) as [->|Nj]; [reflexivity|]. apply in_app_iff in Ij as [Ij|[Ij|[]]]; [apply L1, Ij|congruence].
    + destruct (w_handle (wops s j)); [|injection H as <- <-; discriminate]. inversion Nw; subst. refine (wres_live _ _ _ _ H _ _ _); cbn; try assumption.
      split; cbn.
      * intros a Ia. rewrite upd_eq. destruct (Nat.eqb_spec a i) as [->|]; [contradiction|]. apply L1, Ia.
      * intros a Ia. rewrite upd_eq. destruct (Nat.eqb_spec a j) as [->|]; [contradiction|]. apply L2. right. exact Ia.
  - destruct (w_stage _) eqn:St; injection H as <- <-; try exact L. apply Sw, Qw. auto.
  - destruct (w_stage (wops s i)) eqn:St; try (injection H as <- <-; exact L). specialize (Qw i (or_introl St)). unfold write_await in H. destruct (write_ready s || _); [exact (wres_live _ _ _ _ H L Nr Qw)|].
    destruct (rq s) as [|j q] eqn:Q.
    + injection H as <- <-. split; cbn; [rewrite Q; intros ? []|]. intros j Ij. rewrite upd_eq. destruct (Nat.eqb_spec j i) as [->|Nj]; [reflexivity|]. apply in_app_iff in Ij as [Ij|[Ij|[]]]; [apply L2, Ij|congruence].
    + destruct (r_handle (rops s j)); [|injection H as <- <-; discriminate]. inversion Nr; subst. refine (rr_live _ _ _ _ H _ _ _); cbn; try assumption.
      split; cbn.
      * intros a Ia. rewrite upd_eq. destruct (Nat.eqb_spec a j) as [->|]; [contradiction|]. apply L1. right. exact Ia.
      * intros a Ia. rewrite upd_eq. destruct (Nat.eqb_spec a i) as [->|]; [contradiction|]. apply L2, Ia.
  - injection H as <- <-. unfold read_cancel. destruct (r_slot _); [|exact L]. assert (X : live (set_rq (unlink i (rq s)) (set_r i (Channel_Model.mkR (r_stage (rops s i)) true (r_direct (rops s i)) false false) s))).
    { split; [|exact L2]. cbn. intros j Ij. apply in_unlink in Ij as [Ij Nj]. rewrite upd_eq. destruct (Nat.eqb_spec j i); [contradiction|]. apply L1, Ij. }
    destruct (r_handle _); exact X.
  - injection H as <- <-. unfold write_cancel. destruct (w_slot _); [|exact L].
    match goal with |- live (if _ then post _ ?x else _) => assert (X : live x) end.
    { split; [exact L1|]. cbn. intros j Ij. apply in_unlink in Ij as [Ij Nj]. rewrite upd_eq. destruct (Nat.eqb_spec j i); [contradiction|]. apply L2, Ij. }
    destruct (w_handle _); exact X.
  - destruct (r_stage _) eqn:St; injection H as <- <-; try exact L; (split; [|exact L2]); cbn; intros j Ij; apply in_unlink in Ij as [Ij Nj]; rewrite upd_eq; (destruct (Nat.eqb_spec j i); [contradiction|]); apply L1, Ij.
  - destruct (w_stage _) eqn:St; injection H as <- <-; try exact L; (split; [exact L1|]); cbn; intros j Ij; apply in_unlink in Ij as [Ij Nj]; rewrite upd_eq; (destruct (Nat.eqb_spec j i); [contradiction|]); apply L2, Ij.
  - injection H as <- <-. unfold close. pose proof (close_writes_other (wq s) (set_rq [] (fold_left close_read (rq s) (set_closed s)))) as X. split; cbn.
    + destruct X as (X & _). intros i Ii. cbn in X. assert (Y : rq (fold_left close_write (wq s) (set_rq [] (fold_left close_read (rq s) (set_closed s)))) = []) by (clear - V; generalize (set_rq [] (fold_left close_read (rq s) (set_closed s))) as x, (eq_refl : rq (set_rq [] (fold_left close_read (rq s) (set_closed s))) = []); induction (wq s) as [|a t IH]; intros x Hx; [exact Hx|]; cbn; apply IH; unfold close_write; destruct (w_handle _); exact Hx).
      rewrite Y in Ii. destruct Ii.
    + intros i [].
  - unfold run_job in H. destruct (nth_error (posted s) k) as [[i|i]|] eqn:P; [| |injection H as <- <-; exact L].
    + destruct (run_r_finish_inv _ _ _ I P) as [_ Aw]. rewrite Aw in H. cbn [is_awaited] in H. refine (rr_live _ _ _ _ H L Nw _). cbn. intro Ii.
      destruct (rjobs_remove _ _ _ P) as (a & b & E1 & _). specialize (Lr i). unfold loc in Lr. destruct Lr as (R1 & R2 & _). assert (J : In i (rjobs (posted s))) by (rewrite E1; apply in_app_iff; right; left; reflexivity).
      destruct (R2 J) as [_ R3]. cbn in R3. rewrite (L1 i Ii) in R3. discriminate.
    + destruct (run_w_finish_inv _ _ _ I P) as [_ Aw]. rewrite Aw in H. cbn [is_awaited] in H. refine (wres_live _ _ _ _ H L Nr _). cbn. intro Ii.
      destruct (wjobs_remove _ _ _ P) as (a & b & E1 & _). specialize (Lw i). unfold loc in Lw. destruct Lw as (R1 & R2 & _). assert (J : In i (wjobs (posted s))) by (rewrite E1; apply in_app_iff; right; left; reflexivity).
      destruct (R2 J) as [_ R3]. cbn in R3. rewrite (L2 i Ii) in R3. discriminate.
Qed.

(** An operation that is about to be resumed and needs no value can be resumed. *)
Lemma doomed_run w k (s : state) : Inv s -> bad s = None -> live s -> c_stage (look w s k) = Awaited -> D (look w s k) ->
  exists q s1 ev r, step s (Run q) = (s1, ev) /\ bad s1 = None /\ answer w k ev = Some r.
Proof.
  intros I B [L1 L2] St Dk. destruct (Dk St) as [Hd Cd]. unfold step. rewrite B. destruct w; unfold look in *; cbn in St, Hd, Cd.
  - destruct (inv_w _ I) as (_ & _ & Lw). specialize (Lw k). unfold loc in Lw. destruct Lw as (_ & _ & R & _). cbn in R. destruct (R St) as [[R1 _]|[_ R1]]; [congruence|].
    apply in_wjobs in R1. destruct (In_nth_error _ _ R1) as [q P]. exists q. cbn [step_ok]. unfold run_job. rewrite P. destruct (run_w_finish_inv _ _ _ I P) as [F Aw]. rewrite Aw. cbn [is_awaited].
    destruct (write_resume (set_posted (remove_nth q (posted s)) s) k) as [s1 ev] eqn:W. exists s1, ev.
    assert (B1 : bad s1 = None).
    { destruct (write_resume_bad _ k F B) as [X|[(_ & (j & J1 & J2) & _)|(_ & _ & X1 & X2 & _)]]; [rewrite W in X; exact X| |].
      - cbn in J1, J2. rewrite (L1 j J1) in J2. discriminate.
      - cbn in X1, X2. destruct Cd; congruence. }
    destruct (wr_done _ _ _ _ W) as [r Ar]; [|exact B1|].
    + cbn. apply (inv_wval _ I). congruence.
    + exists r. auto.
  - destruct (inv_r _ I) as (_ & _ & Lw). specialize (Lw k). unfold loc in Lw. destruct Lw as (_ & _ & R & _). cbn in R. destruct (R St) as [[R1 _]|[_ R1]]; [congruence|].
    apply in_rjobs in R1. destruct (In_nth_error _ _ R1) as [q P]. exists q. cbn [step_ok]. unfold run_job. rewrite P. destruct (run_r_finish_inv _ _ _ I P) as [F Aw]. rewrite Aw. cbn [is_awaited].
    destruct (read_resume (set_posted (remove_nth q (posted s)) s) k) as [s1 ev] eqn:W. exists s1, ev.
    assert (B1 : bad s1 = None).
    { destruct (read_resume_bad _ k F B) as [X|[(_ & (j & J1 & J2) & _)|(_ & _ & X1 & X2 & _)]]; [rewrite W in X; exact X| |].
      - cbn in J1, J2. rewrite (L2 j J1) in J2. discriminate.
      - cbn in X1, X2. destruct Cd as [Cd|Cd]; [congruence|]. rewrite X1 in Cd. discriminate. }
    destruct (rr_done _ _ _ _ W B1) as [r Ar]. exists r. auto.
Qed.
End Chan.
