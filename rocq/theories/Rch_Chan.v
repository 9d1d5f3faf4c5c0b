(** What single steps of a channel do to the read operations of a race. *)
From Coq Require Import List Bool Arith Lia.
From Verif Require Import Channel_Model Channel_Spec Channel_Inv Rch_Model Rch_Spec.
Import ListNotations.

Section Chan.
Context {V : Type}.
Notation state := (state V).
Notation label := (label V).
Notation event := (event V).

Definition same (o o' : rop V) : Prop :=
  r_stage o' = r_stage o /\ r_direct o' = r_direct o /\ (r_cancelled o = true -> r_cancelled o' = true).
Lemma same_refl o : same o o.
Proof. repeat split; auto. Qed.
Lemma same_trans a b c : same a b -> same b c -> same a c.
Proof. intros (A1 & A2 & A3) (B1 & B2 & B3). repeat split; try congruence. auto. Qed.
Hint Resolve same_refl : core.

Definition no_read (k : nat) (ev : list event) : Prop := forall r, ~ In (ERead k r) ev.

Lemma upd_eq {A} (f : nat -> A) i x j : upd f i x j = if Nat.eqb j i then x else f j.
Proof. reflexivity. Qed.

Lemma wake_writer_r (s : state) : rops (wake_writer s) = rops s.
Proof. unfold wake_writer. destruct (wq s) as [|j q]; auto. destruct (negb _); [reflexivity|]. destruct (write_ready s); [|reflexivity]. destruct (w_handle _); reflexivity. Qed.
Lemma wake_reader_r (s : state) k : same (rops s k) (rops (wake_reader s) k).
Proof.
  unfold wake_reader. destruct (rq s) as [|i q]; auto. destruct (negb (is_nil (wq s))); [apply same_refl|].
  destruct (read_ready s); [|apply same_refl]. destruct (r_handle (rops s i)); [|apply same_refl].
  cbn. rewrite upd_eq. destruct (Nat.eqb_spec k i) as [->|N]; [|apply same_refl]. repeat split; auto.
Qed.

Definition val (r : rresult V) : Prop := match r with RVal _ => True | _ => False end.

Lemma read_resume_spec (s : state) i s1 ev : read_resume s i = (s1, ev) ->
  (forall k, k <> i -> rops s1 k = rops s k) /\ r_stage (rops s1 i) = Finished /\
  (ev = [] /\ bad s1 <> None \/ exists r, ev = [ERead i r] /\ (r_cancelled (rops s i) = true -> ~ val r)) /\
  (r_cancelled (rops s i) = true -> ev <> [] /\ bad s1 = bad s /\ rq s1 = rq s /\ wq s1 = wq s /\ wops s1 = wops s /\ buf s1 = buf s /\ closed s1 = closed s /\ limit s1 = limit s /\ posted s1 = posted s) /\
  (wq s = [] -> wq s1 = []).
Proof.
  unfold read_resume. intro H. destruct (read_broken _ _).
  { injection H as <- <-. cbn. rewrite upd_eq, Nat.eqb_refl. repeat split; auto; try discriminate.
    - intros k N. rewrite upd_eq. destruct (Nat.eqb_spec k i); congruence.
    - right. eexists. split; [reflexivity|]. cbn. auto. }
  destruct (r_cancelled (rops s i)) eqn:C.
  { injection H as <- <-. cbn. rewrite upd_eq, Nat.eqb_refl. repeat split; auto; try discriminate.
    - intros k N. rewrite upd_eq. destruct (Nat.eqb_spec k i); congruence.
    - right. eexists. split; [reflexivity|]. cbn. auto. }
  assert (W : forall x : state, wq x = [] -> wq (wake_writer x) = []).
  { intros x E. unfold wake_writer. rewrite E. exact E. }
  destruct (buf _) as [|b bs] eqn:Eb; destruct (r_direct (rops s i)) as [d|]; injection H as <- <-; rewrite ?wake_writer_r; cbn [rops set_bad set_buf set_r];
    rewrite ?upd_eq, ?Nat.eqb_refl.
  all: split; [intros k N; rewrite upd_eq; destruct (Nat.eqb_spec k i); congruence|].
  all: split; [reflexivity|]; split.
  all: try solve [right; eexists; split; [reflexivity|discriminate]].
  all: try solve [left; split; [reflexivity|discriminate]].
  all: split; [discriminate|]; intro E.
  all: try apply W; exact E.
Qed.

Lemma write_resume_spec (s : state) j s1 ev : write_resume s j = (s1, ev) ->
  (forall k, same (rops s k) (rops s1 k)) /\ (forall i r, ~ In (ERead i r) ev).
Proof.
  unfold write_resume. intro H. destruct (w_val (wops s j)) as [v|].
  2: { injection H as <- <-. split; [intro; apply same_refl|intros ? ? []]. }
  assert (N : forall x i r, ~ In (ERead i r) [EWrite j v x]) by (intros x i r [K|[]]; discriminate).
  destruct (w_closed _); [injection H as <- <-; split; auto; intro; apply same_refl|].
  destruct (w_cancelled _); [injection H as <- <-; split; auto; intro; apply same_refl|].
  destruct (w_direct _); [injection H as <- <-; split; auto; intro k; exact (wake_reader_r (set_w j (w_finish (wops s j)) s) k)|].
  destruct (full _); [injection H as <- <-; split; [intro; apply same_refl|intros ? ? []]|].
  injection H as <- <-. split; auto. intro k. exact (wake_reader_r (set_buf (buf (set_w j (w_finish (wops s j)) s) ++ [v]) (set_w j (w_finish (wops s j)) s)) k).
Qed.

(** Interruption of a waiting read that has no value yet. *)
Lemma interrupt_any (s : state) k s1 ev : step s (InterruptR k) = (s1, ev) ->
  (forall i r, In (ERead i r) ev -> i = k /\ ~ val r) /\ (forall i, i <> k -> rops s1 i = rops s i) /\ bad s1 = bad s /\
  (forall i v r, ~ In (EWrite i v r) ev).
Proof.
  unfold step. destruct (bad s) eqn:B.
  { intro H. injection H as <- <-. repeat split; auto; try destruct H. }
  cbn [step_ok]. assert (Q : forall H : (s, []) = (s1, ev), (forall i r, In (ERead i r) ev -> i = k /\ ~ val r) /\ (forall i, i <> k -> rops s1 i = rops s i) /\ bad s1 = None /\ (forall i v r, ~ In (EWrite i v r) ev)).
  { intro H. injection H as <- <-. repeat split; auto; try destruct H. }
  assert (Q2 : forall H : read_interrupt s k = (s1, ev), (forall i r, In (ERead i r) ev -> i = k /\ ~ val r) /\ (forall i, i <> k -> rops s1 i = rops s i) /\ bad s1 = None /\ (forall i v r, ~ In (EWrite i v r) ev)).
  { unfold read_interrupt. destruct (is_some _); [exact Q|]. destruct (r_handle _).
    - intro H. apply read_resume_spec in H. cbn [rops set_r] in H. rewrite upd_eq, Nat.eqb_refl in H. cbn [r_cancelled] in H.
      destruct H as (H1 & H2 & H3 & H4 & _). destruct (H4 eq_refl) as (H5 & H6 & _).
      destruct H3 as [[H3 _]|(r & -> & H3)]; [congruence|]. specialize (H3 eq_refl). repeat split.
      + destruct H as [H|[]]. congruence.
      + destruct H as [H|[]]. injection H as _ <-. exact H3.
      + intros i N. rewrite (H1 i N). rewrite upd_eq. destruct (Nat.eqb_spec i k); congruence.
      + rewrite H6. exact B.
      + intros i v x [H|[]]; discriminate.
    - intro H. injection H as <- <-. repeat split; auto; try destruct H. intros i N. cbn. rewrite upd_eq. destruct (Nat.eqb_spec i k); congruence. }
  destruct (r_stage (rops s k)); auto.
Qed.
Lemma interrupt_waiting (s : state) k s1 ev : step s (InterruptR k) = (s1, ev) -> bad s = None -> r_stage (rops s k) = Awaited -> r_direct (rops s k) = None ->
  (buf s1 = buf s /\ closed s1 = closed s /\ limit s1 = limit s /\ wq s1 = wq s /\ wops s1 = wops s /\ rq s1 = rq s /\ posted s1 = posted s) /\
  (ev = [] /\ r_stage (rops s1 k) = Awaited /\ r_direct (rops s1 k) = None /\ r_cancelled (rops s1 k) = true \/
   exists r, ev = [ERead k r] /\ r_stage (rops s1 k) = Finished).
Proof.
  unfold step. intros H B A D. rewrite B in H. cbn [step_ok] in H. rewrite A in H. unfold read_interrupt in H. rewrite D in H. cbn [is_some] in H.
  destruct (r_handle _).
  - apply read_resume_spec in H. cbn [rops set_r] in H. rewrite upd_eq, Nat.eqb_refl in H. cbn [r_cancelled] in H.
    destruct H as (H1 & H2 & H3 & H4 & _). destruct (H4 eq_refl) as (H5 & H6 & H7 & H8 & H9 & H10 & H11 & H12 & H13). cbn in *.
    split; [repeat split; assumption|]. right. destruct H3 as [[H3 _]|(r & -> & H3)]; [congruence|]. eauto.
  - injection H as <- <-. cbn. rewrite upd_eq, Nat.eqb_refl. cbn. repeat split; auto.
Qed.

Lemma cancel_any (s : state) k s1 ev : step s (CancelR k) = (s1, ev) ->
  ev = [] /\ bad s1 = bad s /\ (forall i, i <> k -> rops s1 i = rops s i) /\ same (rops s k) (rops s1 k) /\
  (buf s1 = buf s /\ closed s1 = closed s /\ limit s1 = limit s /\ wq s1 = wq s /\ wops s1 = wops s) /\ (rq s1 = rq s \/ rq s1 = unlink k (rq s)).
Proof.
  unfold step. destruct (bad s) eqn:B.
  { intro H. injection H as <- <-. repeat split; auto. }
  cbn [step_ok]. unfold read_cancel. destruct (r_slot _).
  - destruct (r_handle _); intro H; injection H as <- <-; cbn; rewrite ?upd_eq, ?Nat.eqb_refl; cbn.
    all: repeat split; auto; intros i N; rewrite upd_eq; destruct (Nat.eqb_spec i k); congruence.
  - intro H. injection H as <- <-. repeat split; auto.
Qed.

Lemma destroy_any (s : state) k s1 ev : step s (DestroyR k) = (s1, ev) ->
  ev = [] /\ bad s1 = bad s /\ (forall i, i <> k -> rops s1 i = rops s i) /\ (r_stage (rops s1 k) = r_stage (rops s k) \/ r_stage (rops s1 k) = Destroyed).
Proof.
  unfold step. destruct (bad s) eqn:B.
  { intro H. injection H as <- <-. repeat split; auto. }
  cbn [step_ok]. destruct (r_stage (rops s k)) eqn:A; intro H; injection H as <- <-; cbn; rewrite ?upd_eq, ?Nat.eqb_refl; cbn; repeat split; auto.
  all: intros i N; rewrite upd_eq; destruct (Nat.eqb_spec i k); congruence.
Qed.

(** A member is resumed by the executor. *)
Lemma run_member (s : state) k i s1 ev : step s (Run k) = (s1, ev) -> bad s = None -> nth_error (posted s) k = Some (JR i) ->
  (forall j, j <> i -> rops s1 j = rops s j) /\
  (ev = [] /\ bad s1 <> None \/
   r_stage (rops s i) = Awaited /\ r_stage (rops s1 i) = Finished /\ exists r, ev = [ERead i r] /\ (r_cancelled (rops s i) = true -> ~ val r /\ bad s1 = None)).
Proof.
  unfold step. intros H B P. rewrite B in H. cbn [step_ok] in H. unfold run_job in H. rewrite P in H.
  destruct (is_awaited _) eqn:A.
  - apply read_resume_spec in H. cbn [rops set_posted] in H. destruct H as (H1 & H2 & H3 & H4 & _). split; [exact H1|].
    destruct H3 as [[H3 H3']|(r & -> & H3)]; [left; auto|]. right. repeat split; auto.
    + destruct (r_stage (rops s i)); discriminate || reflexivity.
    + eexists. split; [reflexivity|]. intro C. split; [auto|]. destruct (H4 C) as (_ & -> & _). exact B.
  - injection H as <- <-. split; [auto|]. left. split; [reflexivity|discriminate].
Qed.

(** A writer hands its value to a member. *)
Lemma write_member cf (s : state) j sl m s1 ev : step s (AwWrite j sl) = (s1, ev) -> bad s = None -> meets cf s j = Some m ->
  (forall k, k <> m -> rops s1 k = rops s k) /\ r_stage (rops s1 m) = Finished /\
  (ev = [] /\ bad s1 <> None \/ exists r, ev = [ERead m r]).
Proof.
  unfold step, meets. intros H B M. rewrite B in H. cbn [step_ok] in H. destruct (w_stage _); try discriminate.
  destruct (rq s) as [|i q] eqn:Q; [discriminate|]. destruct (negb _ && _ && _) eqn:G; [|discriminate]. injection M as ->.
  apply andb_true_iff in G as [G G3]. apply andb_true_iff in G as [G1 G2]. apply negb_true_iff in G1.
  unfold write_await in H. rewrite G1, Q, G3 in H. apply read_resume_spec in H. cbn [rops set_posted set_rq set_r set_w post] in H.
  destruct H as (H1 & H2 & H3 & _). split; [|split].
  - intros k N. rewrite (H1 k N). rewrite upd_eq. destruct (Nat.eqb_spec k m); congruence.
  - exact H2.
  - destruct H3 as [H3|(r & H3 & _)]; eauto.
Qed.
Lemma write_member_good cf (s : state) j sl m s1 ev : step s (AwWrite j sl) = (s1, ev) -> bad s = None -> meets cf s j = Some m -> Inv s ->
  w_stage (wops s j) = Made -> exists r, ev = [ERead m r].
Proof.
  unfold step, meets. intros H B M I A. rewrite B in H. cbn [step_ok] in H. rewrite A in *.
  destruct (rq s) as [|i q] eqn:Q; [discriminate|]. destruct (negb _ && _ && _) eqn:G; [|discriminate]. injection M as ->.
  apply andb_true_iff in G as [G G3]. apply andb_true_iff in G as [G1 G2]. apply negb_true_iff in G1.
  unfold write_await in H. rewrite G1, Q, G3 in H.
  destruct (w_val (wops s j)) as [v|] eqn:Ev. 2: { destruct (inv_wval _ I j); congruence. }
  unfold read_resume in H. cbn [rops buf set_posted set_rq set_r set_w post] in H. rewrite upd_eq, Nat.eqb_refl in H. cbn [r_direct r_cancelled] in H.
  destruct (read_broken _ _); [injection H as <- <-; eauto|].
  destruct (r_cancelled _); [injection H as <- <-; eauto|].
  destruct (buf s); injection H as <- <-; eauto.
Qed.

(** A member is started on a channel without waiting writers. *)
Lemma start_member (s : state) k sl s1 ev : step s (AwRead k sl) = (s1, ev) -> bad s = None -> wq s = [] -> r_stage (rops s k) = Made -> r_direct (rops s k) = None ->
  (forall j, j <> k -> rops s1 j = rops s j) /\ wq s1 = [] /\
  (ev = [] /\ bad s1 <> None \/
   ev = [] /\ r_stage (rops s1 k) = Awaited /\ r_direct (rops s1 k) = None \/
   exists r, ev = [ERead k r] /\ r_stage (rops s1 k) = Finished).
Proof.
  unfold step. intros H B W A D. rewrite B in H. cbn [step_ok] in H. rewrite A in H. unfold read_await in H.
  destruct (_ || _).
  - apply read_resume_spec in H. destruct H as (H1 & H2 & H3 & _ & H5). split; [exact H1|]. split; [auto|].
    destruct H3 as [H3|(r & H3 & _)]; [left; exact H3|]. right; right; eauto.
  - rewrite W in H. injection H as <- <-. cbn. rewrite upd_eq, Nat.eqb_refl. cbn. rewrite W. repeat split; auto.
    intros j N. rewrite upd_eq. destruct (Nat.eqb_spec j k); congruence.
Qed.
Lemma make_member (s : state) k s1 ev : step s (MkRead k) = (s1, ev) -> bad s = None -> r_stage (rops s k) = Absent ->
  ev = [] /\ bad s1 = None /\ wq s1 = wq s /\ (forall j, j <> k -> rops s1 j = rops s j) /\ r_stage (rops s1 k) = Made /\ r_direct (rops s1 k) = None.
Proof.
  unfold step. intros H B A. rewrite B in H. cbn [step_ok] in H. rewrite A in H. injection H as <- <-. cbn. rewrite upd_eq, Nat.eqb_refl. repeat split; auto.
  intros j N. rewrite upd_eq. destruct (Nat.eqb_spec j k); congruence.
Qed.

Lemma fold_close_read q : forall (s : state) k, same (rops s k) (rops (fold_left close_read q s) k).
Proof.
  induction q as [|i q IH]; intros s k; [apply same_refl|]. cbn [fold_left]. eapply same_trans; [|apply IH].
  unfold close_read. destruct (r_handle _); cbn; rewrite upd_eq; destruct (Nat.eqb_spec k i) as [->|N]; try apply same_refl; repeat split; auto.
Qed.
Lemma fold_close_write q : forall (s : state), rops (fold_left close_write q s) = rops s.
Proof.
  induction q as [|i q IH]; intros s; [reflexivity|]. cbn [fold_left]. rewrite IH. unfold close_write. destruct (w_handle _); reflexivity.
Qed.

(** The rest of the program does not touch a member, except as [affects] says. *)
Lemma frame cf (s : state) l s1 ev k : step s l = (s1, ev) -> own cf l = false -> affects cf s l = None -> k < n cf ->
  (bad s1 = None -> same (rops s k) (rops s1 k)) /\ no_read k ev.
Proof.
  unfold step. destruct (bad s) eqn:B.
  { intros H _ _ _. injection H as <- <-. split; [intros _; apply same_refl|intros r []]. }
  intros H O A K.
  assert (Id : forall P : state * list event, P = (s1, ev) -> (bad (fst P) = None -> same (rops s k) (rops (fst P) k)) -> snd P = [] -> (bad s1 = None -> same (rops s k) (rops s1 k)) /\ no_read k ev).
  { intros P -> E1 E2. cbn in *. subst ev. split; [exact E1|intros r []]. }
  assert (I0 : (s, []) = (s1, ev) -> (bad s1 = None -> same (rops s k) (rops s1 k)) /\ no_read k ev).
  { intro E. injection E as <- <-. split; [intros _; apply same_refl|intros r []]. }
  assert (Up : forall i o, i <> k -> same (rops s k) (upd (rops s) i o k)).
  { intros i o N. rewrite upd_eq. destruct (Nat.eqb_spec k i); [congruence|apply same_refl]. }
  assert (LT : forall i, (i <? n cf) = false -> i <> k) by (intros i E; apply Nat.ltb_ge in E; lia).
  assert (RR : forall x i, read_resume x i = (s1, ev) -> same (rops s k) (rops x k) -> i <> k -> (bad s1 = None -> same (rops s k) (rops s1 k)) /\ no_read k ev).
  { intros x i E Sm N. apply read_resume_spec in E as (E1 & _ & E3 & _). rewrite (E1 k) by congruence. split; [intros _; exact Sm|].
    intros r Hr. destruct E3 as [[-> _]|(r' & -> & _)]; [destruct Hr|]. destruct Hr as [Hr|[]]. congruence. }
  assert (WR : forall x j, write_resume x j = (s1, ev) -> same (rops s k) (rops x k) -> (bad s1 = None -> same (rops s k) (rops s1 k)) /\ no_read k ev).
  { intros x j E Sm. apply write_resume_spec in E as [E1 E2]. split; [intros _; eapply same_trans; [exact Sm|apply E1]|]. intros r Hr. exact (E2 _ _ Hr). }
  destruct l as [i|i sl|j v|j sl|i|j|i|j|i|j| |q]; cbn [own step_ok affects] in *.
  - apply LT in O. destruct (r_stage (rops s i)); try exact (I0 H). apply (Id _ H); [|reflexivity]. intros _. cbn [fst rops set_r]. apply Up. exact O.
  - apply LT in O. destruct (r_stage (rops s i)); try exact (I0 H).
    unfold read_await in H. destruct (_ || _); [apply (RR _ _ H); [apply same_refl|exact O]|].
    destruct (wq s) as [|j q]; [apply (Id _ H); [intros _; cbn [fst rops set_rq set_r]; apply Up; exact O|reflexivity]|].
    destruct (w_handle _); [|apply (Id _ H); [discriminate|reflexivity]].
    apply (WR _ _ H). cbn [rops post set_posted set_wq set_w set_r]. apply Up. exact O.
  - destruct (w_stage (wops s j)); try exact (I0 H). apply (Id _ H); [intros _; apply same_refl|reflexivity].
  - unfold meets in A. destruct (w_stage (wops s j)) eqn:Sw; try exact (I0 H).
    unfold write_await in H. destruct (write_ready s || w_cancelled (wops s j)) eqn:G; [apply (WR _ _ H); apply same_refl|].
    destruct (rq s) as [|i q]; [apply (Id _ H); [intros _; apply same_refl|reflexivity]|]. cbn [negb andb] in A.
    destruct (r_handle (rops s i)) eqn:Hh.
    + rewrite andb_true_r in A. destruct (i <? n cf) eqn:L; [discriminate|]. apply LT in L. apply (RR _ _ H); [|exact L].
      cbn [rops post set_posted set_rq set_w set_r]. apply Up. exact L.
    + apply (Id _ H); [discriminate|reflexivity].
  - apply LT in O. apply (Id _ H); [|reflexivity]. intros _. cbn [fst]. unfold read_cancel. destruct (r_slot _); [|apply same_refl].
    destruct (r_handle _); cbn [rops post set_posted set_rq set_r]; apply Up; exact O.
  - apply (Id _ H); [|reflexivity]. intros _. cbn [fst]. unfold write_cancel. destruct (w_slot _); [|apply same_refl].
    destruct (w_handle _); apply same_refl.
  - apply LT in O. assert (Q : read_interrupt s i = (s1, ev) -> (bad s1 = None -> same (rops s k) (rops s1 k)) /\ no_read k ev).
    { unfold read_interrupt. destruct (is_some _); [exact I0|]. destruct (r_handle _); intro E.
      - apply (RR _ _ E); [|exact O]. cbn [rops set_r]. apply Up. exact O.
      - apply (Id _ E); [|reflexivity]. intros _. cbn [fst rops set_r]. apply Up. exact O. }
    destruct (r_stage (rops s i)); first [exact (I0 H)|exact (Q H)].
  - assert (Q : write_interrupt s j = (s1, ev) -> (bad s1 = None -> same (rops s k) (rops s1 k)) /\ no_read k ev).
    { unfold write_interrupt. destruct (w_direct _); [exact I0|]. destruct (w_handle _); intro E.
      - apply (WR _ _ E). apply same_refl.
      - apply (Id _ E); [|reflexivity]. intros _. apply same_refl. }
    destruct (w_stage (wops s j)); first [exact (I0 H)|exact (Q H)].
  - apply LT in O. destruct (r_stage (rops s i)); try exact (I0 H).
    all: apply (Id _ H); [|reflexivity]; intros _; cbn [fst rops set_rq set_r]; apply Up; exact O.
  - destruct (w_stage (wops s j)); try exact (I0 H). all: apply (Id _ H); [|reflexivity]; intros _; apply same_refl.
  - apply (Id _ H); [|reflexivity]. intros _. cbn [fst]. unfold close. cbn [rops set_wq]. rewrite fold_close_write. cbn [rops set_rq].
    exact (fold_close_read (rq s) (set_closed s) k).
  - unfold resumed in A. unfold run_job in H. destruct (nth_error (posted s) q) as [[i|j]|]; [| |exact (I0 H)].
    + destruct (i <? n cf) eqn:L; [discriminate|]. apply LT in L. destruct (is_awaited _); [apply (RR _ _ H); [apply same_refl|exact L]|].
      apply (Id _ H); [discriminate|reflexivity].
    + destruct (is_awaited _); [apply (WR _ _ H); apply same_refl|]. apply (Id _ H); [discriminate|reflexivity].
Qed.
End Chan.
