(** What single steps of a channel do to the operations of a race, reads and writes alike. *)
From Coq Require Import List Bool Arith Lia.
From Verif Require Import Channel_Model Channel_Spec Channel_Inv Rch_Chan Sel_Model Sel_Spec.
Import ListNotations.

Section Chan.
Context {V : Type}.
Notation state := (state V).
Notation label := (label V).
Notation event := (event V).

(** Read ([w = false]) or write ([w = true]) number [k], and the queue of its kind. *)
Definition look (w : bool) (x : state) (k : nat) : core := if w then wcore (wops x k) else rcore (rops x k).
Definition oval (w : bool) (x : state) (k : nat) : option V := if w then w_val (wops x k) else None.
Definition oq (w : bool) (x : state) : list nat := if w then wq x else rq x.
Definition ready (w : bool) (x : state) : bool := if w then write_ready x else read_ready x.
Definition ojobs (w : bool) (x : state) : list nat := if w then wjobs (posted x) else rjobs (posted x).
Definition job_of (w : bool) (k : nat) : job := if w then JW k else JR k.

Definition same (w : bool) (k : nat) (x x1 : state) : Prop :=
  c_stage (look w x1 k) = c_stage (look w x k) /\ c_direct (look w x1 k) = c_direct (look w x k) /\
  (c_cancelled (look w x k) = true -> c_cancelled (look w x1 k) = true) /\ oval w x1 k = oval w x k.
Definition keep (w : bool) (k : nat) (x x1 : state) : Prop := look w x1 k = look w x k /\ oval w x1 k = oval w x k.
Lemma keep_same w k x x1 : keep w k x x1 -> same w k x x1.
Proof. intros [A B]. unfold same. rewrite A, B. auto. Qed.
Lemma keep_refl w k x : keep w k x x.
Proof. split; reflexivity. Qed.
Lemma same_refl w k x : same w k x x.
Proof. apply keep_same, keep_refl. Qed.
Lemma same_trans w k a b c : same w k a b -> same w k b c -> same w k a c.
Proof. intros (A1 & A2 & A3 & A4) (B1 & B2 & B3 & B4). unfold same. rewrite B1, B2, B4. auto 10. Qed.
Lemma keep_trans w k a b c : keep w k a b -> keep w k b c -> keep w k a c.
Proof. intros [A1 A2] [B1 B2]. split; congruence. Qed.

(** The event takes no value out of a channel and puts none in. *)
Definition idle_ev (e : event) : Prop := match e with ERead _ (RVal _) | EWrite _ _ WOk => False | _ => True end.
(** Operation [k] ends with [r] and nothing else happens. *)
Definition done_ev (w : bool) (k : nat) (ov : option V) (ev : list event) (r : result V) : Prop :=
  if w then exists v r', ov = Some v /\ ev = [EWrite k v r'] /\ r = Put r' else exists r', ev = [ERead k r'] /\ r = Got r'.
Lemma done_answer w k ov ev r : done_ev w k ov ev r -> answer w k ev = Some r.
Proof. unfold done_ev. destruct w; [intros (v & r' & _ & -> & ->)|intros (r' & -> & ->)]; cbn; rewrite Nat.eqb_refl; reflexivity. Qed.
Lemma done_idle w k ov ev r : done_ev w k ov ev r -> (forall e, In e ev -> idle_ev e) -> ok r = false.
Proof.
  unfold done_ev. destruct w; [intros (v & r' & _ & -> & ->)|intros (r' & -> & ->)]; intro H; specialize (H _ (or_introl eq_refl)); destruct r'; cbn in *; auto; destruct H.
Qed.
Lemma done_idle' w k ov ev r : done_ev w k ov ev r -> ok r = false -> forall e, In e ev -> idle_ev e.
Proof.
  unfold done_ev. destruct w; [intros (v & r' & _ & -> & ->)|intros (r' & -> & ->)]; intros H e [<-|[]]; destruct r'; cbn in *; auto; discriminate.
Qed.
(** No operation of kind [w] and number [k] ends. *)
Definition silent (w : bool) (k : nat) (ev : list event) : Prop := answer w k ev = None.

Lemma keep_r (x x1 : state) k : rops x1 k = rops x k -> keep false k x x1.
Proof. intro E. unfold keep, look, oval. rewrite E. auto. Qed.
Lemma keep_w (x x1 : state) k : wops x1 k = wops x k -> keep true k x x1.
Proof. intro E. unfold keep, look, oval. rewrite E. auto. Qed.

Ltac sr := unfold same, keep, look, oval; cbn; auto 10.

(** *** Resumption *)
Lemma wake_writer_spec (s : state) : (forall i, keep false i s (wake_writer s)) /\ (forall j, same true j s (wake_writer s)) /\ (wq s = [] -> wake_writer s = s) /\ rq (wake_writer s) = rq s.
Proof.
  split; [intro i; apply keep_r; rewrite wake_writer_r; reflexivity|]. split; [|split].
  - intro j. unfold wake_writer. destruct (wq s) as [|k q]; [sr|]. destruct (negb _); [sr|]. destruct (write_ready s); [|sr].
    destruct (w_handle (wops s k)); [|sr]. unfold same, look, oval. cbn. rewrite upd_eq. destruct (Nat.eqb_spec j k) as [->|N]; cbn; auto.
  - intro E. unfold wake_writer. rewrite E. reflexivity.
  - unfold wake_writer. destruct (wq s) as [|k q]; [reflexivity|]. destruct (negb _); [reflexivity|]. destruct (write_ready s); [|reflexivity]. destruct (w_handle _); reflexivity.
Qed.
Lemma wake_reader_spec (s : state) : (forall j, keep true j s (wake_reader s)) /\ (forall i, same false i s (wake_reader s)) /\ (rq s = [] -> wake_reader s = s) /\ wq (wake_reader s) = wq s.
Proof.
  assert (E : wops (wake_reader s) = wops s).
  { unfold wake_reader. destruct (rq s) as [|k q]; [reflexivity|]. destruct (negb _); [reflexivity|]. destruct (read_ready s); [|reflexivity]. destruct (r_handle _); reflexivity. }
  split; [intro i; apply keep_w; rewrite E; reflexivity|]. split; [|split].
  - intro j. unfold wake_reader. destruct (rq s) as [|k q]; [sr|]. destruct (negb _); [sr|]. destruct (read_ready s); [|sr].
    destruct (r_handle (rops s k)); [|sr]. unfold same, look, oval. cbn. rewrite upd_eq. destruct (Nat.eqb_spec j k) as [->|N]; cbn; auto.
  - intro Q. unfold wake_reader. rewrite Q. reflexivity.
  - unfold wake_reader. destruct (rq s) as [|k q]; [reflexivity|]. destruct (negb _); [reflexivity|]. destruct (read_ready s); [|reflexivity]. destruct (r_handle _); reflexivity.
Qed.
Lemma set_w_keep (s : state) j o w i : (w, i) <> (true, j) -> keep w i s (set_w j o s).
Proof. intro N. destruct w; [apply keep_w|apply keep_r; reflexivity]. cbn. rewrite upd_eq. destruct (Nat.eqb_spec i j); [congruence|reflexivity]. Qed.
Lemma set_r_keep (s : state) j o w i : (w, i) <> (false, j) -> keep w i s (set_r j o s).
Proof. intro N. destruct w; [apply keep_w; reflexivity|apply keep_r]. cbn. rewrite upd_eq. destruct (Nat.eqb_spec i j); [congruence|reflexivity]. Qed.

(** The coroutine that awaits operation [k] continues. *)
Definition oresume (w : bool) (s : state) (k : nat) : state * list event := if w then write_resume s k else read_resume s k.
Lemma oresume_spec w (s : state) k s1 ev : oresume w s k = (s1, ev) -> (w = true -> oval w s k <> None) ->
  (forall w' i, (w', i) <> (w, k) -> same w' i s s1) /\ (oq (negb w) s = [] -> (forall w' i, (w', i) <> (w, k) -> keep w' i s s1) /\ oq (negb w) s1 = []) /\
  c_stage (look w s1 k) = Finished /\ oval w s1 k = oval w s k /\
  (ev = [] /\ bad s1 <> None \/ exists r, done_ev w k (oval w s k) ev r /\ (c_cancelled (look w s k) = true -> ok r = false)) /\
  (c_cancelled (look w s k) = true -> ev <> [] /\ bad s1 = bad s /\ rq s1 = rq s /\ wq s1 = wq s /\ buf s1 = buf s /\ closed s1 = closed s /\ limit s1 = limit s /\ posted s1 = posted s /\
     (forall w' i, (w', i) <> (w, k) -> keep w' i s s1)).
Proof.
  destruct w; cbn [oresume negb oq].
  - unfold write_resume. intros H Hv. cbn [oval] in *. destruct (w_val (wops s k)) as [v|] eqn:Ev; [|destruct (Hv eq_refl eq_refl)]. clear Hv. set (s0 := set_w k (w_finish (wops s k)) s) in *.
    assert (K0 : forall w' i, (w', i) <> (true, k) -> keep w' i s s0) by (intros w' i N; apply set_w_keep; exact N).
    assert (F0 : c_stage (look true s0 k) = Finished /\ w_val (wops s0 k) = Some v) by (unfold s0, look; cbn; rewrite upd_eq, Nat.eqb_refl; cbn; auto).
    assert (B0 : bad s0 = bad s /\ rq s0 = rq s /\ wq s0 = wq s /\ buf s0 = buf s /\ closed s0 = closed s /\ limit s0 = limit s /\ posted s0 = posted s) by (repeat split).
    assert (X : forall r, (s0, [EWrite k v r]) = (s1, ev) -> (r = WOk -> w_cancelled (wops s k) = false) ->
       (forall w' i, (w', i) <> (true, k) -> same w' i s s1) /\ (rq s = [] -> (forall w' i, (w', i) <> (true, k) -> keep w' i s s1) /\ rq s1 = []) /\
       c_stage (look true s1 k) = Finished /\ w_val (wops s1 k) = Some v /\
       (ev = [] /\ bad s1 <> None \/ exists r, done_ev true k (Some v) ev r /\ (c_cancelled (look true s k) = true -> ok r = false)) /\
       (c_cancelled (look true s k) = true -> ev <> [] /\ bad s1 = bad s /\ rq s1 = rq s /\ wq s1 = wq s /\ buf s1 = buf s /\ closed s1 = closed s /\ limit s1 = limit s /\ posted s1 = posted s /\
          (forall w' i, (w', i) <> (true, k) -> keep w' i s s1))).
    { intros r E Nr. injection E as <- <-. split; [intros; apply keep_same; auto|]. split; [intro Q; split; [exact K0|exact Q]|]. split; [apply F0|]. split; [apply F0|]. split.
      - right. exists (Put r). split; [exists v, r; auto|]. cbn. intro Cc. destruct r; auto. rewrite Nr in Cc by reflexivity. discriminate.
      - intros _. split; [discriminate|]. destruct B0 as (B1 & B2 & B3 & B4 & B5 & B6 & B7). repeat split; auto; apply K0; auto. }
    destruct (w_closed _); [apply (X WBroken H); discriminate|]. destruct (w_cancelled (wops s k)) eqn:Ec; [apply (X WAborted H); discriminate|]. clear X.
    assert (Y : forall b, (wake_reader (set_buf b s0), [EWrite k v WOk]) = (s1, ev) ->
       (forall w' i, (w', i) <> (true, k) -> same w' i s s1) /\ (rq s = [] -> (forall w' i, (w', i) <> (true, k) -> keep w' i s s1) /\ rq s1 = []) /\
       c_stage (look true s1 k) = Finished /\ w_val (wops s1 k) = Some v /\
       (ev = [] /\ bad s1 <> None \/ exists r, done_ev true k (Some v) ev r /\ (c_cancelled (look true s k) = true -> ok r = false)) /\
       (c_cancelled (look true s k) = true -> ev <> [] /\ bad s1 = bad s /\ rq s1 = rq s /\ wq s1 = wq s /\ buf s1 = buf s /\ closed s1 = closed s /\ limit s1 = limit s /\ posted s1 = posted s /\
          (forall w' i, (w', i) <> (true, k) -> keep w' i s s1))).
    { intros b E. injection E as <- <-. destruct (wake_reader_spec (set_buf b s0)) as (W1 & W2 & W3 & W4).
      split; [|split; [|split; [|split; [|split]]]].
      - intros w' i N. apply (same_trans _ _ _ s0); [apply keep_same; auto|]. destruct w'; [apply keep_same; exact (W1 i)|exact (W2 i)].
      - intro Q. rewrite W3 by exact Q. split; [exact K0|exact Q].
      - destruct (W1 k) as [E _]. rewrite E. apply F0.
      - destruct (W1 k) as [_ E]. cbn [oval] in E. rewrite E. apply F0.
      - right. exists (Put WOk). split; [exists v, WOk; auto|]. cbn. rewrite Ec. discriminate.
      - cbn. rewrite Ec. discriminate. }
    destruct (w_direct _).
    { apply (Y (buf s0)). rewrite <- H. destruct s0; reflexivity. }
    destruct (full s0).
    { injection H as <- <-. split; [intros; apply keep_same; exact (K0 w' i H)|]. split; [intro Q; split; [exact K0|exact Q]|]. split; [apply F0|]. split; [apply F0|]. split.
      - left. split; [reflexivity|discriminate].
      - cbn. rewrite Ec. discriminate. }
    exact (Y _ H).
  - unfold read_resume. intros H _. cbn [oval]. set (s0 := set_r k (r_finish (rops s k)) s) in *.
    assert (K0 : forall w' i, (w', i) <> (false, k) -> keep w' i s s0) by (intros w' i N; apply set_r_keep; exact N).
    assert (F0 : c_stage (look false s0 k) = Finished) by (unfold s0, look; cbn; rewrite upd_eq, Nat.eqb_refl; reflexivity).
    assert (B0 : bad s0 = bad s /\ rq s0 = rq s /\ wq s0 = wq s /\ buf s0 = buf s /\ closed s0 = closed s /\ limit s0 = limit s /\ posted s0 = posted s) by (repeat split).
    assert (X : forall r, (s0, [ERead k r]) = (s1, ev) -> ok (Got r) = false ->
       (forall w' i, (w', i) <> (false, k) -> same w' i s s1) /\ (wq s = [] -> (forall w' i, (w', i) <> (false, k) -> keep w' i s s1) /\ wq s1 = []) /\
       c_stage (look false s1 k) = Finished /\ @None V = None /\
       (ev = [] /\ bad s1 <> None \/ exists r, done_ev false k None ev r /\ (c_cancelled (look false s k) = true -> ok r = false)) /\
       (c_cancelled (look false s k) = true -> ev <> [] /\ bad s1 = bad s /\ rq s1 = rq s /\ wq s1 = wq s /\ buf s1 = buf s /\ closed s1 = closed s /\ limit s1 = limit s /\ posted s1 = posted s /\
          (forall w' i, (w', i) <> (false, k) -> keep w' i s s1))).
    { intros r E Nr. injection E as <- <-. split; [intros; apply keep_same; auto|]. split; [intro Q; split; [exact K0|exact Q]|]. split; [apply F0|]. split; [reflexivity|]. split.
      - right. exists (Got r). split; [exists r; auto|auto].
      - intros _. split; [discriminate|]. destruct B0 as (B1 & B2 & B3 & B4 & B5 & B6 & B7). repeat split; auto; apply K0; auto. }
    destruct (read_broken _ _); [apply (X RBroken H); reflexivity|]. destruct (r_cancelled (rops s k)) eqn:Ec; [apply (X RAborted H); reflexivity|]. clear X.
    assert (Y : forall b v, (wake_writer (set_buf b s0), [ERead k (RVal v)]) = (s1, ev) ->
       (forall w' i, (w', i) <> (false, k) -> same w' i s s1) /\ (wq s = [] -> (forall w' i, (w', i) <> (false, k) -> keep w' i s s1) /\ wq s1 = []) /\
       c_stage (look false s1 k) = Finished /\ @None V = None /\
       (ev = [] /\ bad s1 <> None \/ exists r, done_ev false k None ev r /\ (c_cancelled (look false s k) = true -> ok r = false)) /\
       (c_cancelled (look false s k) = true -> ev <> [] /\ bad s1 = bad s /\ rq s1 = rq s /\ wq s1 = wq s /\ buf s1 = buf s /\ closed s1 = closed s /\ limit s1 = limit s /\ posted s1 = posted s /\
          (forall w' i, (w', i) <> (false, k) -> keep w' i s s1))).
    { intros b v E. injection E as <- <-. destruct (wake_writer_spec (set_buf b s0)) as (W1 & W2 & W3 & W4).
      split; [|split; [|split; [|split; [|split]]]].
      - intros w' i N. apply (same_trans _ _ _ s0); [apply keep_same; auto|]. destruct w'; [exact (W2 i)|apply keep_same; exact (W1 i)].
      - intro Q. rewrite W3 by exact Q. split; [exact K0|exact Q].
      - destruct (W1 k) as [E _]. rewrite E. apply F0.
      - reflexivity.
      - right. exists (Got (RVal v)). split; [exists (RVal v); auto|]. cbn. rewrite Ec. discriminate.
      - cbn. rewrite Ec. discriminate. }
    destruct (buf s0) as [|b bs] eqn:Eb; destruct (r_direct (rops s k)) as [d|].
    + apply (Y [] d). rewrite <- H, <- Eb. destruct s0; reflexivity.
    + injection H as <- <-. split; [intros; apply keep_same; exact (K0 w' i H)|]. split; [intro Q; split; [exact K0|exact Q]|]. split; [apply F0|]. split; [reflexivity|]. split.
      * left. split; [reflexivity|discriminate].
      * cbn. rewrite Ec. discriminate.
    + exact (Y _ _ H).
    + exact (Y _ _ H).
Qed.

(** *** Steps *)
Definition l_int (w : bool) (k : nat) : label := if w then InterruptW k else InterruptR k.
Definition l_can (w : bool) (k : nat) : label := if w then CancelW k else CancelR k.
Definition l_des (w : bool) (k : nat) : label := if w then DestroyW k else DestroyR k.
Definition l_aw (w : bool) (k : nat) : label := if w then AwWrite k true else AwRead k true.
Lemma val_some (s : state) w k : Inv s -> c_stage (look w s k) <> Absent -> w = true -> oval w s k <> None.
Proof. intros I A ->. exact (inv_wval _ I k A). Qed.

(** The state in which an operation has been interrupted. *)
Definition intr (w : bool) (k : nat) (s : state) : state :=
  if w then let o := wops s k in set_w k (mkW (w_stage o) true (w_direct o) (w_closed o) (w_slot o) false (w_val o)) s
  else let o := rops s k in set_r k (Channel_Model.mkR (r_stage o) true (r_direct o) (r_slot o) false) s.
Lemma intr_keep w k (s : state) w' i : (w', i) <> (w, k) -> keep w' i s (intr w k s).
Proof. intro N. destruct w; [apply set_w_keep|apply set_r_keep]; exact N. Qed.
Lemma intr_at w k (s : state) : c_cancelled (look w (intr w k s) k) = true /\ c_stage (look w (intr w k s) k) = c_stage (look w s k) /\
  c_direct (look w (intr w k s) k) = c_direct (look w s k) /\ oval w (intr w k s) k = oval w s k.
Proof. destruct w; unfold intr, look, oval; cbn; rewrite upd_eq, Nat.eqb_refl; cbn; auto. Qed.
Lemma step_int w (s : state) k : bad s = None -> step s (l_int w k) =
  match c_stage (look w s k) with
  | Made | Awaited => if c_direct (look w s k) then (s, []) else if c_handle (look w s k) then oresume w (intr w k s) k else (intr w k s, [])
  | _ => (s, []) end.
Proof. intro B. unfold step, l_int. rewrite B. destruct w; reflexivity. Qed.

Lemma interrupt_any w (s : state) k s1 ev : step s (l_int w k) = (s1, ev) -> (forall e, In e ev -> idle_ev e).
Proof.
  destruct (bad s) eqn:B.
  { unfold step. rewrite B. intros H e I. injection H as <- <-. destruct I. }
  rewrite (step_int w s k B). assert (Q0 : forall x, (x, []) = (s1, ev) -> forall e, In e ev -> idle_ev e) by (intros x H e I; injection H as <- <-; destruct I).
  assert (Q : (if c_direct (look w s k) then (s, []) else if c_handle (look w s k) then oresume w (intr w k s) k else (intr w k s, [])) = (s1, ev) -> forall e, In e ev -> idle_ev e).
  { destruct (c_direct _); [apply Q0|]. destruct (c_handle _); [|apply Q0]. intro H.
    destruct w; cbn [oresume intr] in H.
    - unfold write_resume in H. cbn [wops set_w] in H. rewrite upd_eq, Nat.eqb_refl in H. cbn [w_val w_closed w_cancelled] in H.
      destruct (w_val _); [|injection H as <- <-; intros e []]. destruct (w_closed _); injection H as <- <-; intros e [<-|[]]; exact I.
    - unfold read_resume in H. cbn [rops set_r] in H. rewrite upd_eq, Nat.eqb_refl in H. cbn [r_cancelled] in H.
      destruct (read_broken _ _); injection H as <- <-; intros e [<-|[]]; exact I. }
  destruct (c_stage _); try apply Q0; apply Q.
Qed.
Lemma interrupt_waiting w (s : state) k s1 ev : step s (l_int w k) = (s1, ev) -> bad s = None -> Inv s -> c_stage (look w s k) = Awaited -> c_direct (look w s k) = false ->
  bad s1 = None /\ (buf s1 = buf s /\ closed s1 = closed s /\ limit s1 = limit s /\ rq s1 = rq s /\ wq s1 = wq s) /\
  (forall w' i, (w', i) <> (w, k) -> keep w' i s s1) /\ oval w s1 k = oval w s k /\
  (ev = [] /\ c_stage (look w s1 k) = Awaited /\ c_direct (look w s1 k) = false /\ c_cancelled (look w s1 k) = true \/
   exists r, done_ev w k (oval w s k) ev r /\ ok r = false /\ c_stage (look w s1 k) = Finished).
Proof.
  intros H B I A D. rewrite (step_int w s k B), A, D in H. destruct (intr_at w k s) as (T1 & T2 & T3 & T4). destruct (c_handle _).
  - apply oresume_spec in H. 2: { rewrite T4. apply val_some; auto. rewrite A. discriminate. }
    destruct H as (_ & _ & H3 & H4 & H5 & H6). destruct (H6 T1) as (E1 & E2 & E3 & E4 & E5 & E6 & E7 & E8 & E9).
    assert (X : bad (intr w k s) = bad s /\ buf (intr w k s) = buf s /\ closed (intr w k s) = closed s /\ limit (intr w k s) = limit s /\ rq (intr w k s) = rq s /\ wq (intr w k s) = wq s) by (destruct w; repeat split).
    destruct X as (X1 & X2 & X3 & X4 & X5 & X6). split; [congruence|]. split; [repeat split; congruence|]. split; [|split; [congruence|]].
    + intros w' i N. eapply keep_trans; [apply intr_keep; exact N|auto].
    + right. destruct H5 as [[-> _]|(r & Dn & Ok)]; [congruence|]. exists r. rewrite T4 in Dn. auto.
  - injection H as <- <-. split; [destruct w; exact B|]. split; [destruct w; repeat split|]. split; [intros w' i N; apply intr_keep; exact N|]. split; [exact T4|].
    left. rewrite T1, T2, T3, A, D. auto.
Qed.

Lemma cancel_any w (s : state) k s1 ev : step s (l_can w k) = (s1, ev) ->
  ev = [] /\ bad s1 = bad s /\ (forall w' i, (w', i) <> (w, k) -> keep w' i s s1) /\ same w k s s1 /\
  (buf s1 = buf s /\ closed s1 = closed s /\ limit s1 = limit s) /\ (oq w s1 = oq w s \/ oq w s1 = unlink k (oq w s)) /\ oq (negb w) s1 = oq (negb w) s.
Proof.
  unfold step. destruct (bad s) eqn:B.
  { intro H. injection H as <- <-. rewrite B. split; [reflexivity|]. split; [reflexivity|]. split; [intros; apply keep_refl|]. split; [apply same_refl|]. auto. }
  destruct w; cbn [l_can step_ok]; [unfold write_cancel; destruct (w_slot _); [destruct (w_handle _)|]|unfold read_cancel; destruct (r_slot _); [destruct (r_handle _)|]];
    intro H; injection H as <- <-; (split; [reflexivity|]); (split; [exact B|]).
  all: try (split; [intros; apply keep_refl|]; split; [apply same_refl|]; auto; fail).
  all: (split; [intros w' i N; destruct w'; [apply keep_w|apply keep_r]; cbn; rewrite ?upd_eq; try reflexivity; destruct (Nat.eqb_spec i k); [congruence|reflexivity]|]).
  all: (split; [unfold same, look, oval; cbn; rewrite upd_eq, Nat.eqb_refl; cbn; auto|]); (split; [repeat split|]); (split; [right; reflexivity|reflexivity]).
Qed.
Lemma destroy_any w (s : state) k s1 ev : step s (l_des w k) = (s1, ev) ->
  ev = [] /\ bad s1 = bad s /\ (forall w' i, (w', i) <> (w, k) -> keep w' i s s1) /\ (c_stage (look w s1 k) = c_stage (look w s k) \/ c_stage (look w s1 k) = Destroyed) /\ oval w s1 k = oval w s k.
Proof.
  unfold step. destruct (bad s) eqn:B.
  { intro H. injection H as <- <-. rewrite B. split; [reflexivity|]. split; [reflexivity|]. split; [intros; apply keep_refl|]. auto. }
  destruct w; cbn [l_des step_ok].
  - destruct (w_stage (wops s k)); intro H; injection H as <- <-; (split; [reflexivity|]); (split; [exact B|]).
    all: try (split; [intros; apply keep_refl|]; auto; fail).
    all: (split; [intros w' i N; destruct w'; [apply keep_w|apply keep_r]; cbn; rewrite ?upd_eq; try reflexivity; destruct (Nat.eqb_spec i k); [congruence|reflexivity]|]).
    all: unfold look, oval; cbn; rewrite upd_eq, Nat.eqb_refl; cbn; auto.
  - destruct (r_stage (rops s k)); intro H; injection H as <- <-; (split; [reflexivity|]); (split; [exact B|]).
    all: try (split; [intros; apply keep_refl|]; auto; fail).
    all: (split; [intros w' i N; destruct w'; [apply keep_w|apply keep_r]; cbn; rewrite ?upd_eq; try reflexivity; destruct (Nat.eqb_spec i k); [congruence|reflexivity]|]).
    all: unfold look, oval; cbn; rewrite upd_eq, Nat.eqb_refl; cbn; auto.
Qed.

(** A member is resumed by the executor. *)
Lemma run_member w (s : state) q i s1 ev : step s (Run q) = (s1, ev) -> bad s = None -> Inv s -> nth_error (posted s) q = Some (job_of w i) ->
  (forall w' j, (w', j) <> (w, i) -> same w' j s s1) /\
  (ev = [] /\ bad s1 <> None \/
   c_stage (look w s i) = Awaited /\ c_stage (look w s1 i) = Finished /\ oval w s1 i = oval w s i /\ exists r, done_ev w i (oval w s i) ev r /\ (c_cancelled (look w s i) = true -> ok r = false)) /\
  (c_cancelled (look w s i) = true -> c_stage (look w s i) = Awaited -> ev <> [] /\ bad s1 = None).
Proof.
  unfold step. intros H B I P. rewrite B in H. cbn [step_ok] in H. unfold run_job in H. rewrite P in H. set (s0 := set_posted _ s) in H.
  assert (E : (if is_awaited (c_stage (look w s i)) then oresume w s0 i else (set_bad DoubleResume s0, [])) = (s1, ev)) by (destruct w; exact H). clear H.
  destruct (is_awaited _) eqn:A.
  - assert (Aw : c_stage (look w s i) = Awaited) by (destruct (c_stage (look w s i)); discriminate || reflexivity).
    assert (V0 : oval w s0 i = oval w s i) by (destruct w; reflexivity). assert (L0 : forall w' j, look w' s0 j = look w' s j) by (intros [] j; reflexivity).
    apply oresume_spec in E. 2: { rewrite V0. apply val_some; auto. rewrite Aw. discriminate. }
    rewrite V0, L0 in E. destruct E as (E1 & _ & E3 & E4 & E5 & E6). split; [|split].
    + intros w' j N. specialize (E1 w' j N). unfold same in *. rewrite L0 in E1. destruct w'; exact E1.
    + destruct E5 as [E5|(r & D & O)]; [left; exact E5|]. right. eauto 10.
    + intros Cc _. destruct (E6 Cc) as (N & -> & _). auto.
  - injection E as <- <-. split; [intros w' j _; destruct w'; sr|]. split; [left; split; [reflexivity|discriminate]|]. intros _ Aw. rewrite Aw in A. discriminate.
Qed.

(** An operation [j] outside the race meets member [m], which is of the other kind. *)
Definition meets (cf : cfg V) (w : bool) (x : state) (j : nat) : option nat :=
  match c_stage (look w x j), oq (negb w) x with
  | Made, m :: _ => if negb (ready w x || c_cancelled (look w x j)) && (m <? n cf) && c_handle (look (negb w) x m) then Some m else None
  | _, _ => None
  end.
Lemma meets_eq cf w (x : state) j : meets cf w x j = if w then meets_read cf x j else meets_write cf x j.
Proof. destruct w; reflexivity. Qed.
Lemma meet_member cf (w : bool) (s : state) j sl m s1 ev : step s (if w then AwWrite j sl else AwRead j sl) = (s1, ev) -> bad s = None -> Inv s -> meets cf w s j = Some m ->
  (forall w' i, (w', i) <> (negb w, m) -> (w', i) <> (w, j) -> same w' i s s1) /\ c_stage (look (negb w) s1 m) = Finished /\ oval (negb w) s1 m = oval (negb w) s m /\
  exists r, done_ev (negb w) m (oval (negb w) s m) ev r /\ ok r = true.
Proof.
  unfold step, meets. intros H B I M. rewrite B in H. destruct (c_stage (look w s j)) eqn:A; try discriminate.
  destruct (oq (negb w) s) as [|i q] eqn:Q; [discriminate|]. destruct (_ && _) eqn:G; [|discriminate]. injection M as ->.
  apply andb_true_iff in G as [G G3]. apply andb_true_iff in G as [G1 G2]. apply negb_true_iff in G1.
  assert (Hm : c_stage (look (negb w) s m) = Awaited /\ c_cancelled (look (negb w) s m) = false /\ c_direct (look (negb w) s m) = false).
  { destruct w; cbn [negb look oq] in *.
    - destruct (inv_r _ I) as (_ & _ & X). destruct (X m) as (X1 & _ & _ & X4 & _). cbn beta in *. destruct (X4 G3). rewrite Q in X1. destruct (X1 (or_introl eq_refl)). auto.
    - destruct (inv_w _ I) as (_ & _ & X). destruct (X m) as (X1 & _ & _ & X4 & _). cbn beta in *. destruct (X4 G3). rewrite Q in X1. destruct (X1 (or_introl eq_refl)). auto. }
  destruct Hm as (Am & Cm & Dm).
  destruct w; cbn [negb look oq oval ready step_ok wcore rcore c_stage c_cancelled c_handle] in *; rewrite A in H.
  - unfold write_await in H. rewrite G1, Q, G3 in H. set (s0 := post _ _) in H.
    destruct (w_val (wops s j)) as [v|] eqn:Ev. 2: { destruct (inv_wval _ I j); congruence. }
    assert (R0 : rops s0 m = Channel_Model.mkR Awaited false (Some v) (r_slot (rops s m)) false).
    { unfold s0. cbn. rewrite upd_eq, Nat.eqb_refl. cbn. rewrite Am, Cm. reflexivity. }
    assert (K0 : forall w' i, (w', i) <> (false, m) -> (w', i) <> (true, j) -> same w' i s s0).
    { intros w' i N1 N2. unfold s0. destruct w'; unfold same, look, oval; cbn; rewrite upd_eq.
      - destruct (Nat.eqb_spec i j); [congruence|]. auto.
      - destruct (Nat.eqb_spec i m); [congruence|]. auto. }
    pose proof H as H'. apply (oresume_spec false) in H'; [|discriminate]. destruct H' as (H1 & _ & H3 & _).
    split; [intros w' i N1 N2; eapply same_trans; [apply K0; assumption|apply H1; exact N1]|]. split; [exact H3|]. split; [reflexivity|].
    unfold read_resume in H. rewrite R0 in H. cbn [r_cancelled r_direct] in H.
    destruct (read_broken _ _) eqn:Bk.
    { exfalso. unfold read_broken in Bk. cbn [r_direct is_some negb] in Bk. apply andb_true_iff in Bk as [Bk _]. unfold s0 in Bk. cbn in Bk.
      unfold write_ready in G1. rewrite Bk in G1. rewrite orb_true_r in G1. discriminate. }
    destruct (buf _) as [|b bs]; injection H as <- <-; eexists; (split; [eexists; split; reflexivity|reflexivity]).
  - unfold read_await in H. rewrite G1, Q, G3 in H. set (s0 := post _ _) in H.
    assert (W0 : exists v, w_val (wops s m) = Some v). { destruct (w_val (wops s m)) as [v|] eqn:E; [eauto|]. destruct (inv_wval _ I m); congruence. }
    destruct W0 as [v Ev].
    assert (R0 : wops s0 m = mkW Awaited false true (w_closed (wops s m)) (w_slot (wops s m)) false (Some v)).
    { unfold s0. cbn. rewrite upd_eq, Nat.eqb_refl. cbn. rewrite Am, Cm, Ev. reflexivity. }
    assert (K0 : forall w' i, (w', i) <> (true, m) -> (w', i) <> (false, j) -> same w' i s s0).
    { intros w' i N1 N2. unfold s0. destruct w'; unfold same, look, oval; cbn; rewrite upd_eq.
      - destruct (Nat.eqb_spec i m); [congruence|]. auto.
      - destruct (Nat.eqb_spec i j); [congruence|]. auto. }
    pose proof H as H'. apply (oresume_spec true) in H'. 2: { intros _. cbn [oval]. rewrite R0. discriminate. }
    destruct H' as (H1 & _ & H3 & H4 & _). cbn [oval] in H4. rewrite R0 in H4.
    split; [intros w' i N1 N2; eapply same_trans; [apply K0; assumption|apply H1; exact N1]|]. split; [exact H3|]. split; [rewrite H4, Ev; reflexivity|].
    unfold write_resume in H. rewrite R0 in H. cbn [w_val w_cancelled w_direct w_closed] in H.
    destruct (w_closed (wops s m)) eqn:Wc.
    { exfalso. apply (inv_wclosed _ I) in Wc. unfold read_ready in G1. rewrite Wc in G1. rewrite orb_true_r in G1. discriminate. }
    injection H as <- <-. exists (Put WOk). split; [exists v, WOk; auto|reflexivity].
Qed.

(** A member is created, and started on a channel in which no partner waits. *)
Lemma make_member cf (s : state) k s1 ev : step s (making cf k) = (s1, ev) -> bad s = None -> c_stage (look (isw cf k) s k) = Absent ->
  ev = [] /\ bad s1 = None /\ oq (negb (isw cf k)) s1 = oq (negb (isw cf k)) s /\ (forall w' j, (w', j) <> (isw cf k, k) -> keep w' j s s1) /\
  c_stage (look (isw cf k) s1 k) = Made /\ c_direct (look (isw cf k) s1 k) = false /\ oval (isw cf k) s1 k = act cf k.
Proof.
  unfold step, making, isw. intros H B A. rewrite B in H. destruct (act cf k) as [v|]; cbn [is_some look oq negb oval wcore rcore c_stage step_ok] in *; rewrite A in H; injection H as <- <-.
  - cbn. rewrite upd_eq, Nat.eqb_refl. cbn. split; [reflexivity|]. split; [exact B|]. split; [reflexivity|]. split; [intros w' j N; apply set_w_keep; exact N|auto].
  - cbn. rewrite upd_eq, Nat.eqb_refl. cbn. split; [reflexivity|]. split; [exact B|]. split; [reflexivity|]. split; [intros w' j N; apply set_r_keep; exact N|auto].
Qed.
Lemma start_member w (s : state) k s1 ev : step s (l_aw w k) = (s1, ev) -> bad s = None -> Inv s -> oq (negb w) s = [] -> c_stage (look w s k) = Made -> c_direct (look w s k) = false ->
  (forall w' j, (w', j) <> (w, k) -> keep w' j s s1) /\ oq (negb w) s1 = [] /\ oval w s1 k = oval w s k /\
  (ev = [] /\ bad s1 <> None \/
   ev = [] /\ c_stage (look w s1 k) = Awaited /\ c_direct (look w s1 k) = false \/
   exists r, done_ev w k (oval w s k) ev r /\ c_stage (look w s1 k) = Finished).
Proof.
  unfold step. intros H B I Q A D. rewrite B in H.
  assert (X : forall b, (if b : bool then oresume w s k = (s1, ev) else
      s1 = (if w then set_wq (wq s ++ [k]) (set_w k (mkW Awaited false (w_direct (wops s k)) (w_closed (wops s k)) true true (w_val (wops s k))) s)
            else set_rq (rq s ++ [k]) (set_r k (Channel_Model.mkR Awaited false (r_direct (rops s k)) true true) s)) /\ ev = []) ->
    (forall w' j, (w', j) <> (w, k) -> keep w' j s s1) /\ oq (negb w) s1 = [] /\ oval w s1 k = oval w s k /\
  (ev = [] /\ bad s1 <> None \/
   ev = [] /\ c_stage (look w s1 k) = Awaited /\ c_direct (look w s1 k) = false \/
   exists r, done_ev w k (oval w s k) ev r /\ c_stage (look w s1 k) = Finished)).
  { intros [|].
    - intro E. apply oresume_spec in E. 2: { apply val_some; auto. rewrite A. discriminate. }
      destruct E as (_ & E2 & E3 & E4 & E5 & _). destruct (E2 Q) as [K Q1]. split; [exact K|]. split; [exact Q1|]. split; [exact E4|].
      destruct E5 as [E5|(r & E5 & _)]; [left; exact E5|]. right. right. eauto.
    - intros [-> ->]. split; [|split; [|split]].
      + intros w' j N. destruct w; destruct w'; try (apply keep_w; reflexivity); try (apply keep_r; reflexivity); [apply keep_w|apply keep_r]; cbn; rewrite upd_eq; (destruct (Nat.eqb_spec j k); [congruence|reflexivity]).
      + destruct w; exact Q.
      + destruct w; [|reflexivity]. cbn. rewrite upd_eq, Nat.eqb_refl. reflexivity.
      + right. left. split; [reflexivity|]. destruct w; unfold look in *; cbn in *; rewrite upd_eq, Nat.eqb_refl; cbn; auto. }
  destruct w; cbn [l_aw step_ok look oq negb oval wcore rcore c_stage] in *; rewrite A in H.
  - unfold write_await in H. apply (X (write_ready s || w_cancelled (wops s k))). destruct (_ || _); [exact H|]. rewrite Q in H. injection H as <- <-. auto.
  - unfold read_await in H. apply (X (read_ready s || r_cancelled (rops s k))). destruct (_ || _); [exact H|]. rewrite Q in H. injection H as <- <-. auto.
Qed.
Lemma no_meet cf (s : state) k : oq (negb (isw cf k)) s = [] -> affects cf s (awaiting cf k) = None.
Proof.
  unfold awaiting. destruct (isw cf k); cbn [negb oq affects]; intro E.
  - unfold meets_read. rewrite E. destruct (w_stage _); reflexivity.
  - unfold meets_write. rewrite E. destruct (r_stage _); reflexivity.
Qed.

(** The rest of the program does not touch a member, except as [affects] says. *)
Lemma close_reads_same q : forall (s : state) w k, same w k s (fold_left close_read q s).
Proof.
  induction q as [|i q IH]; intros s w k; [apply same_refl|]. cbn [fold_left]. eapply same_trans; [|apply IH].
  unfold close_read. destruct w; destruct (r_handle _); unfold same, look, oval; cbn; rewrite ?upd_eq; try (destruct (Nat.eqb_spec k i) as [->|N]); cbn; auto.
Qed.
Lemma close_writes_same q : forall (s : state) w k, same w k s (fold_left close_write q s).
Proof.
  induction q as [|i q IH]; intros s w k; [apply same_refl|]. cbn [fold_left]. eapply same_trans; [|apply IH].
  unfold close_write. destruct w; destruct (w_handle _); unfold same, look, oval; cbn; rewrite ?upd_eq; try (destruct (Nat.eqb_spec k i) as [->|N]); cbn; auto.
Qed.
Lemma close_same (s : state) w k : same w k s (close s).
Proof.
  unfold close. apply (same_trans _ _ _ (set_rq [] (fold_left close_read (rq s) (set_closed s)))).
  - assert (E : same w k s (set_closed s)) by (destruct w; sr). eapply same_trans; [exact E|]. pose proof (close_reads_same (rq s) (set_closed s) w k) as X. destruct w; exact X.
  - pose proof (close_writes_same (wq s) (set_rq [] (fold_left close_read (rq s) (set_closed s))) w k) as X. destruct w; exact X.
Qed.
Lemma frame cf (s : state) l s1 ev w k : step s l = (s1, ev) -> Inv s -> own cf l = false -> affects cf s l = None -> k < n cf ->
  (bad s1 = None -> same w k s s1) /\ silent w k ev.
Proof.
  unfold step. destruct (bad s) eqn:B.
  { intros H _ _ _ _. injection H as <- <-. split; [intros _; apply same_refl|reflexivity]. }
  intros H I O A K.
  assert (Id : forall x : state, (x, []) = (s1, ev) -> (bad x = None -> same w k s x) -> (bad s1 = None -> same w k s s1) /\ silent w k ev).
  { intros x E E1. injection E as <- <-. split; [exact E1|reflexivity]. }
  assert (I0 : (s, []) = (s1, ev) -> (bad s1 = None -> same w k s s1) /\ silent w k ev).
  { intro E. apply (Id _ E). intros _. apply same_refl. }
  assert (LT : forall i, (i <? n cf) = false -> i <> k) by (intros i E; apply Nat.ltb_ge in E; lia).
  assert (RR : forall w0 x i, oresume w0 x i = (s1, ev) -> same w k s x -> i <> k -> (w0 = true -> oval w0 x i <> None) -> (bad s1 = None -> same w k s s1) /\ silent w k ev).
  { intros w0 x i E Sm N Ov. apply oresume_spec in E as (E1 & _ & _ & _ & E3 & _); [|exact Ov]. split.
    - intros _. eapply same_trans; [exact Sm|]. apply E1. congruence.
    - destruct E3 as [[-> _]|(r & D & _)]; [reflexivity|]. unfold done_ev in D. unfold silent.
      destruct w0; [destruct D as (v & r' & _ & -> & _)|destruct D as (r' & -> & _)]; cbn; destruct (Nat.eqb_spec i k); try congruence; rewrite ?andb_false_r; reflexivity. }
  assert (Sr : forall i o, i <> k -> same w k s (set_r i o s)) by (intros i o N; apply keep_same, set_r_keep; congruence).
  assert (Sw : forall i o, i <> k -> same w k s (set_w i o s)) by (intros i o N; apply keep_same, set_w_keep; congruence).
  destruct l as [i|i sl|j v|j sl|i|j|i|j|i|j| |q]; cbn [own step_ok affects] in *.
  - apply LT in O. destruct (r_stage (rops s i)); try exact (I0 H). apply (Id _ H); intros _; apply Sr; exact O.
  - apply LT in O. unfold meets_write in A. destruct (r_stage (rops s i)) eqn:St; try exact (I0 H).
    unfold read_await in H. destruct (read_ready s || r_cancelled (rops s i)) eqn:G; [apply (RR false s i H); [apply same_refl|exact O|discriminate]|].
    destruct (wq s) as [|j q]; [apply (Id _ H); intros _; destruct w; exact (Sr i _ O)|]. cbn [negb andb] in A.
    destruct (w_handle (wops s j)) eqn:Hh; [|apply (Id _ H); discriminate].
    rewrite andb_true_r in A. destruct (j <? n cf) eqn:L; [discriminate|]. apply LT in L.
    apply (RR true _ j H); [|exact L|].
    + match goal with |- same w k s (post _ (set_wq _ (set_w _ ?o2 (set_r _ ?o1 _)))) => apply (same_trans _ _ _ (set_r i o1 s)); [exact (Sr i o1 O)|];
        pose proof (keep_same _ _ _ _ (set_w_keep (set_r i o1 s) j o2 w k ltac:(congruence))) as X; destruct w; exact X end.
    + intros _. unfold oval. cbn. rewrite upd_eq, Nat.eqb_refl. cbn. apply (inv_wval _ I j).
      destruct (inv_w _ I) as (_ & _ & X). destruct (X j) as (_ & _ & _ & X4 & _). cbn in X4. destruct (X4 Hh) as [-> _]. discriminate.
  - apply LT in O. destruct (w_stage (wops s j)); try exact (I0 H). apply (Id _ H); intros _; apply Sw; exact O.
  - apply LT in O. unfold meets_read in A. destruct (w_stage (wops s j)) eqn:St; try exact (I0 H).
    assert (Ov : w_val (wops s j) <> None) by (apply (inv_wval _ I j); congruence).
    unfold write_await in H. destruct (write_ready s || w_cancelled (wops s j)) eqn:G; [apply (RR true s j H); [apply same_refl|exact O|intros _; exact Ov]|].
    destruct (rq s) as [|i q]; [apply (Id _ H); intros _; destruct w; exact (Sw j _ O)|]. cbn [negb andb] in A.
    destruct (r_handle (rops s i)) eqn:Hh; [|apply (Id _ H); discriminate].
    rewrite andb_true_r in A. destruct (i <? n cf) eqn:L; [discriminate|]. apply LT in L.
    apply (RR false _ i H); [|exact L|discriminate].
    match goal with |- same w k s (post _ (set_rq _ (set_r _ ?o2 (set_w _ ?o1 _)))) => apply (same_trans _ _ _ (set_w j o1 s)); [exact (Sw j o1 O)|];
        pose proof (keep_same _ _ _ _ (set_r_keep (set_w j o1 s) i o2 w k ltac:(congruence))) as X; destruct w; exact X end.
  - apply LT in O. apply (Id _ H). intros _. unfold read_cancel. destruct (r_slot _); [|apply same_refl]. destruct (r_handle _); destruct w; exact (Sr i _ O).
  - apply LT in O. apply (Id _ H). intros _. unfold write_cancel. destruct (w_slot _); [|apply same_refl]. destruct (w_handle _); destruct w; exact (Sw j _ O).
  - apply LT in O. assert (Q : read_interrupt s i = (s1, ev) -> (bad s1 = None -> same w k s s1) /\ silent w k ev).
    { unfold read_interrupt. destruct (is_some _); [exact I0|]. destruct (r_handle _); intro E.
      - apply (RR false _ i E); [apply Sr; exact O|exact O|discriminate].
      - apply (Id _ E). intros _. apply Sr. exact O. }
    destruct (r_stage (rops s i)); first [exact (I0 H)|exact (Q H)].
  - apply LT in O. assert (Q : w_stage (wops s j) <> Absent -> write_interrupt s j = (s1, ev) -> (bad s1 = None -> same w k s s1) /\ silent w k ev).
    { intro Na. unfold write_interrupt. destruct (w_direct _); [exact I0|]. destruct (w_handle _); intro E.
      - apply (RR true _ j E); [apply Sw; exact O|exact O|]. intros _. unfold oval. cbn. rewrite upd_eq, Nat.eqb_refl. cbn. exact (inv_wval _ I j Na).
      - apply (Id _ E). intros _. apply Sw. exact O. }
    destruct (w_stage (wops s j)) eqn:St; first [exact (I0 H)|apply Q; [discriminate|exact H]].
  - apply LT in O. destruct (r_stage (rops s i)); try exact (I0 H). all: apply (Id _ H); intros _; destruct w; exact (Sr i _ O).
  - apply LT in O. destruct (w_stage (wops s j)); try exact (I0 H). all: apply (Id _ H); intros _; destruct w; exact (Sw j _ O).
  - apply (Id _ H). intros _. apply close_same.
  - unfold resumed in A. unfold run_job in H. destruct (nth_error (posted s) q) as [[i|j]|] eqn:P; [| |exact (I0 H)].
    + destruct (i <? n cf) eqn:L; [discriminate|]. apply LT in L. destruct (is_awaited _); [apply (RR false _ i H); [destruct w; sr|exact L|discriminate]|].
      apply (Id _ H); discriminate.
    + destruct (j <? n cf) eqn:L; [discriminate|]. apply LT in L. destruct (is_awaited _) eqn:Aw; [|apply (Id _ H); discriminate].
      apply (RR true _ j H); [destruct w; sr|exact L|]. intros _. unfold oval. cbn. apply (inv_wval _ I j). intro E. rewrite E in Aw. discriminate.
Qed.
End Chan.
