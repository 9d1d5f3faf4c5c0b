(** Structural invariant of the channel model: queues, pending jobs and the
    life cycle of every operation.  Holds for every schedule, any number of
    readers and writers, channel<T> and channel<void>. *)
From Coq Require Import List Bool Arith Lia Permutation.
From Verif Require Import Channel_Model Channel_Spec.
Import ListNotations.

(** What both kinds of operations have in common. *)
Record core := mkC {
  c_stage : stage; c_cancelled : bool; c_direct : bool; c_slot : bool; c_handle : bool }.

Section Inv.
Context {V : Type}.
Notation state := (state V).
Notation label := (label V).
Notation event := (event V).

Definition rcore (o : rop V) := mkC (r_stage o) (r_cancelled o) (is_some (r_direct o)) (r_slot o) (r_handle o).
Definition wcore (o : wop V) := mkC (w_stage o) (w_cancelled o) (w_direct o) (w_slot o) (w_handle o).

(** Local condition for one operation. *)
Definition loc (c : core) (inq inj : Prop) : Prop :=
  (inq -> ((c_stage c = Awaited /\ c_handle c = true) \/ (c_stage c = Finished /\ c_handle c = false)) /\ c_direct c = false) /\
  (inj -> c_stage c = Awaited /\ c_handle c = false) /\
  (c_stage c = Awaited -> (c_handle c = true /\ inq) \/ (c_handle c = false /\ inj)) /\
  (c_handle c = true -> c_stage c = Awaited /\ c_cancelled c = false) /\
  (c_stage c = Awaited -> c_direct c = true -> c_cancelled c = false /\ c_slot c = false /\ c_handle c = false) /\
  (c_stage c = Made \/ c_stage c = Absent -> c_direct c = false /\ c_slot c = false) /\
  (c_slot c = true -> c_stage c = Awaited).

Definition QInv (q : list nat) (f : nat -> core) (jobs : list nat) : Prop :=
  NoDup q /\ NoDup jobs /\ forall i, loc (f i) (In i q) (In i jobs).

Record Inv (s : state) : Prop := {
  inv_excl : rq s = [] \/ wq s = [];
  inv_r : QInv (rq s) (fun i => rcore (rops s i)) (rjobs (posted s));
  inv_w : QInv (wq s) (fun i => wcore (wops s i)) (wjobs (posted s));
  inv_closed : closed s = true -> rq s = [] /\ wq s = [];
  inv_len : length (buf s) <= limit s;
  inv_wval : forall j, w_stage (wops s j) <> Absent -> w_val (wops s j) <> None;
  inv_wclosed : forall j, w_closed (wops s j) = true -> closed s = true;
  inv_wdc : forall j, w_direct (wops s j) = true -> w_closed (wops s j) = false }.

Lemma loc_iff c p q p' q' : (p <-> p') -> (q <-> q') -> loc c p q -> loc c p' q'.
Proof. unfold loc. tauto. Qed.

(** Only operation [k] changes. *)
Lemma QInv_change k q f jobs q' f' jobs' :
  QInv q f jobs ->
  NoDup q' -> NoDup jobs' ->
  (forall i, i <> k -> f' i = f i) ->
  (forall i, i <> k -> (In i q <-> In i q')) ->
  (forall i, i <> k -> (In i jobs <-> In i jobs')) ->
  loc (f' k) (In k q') (In k jobs') ->
  QInv q' f' jobs'.
Proof.
  intros (H1 & H2 & H3) Hq Hj Hf Hiq Hij Hk. split; [|split]; auto.
  intros i. destruct (Nat.eq_dec i k) as [->|N]; auto.
  rewrite (Hf i N). eapply loc_iff; [| |apply H3]; auto.
Qed.

Lemma upd_same {A} (f : nat -> A) i x : upd f i x i = x.
Proof. unfold upd. now rewrite Nat.eqb_refl. Qed.
Lemma upd_other {A} (f : nat -> A) i x j : j <> i -> upd f i x j = f j.
Proof. unfold upd. intros. destruct (Nat.eqb_spec j i); congruence. Qed.

Lemma rjobs_app p q : rjobs (p ++ q) = rjobs p ++ rjobs q.
Proof. apply flat_map_app. Qed.
Lemma wjobs_app p q : wjobs (p ++ q) = wjobs p ++ wjobs q.
Proof. apply flat_map_app. Qed.

Lemma in_unlink i k q : In i (unlink k q) <-> In i q /\ i <> k.
Proof.
  unfold unlink. rewrite filter_In. destruct (Nat.eqb_spec i k); simpl; intuition congruence.
Qed.
Lemma nodup_unlink k q : NoDup q -> NoDup (unlink k q).
Proof. apply NoDup_filter. Qed.

Lemma nodup_snoc {A} (l : list A) x : NoDup l -> ~ In x l -> NoDup (l ++ [x]).
Proof.
  intros. apply NoDup_rev in H. rewrite <- (rev_involutive (l ++ [x])). apply NoDup_rev.
  rewrite rev_app_distr. simpl. constructor; auto. rewrite <- in_rev. auto.
Qed.

Lemma in_snoc {A} (l : list A) x y : In y (l ++ [x]) <-> In y l \/ y = x.
Proof. rewrite in_app_iff. simpl. intuition. Qed.

(** Transitions of one side (readers or writers). *)
Section Side.
Variables (q : list nat) (f : nat -> core) (jobs : list nat).
Hypothesis H : QInv q f jobs.
Variable f' : nat -> core.
Variable k : nat.
Hypothesis Hf : forall i, i <> k -> f' i = f i.

Ltac side := apply (QInv_change k q f jobs);
  [ exact H | | | exact Hf | | | ];
  destruct H as (Hn1 & Hn2 & Hl); try assumption; try reflexivity.

(* operation not in queue nor jobs, stays out *)
Lemma q_outside :
  (~ In k q) -> (~ In k jobs) ->
  c_stage (f' k) <> Awaited -> c_handle (f' k) = false ->
  (c_stage (f' k) = Made \/ c_stage (f' k) = Absent -> c_direct (f' k) = false) ->
  c_slot (f' k) = false ->
  QInv q f' jobs.
Proof. intros. side. unfold loc. intuition congruence. Qed.

Lemma q_not_awaited_out : c_stage (f k) = Made \/ c_stage (f k) = Absent -> ~ In k q /\ ~ In k jobs.
Proof.
  destruct H as (_ & _ & Hl). specialize (Hl k). unfold loc in Hl.
  intros [E|E]; rewrite E in Hl; intuition congruence.
Qed.

Lemma q_enqueue :
  c_stage (f k) = Made ->
  c_stage (f' k) = Awaited -> c_handle (f' k) = true -> c_direct (f' k) = false -> c_cancelled (f' k) = false ->
  QInv (q ++ [k]) f' jobs.
Proof.
  intros S0 S1 S2 S3 S4. destruct (q_not_awaited_out (or_introl S0)) as [N1 N2].
  side.
  - now apply nodup_snoc.
  - intros i Hi. rewrite in_snoc. intuition.
  - unfold loc. rewrite in_snoc. intuition congruence.
Qed.

Lemma q_direct_self :
  c_stage (f k) = Made ->
  c_stage (f' k) = Awaited -> c_handle (f' k) = false -> c_cancelled (f' k) = false -> c_slot (f' k) = false ->
  QInv q f' (jobs ++ [k]).
Proof.
  intros S0 S1 S2 S3 S4. destruct (q_not_awaited_out (or_introl S0)) as [N1 N2].
  side.
  - now apply nodup_snoc.
  - intros i Hi. rewrite in_snoc. intuition.
  - unfold loc. rewrite in_snoc. intuition congruence.
Qed.

(* operation in the queue with a handle: facts *)
Lemma q_head_facts q' : q = k :: q' -> c_handle (f k) = true ->
  c_stage (f k) = Awaited /\ c_direct (f k) = false /\ ~ In k jobs /\ ~ In k q' /\ NoDup q'.
Proof.
  intros -> Hh. destruct H as (Hn1 & Hn2 & Hl). specialize (Hl k). unfold loc in Hl.
  inversion Hn1; subst. simpl in Hl. destruct (c_direct (f k)); intuition congruence.
Qed.

Lemma q_wake q' : q = k :: q' -> c_handle (f k) = true ->
  c_stage (f' k) = Awaited -> c_handle (f' k) = false -> c_direct (f' k) = false ->
  QInv q' f' (jobs ++ [k]).
Proof.
  intros E Hh S1 S2 S3. destruct (q_head_facts q' E Hh) as (F1 & F2 & F3 & F4 & F5).
  side.
  - now apply nodup_snoc.
  - intros i Hi. rewrite E. simpl. intuition congruence.
  - intros i Hi. rewrite in_snoc. intuition.
  - unfold loc. rewrite in_snoc. intuition congruence.
Qed.

Lemma q_handoff q' : q = k :: q' -> c_handle (f k) = true ->
  c_stage (f' k) = Finished -> c_handle (f' k) = false -> c_slot (f' k) = false ->
  QInv q' f' jobs.
Proof.
  intros E Hh S1 S2 S3. destruct (q_head_facts q' E Hh) as (F1 & F2 & F3 & F4 & F5).
  side.
  - intros i Hi. rewrite E. simpl. intuition congruence.
  - unfold loc. intuition congruence.
Qed.

(* a queued or pending operation has its handler/handle removed and is posted if it had a handle *)
Lemma q_unlink_post :
  c_handle (f k) = true ->
  c_stage (f' k) = Awaited -> c_handle (f' k) = false -> c_direct (f' k) = false ->
  QInv (unlink k q) f' (jobs ++ [k]).
Proof.
  intros Hh S1 S2 S3.
  assert (~ In k jobs) by (destruct H as (_ & _ & Hl); specialize (Hl k); unfold loc in Hl; intuition congruence).
  side.
  - now apply nodup_unlink.
  - now apply nodup_snoc.
  - intros i Hi. rewrite in_unlink. intuition.
  - intros i Hi. rewrite in_snoc. intuition.
  - unfold loc. rewrite in_snoc, in_unlink. intuition congruence.
Qed.

Lemma q_unlink_nopost :
  c_handle (f k) = false ->
  c_stage (f k) <> Awaited ->
  c_stage (f' k) = c_stage (f k) \/ c_stage (f' k) = Destroyed ->
  c_handle (f' k) = false -> c_slot (f' k) = false ->
  (c_direct (f' k) = true -> c_direct (f k) = true) ->
  QInv (unlink k q) f' jobs.
Proof.
  intros Hh S0 S1 S2 S3 S4.
  side.
  - now apply nodup_unlink.
  - intros i Hi. rewrite in_unlink. intuition.
  - specialize (Hl k). unfold loc in *. rewrite in_unlink.
    destruct S1 as [S1|S1]; rewrite S1;
    destruct (c_direct (f' k)); destruct (c_direct (f k)); intuition congruence.
Qed.

(* pending operation changes only its cancelled flag *)
Lemma q_pending_change :
  c_stage (f' k) = c_stage (f k) -> c_handle (f k) = false -> c_handle (f' k) = false ->
  c_direct (f k) = false -> c_direct (f' k) = false ->
  (c_slot (f' k) = true -> c_slot (f k) = true) ->
  QInv q f' jobs.
Proof.
  intros S0 S1 S2 S3 S4 S5.
  side. specialize (Hl k). unfold loc in *. rewrite S0.
  destruct (c_slot (f' k)); destruct (c_slot (f k)); intuition congruence.
Qed.

(* cancel of a pending operation: not in queue *)
Lemma q_pending_unlink :
  c_handle (f k) = false -> c_stage (f k) = Awaited -> unlink k q = q.
Proof.
  intros Hh S0. destruct H as (_ & _ & Hl). specialize (Hl k). unfold loc in Hl.
  assert (N : ~ In k q) by intuition congruence.
  clear - N. induction q as [|x q' IH]; simpl; auto.
  destruct (Nat.eqb_spec x k); simpl.
  - subst. simpl in N. tauto.
  - f_equal. apply IH. simpl in N. tauto.
Qed.

(* interrupted while queued: becomes a finished operation that is still linked *)
Lemma q_interrupt :
  c_handle (f k) = true ->
  c_stage (f' k) = Finished -> c_handle (f' k) = false -> c_slot (f' k) = false -> c_direct (f' k) = false ->
  QInv q f' jobs.
Proof.
  intros Hh S1 S2 S3 S4.
  side. specialize (Hl k). unfold loc in *. intuition congruence.
Qed.

Lemma q_finish_job jobs' :
  (forall i, i <> k -> (In i jobs <-> In i jobs')) -> NoDup jobs' -> ~ In k jobs' -> In k jobs ->
  c_stage (f' k) = Finished -> c_handle (f' k) = false -> c_slot (f' k) = false ->
  QInv q f' jobs'.
Proof.
  intros Hij Hnd Hk Hk0 S1 S2 S3.
  side. specialize (Hl k). unfold loc in *. intuition congruence.
Qed.

End Side.

Lemma QInv_ext q f jobs f' : QInv q f jobs -> (forall i, f' i = f i) -> QInv q f' jobs.
Proof. intros (A & B & C) E. split; [|split]; auto. intros i. rewrite E. apply C. Qed.

(** *** Preservation, function by function *)

Ltac sm := unfold post, set_closed, set_buf, set_rq, set_wq, set_r, set_w, set_posted, set_bad in *; cbn [is_void limit closed buf rq wq rops wops posted bad] in *.
Ltac smg := unfold post, set_closed, set_buf, set_rq, set_wq, set_r, set_w, set_posted, set_bad; cbn [is_void limit closed buf rq wq rops wops posted bad].

Ltac ucase i k := destruct (Nat.eq_dec i k) as [->|?]; [rewrite ?upd_same|rewrite ?upd_other by assumption].

Lemma init_inv b n : Inv (init b n).
Proof.
  constructor; simpl; auto using NoDup_nil; try discriminate; try (intros; lia).
  - split; [constructor|split;[constructor|]]. intros i. unfold loc. simpl. intuition congruence.
  - split; [constructor|split;[constructor|]]. intros i. unfold loc. simpl. intuition congruence.
Qed.

Lemma set_w_core_inv s j o : Inv s ->
  QInv (wq s) (fun i => wcore (upd (wops s) j o i)) (wjobs (posted s)) ->
  (w_stage o <> Absent -> w_val o <> None) ->
  (w_closed o = true -> closed s = true) ->
  (w_direct o = true -> w_closed o = false) ->
  Inv (set_w j o s).
Proof.
  intros I Q A B C. destruct I. constructor; sm; auto.
  - intros i. ucase i j; eauto.
  - intros i. ucase i j; eauto.
  - intros i. ucase i j; eauto.
Qed.

Lemma set_r_core_inv s j o : Inv s ->
  QInv (rq s) (fun i => rcore (upd (rops s) j o i)) (rjobs (posted s)) ->
  Inv (set_r j o s).
Proof. intros I Q. destruct I. constructor; sm; auto. Qed.

Lemma wake_writer_inv s : Inv s -> bad (wake_writer s) = None -> Inv (wake_writer s).
Proof.
  intros I. unfold wake_writer. destruct (wq s) as [|j q] eqn:E; auto.
  destruct (is_nil (rq s)) eqn:Er; simpl; [|sm; discriminate].
  destruct (write_ready s); auto.
  destruct (w_handle (wops s j)) eqn:Eh; [|sm; discriminate].
  intros _. destruct I. sm. constructor; sm; auto.
  - left. destruct (rq s); [auto|discriminate].
  - rewrite rjobs_app. simpl. now rewrite app_nil_r.
  - rewrite wjobs_app. simpl.
    eapply (q_wake (wq s) _ _ inv_w0 _ j); eauto.
    + intros i Hi. now rewrite upd_other.
    + rewrite upd_same. simpl.
      destruct inv_w0 as (_ & _ & Hl). specialize (Hl j). unfold loc in Hl. simpl in Hl. intuition.
    + now rewrite upd_same.
    + rewrite upd_same. simpl. destruct (q_head_facts _ _ _ inv_w0 j q E Eh) as (_ & ? & _). assumption.
  - intros Hc. destruct (inv_closed0 Hc). congruence.
  - intros i. ucase i j; eauto. all: simpl; eauto.
  - intros i. ucase i j; eauto. all: simpl; eauto.
  - intros i. ucase i j; eauto. all: simpl; eauto.
Qed.

Lemma wake_reader_inv s : Inv s -> bad (wake_reader s) = None -> Inv (wake_reader s).
Proof.
  intros I. unfold wake_reader. destruct (rq s) as [|j q] eqn:E; auto.
  destruct (is_nil (wq s)) eqn:Er; simpl; [|sm; discriminate].
  destruct (read_ready s); auto.
  destruct (r_handle (rops s j)) eqn:Eh; [|sm; discriminate].
  intros _. destruct I. sm. constructor; sm; auto.
  - right. destruct (wq s); [auto|discriminate].
  - rewrite rjobs_app. simpl.
    eapply (q_wake (rq s) _ _ inv_r0 _ j); eauto.
    + intros i Hi. now rewrite upd_other.
    + rewrite upd_same. simpl.
      destruct inv_r0 as (_ & _ & Hl). specialize (Hl j). unfold loc in Hl. simpl in Hl. intuition.
    + now rewrite upd_same.
    + rewrite upd_same. simpl. destruct (q_head_facts _ _ _ inv_r0 j q E Eh) as (_ & ? & _). assumption.
  - rewrite wjobs_app. simpl. now rewrite app_nil_r.
  - intros Hc. destruct (inv_closed0 Hc). congruence.
Qed.

Lemma wake_writer_bad (s : state) : bad s <> None -> bad (wake_writer s) <> None.
Proof. unfold wake_writer. destruct (wq s); auto. repeat (match goal with |- context[if ?b then _ else _] => destruct b end); sm; auto; discriminate. Qed.
Lemma wake_reader_bad (s : state) : bad s <> None -> bad (wake_reader s) <> None.
Proof. unfold wake_reader. destruct (rq s); auto. repeat (match goal with |- context[if ?b then _ else _] => destruct b end); sm; auto; discriminate. Qed.

Lemma set_buf_inv s b : Inv s -> length b <= limit s -> Inv (set_buf b s).
Proof. intros I L. destruct I. constructor; sm; auto. Qed.

Lemma read_resume_inv s i :
  Inv (set_r i (r_finish (rops s i)) s) ->
  bad (fst (read_resume s i)) = None -> Inv (fst (read_resume s i)).
Proof.
  intros I. unfold read_resume.
  destruct (read_broken _ _); auto. destruct (r_cancelled _); auto.
  pose proof (inv_len _ I) as L.
  destruct (buf (set_r i (r_finish (rops s i)) s)) as [|b bs] eqn:Eb;
  destruct (r_direct (rops s i)) as [d|] eqn:Ed; simpl fst; intros Hb.
  - now apply wake_writer_inv.
  - sm; discriminate.
  - apply wake_writer_inv; auto. apply set_buf_inv; auto. rewrite app_length. simpl in *. lia.
  - apply wake_writer_inv; auto. apply set_buf_inv; auto. simpl in *. lia.
Qed.

Lemma write_resume_inv s j :
  Inv (set_w j (w_finish (wops s j)) s) ->
  bad (fst (write_resume s j)) = None -> Inv (fst (write_resume s j)).
Proof.
  intros I. unfold write_resume. destruct (w_val _); auto.
  destruct (w_closed _); auto. destruct (w_cancelled _); auto.
  pose proof (inv_len _ I) as L.
  destruct (w_direct _); simpl fst; intros Hb.
  - now apply wake_reader_inv.
  - destruct (full _) eqn:Ef; simpl in *; [discriminate|].
    apply wake_reader_inv; auto. apply set_buf_inv; auto.
    unfold full in Ef. apply Nat.leb_gt in Ef. rewrite app_length. sm. simpl. lia.
Qed.

Lemma read_ready_false (s : state) : read_ready s = false -> buf s = [] /\ closed s = false.
Proof. unfold read_ready. destruct (buf s), (closed s); simpl; intuition discriminate. Qed.
Lemma write_ready_false (s : state) : write_ready s = false -> length (buf s) >= limit s /\ closed s = false.
Proof.
  unfold write_ready, full. destruct (Nat.leb_spec (limit s) (length (buf s))), (closed s); simpl; intuition discriminate.
Qed.

(** A created read becomes finished directly. *)
Lemma finish_r_made_inv s i : Inv s -> r_stage (rops s i) = Made -> Inv (set_r i (r_finish (rops s i)) s).
Proof.
  intros I M. apply set_r_core_inv; auto. destruct I.
  destruct (q_not_awaited_out _ _ _ inv_r0 i (or_introl M)) as [N1 N2].
  eapply (q_outside _ _ _ inv_r0 _ i); auto.
  - intros k Hk. now rewrite upd_other.
  - rewrite upd_same. simpl. discriminate.
  - rewrite upd_same. simpl. destruct inv_r0 as (_ & _ & Hl). specialize (Hl i). unfold loc in Hl. simpl in Hl.
    destruct (r_handle (rops s i)); intuition congruence.
  - rewrite upd_same. simpl. intuition discriminate.
  - now rewrite upd_same.
Qed.

Lemma finish_w_made_inv s i : Inv s -> w_stage (wops s i) = Made -> Inv (set_w i (w_finish (wops s i)) s).
Proof.
  intros I M. pose proof I as I'. apply set_w_core_inv; auto; destruct I.
  2:{ intros _. simpl. apply inv_wval0. congruence. }
  2:{ simpl. apply inv_wclosed0. }
  2:{ simpl. apply inv_wdc0. }
  destruct (q_not_awaited_out _ _ _ inv_w0 i (or_introl M)) as [N1 N2].
  eapply (q_outside _ _ _ inv_w0 _ i); auto.
  - intros k Hk. now rewrite upd_other.
  - rewrite upd_same. simpl. discriminate.
  - rewrite upd_same. simpl. destruct inv_w0 as (_ & _ & Hl). specialize (Hl i). unfold loc in Hl. simpl in Hl.
    destruct (w_handle (wops s i)); intuition congruence.
  - rewrite upd_same. simpl. intuition discriminate.
  - now rewrite upd_same.
Qed.

(** The state in which the waiting writer [j] has been handed to the reader [i]
    and is about to be resumed. *)
Lemma handoff_r_inv s i j q :
  Inv s -> closed s = false -> r_stage (rops s i) = Made -> wq s = j :: q -> w_handle (wops s j) = true ->
  let s1 := post (JR i) (set_wq q
                   (set_w j (mkW (w_stage (wops s j)) (w_cancelled (wops s j)) true (w_closed (wops s j)) (w_slot (wops s j)) false (w_val (wops s j)))
                     (set_r i (mkR Awaited false (w_val (wops s j)) false false) s))) in
  Inv (set_w j (w_finish (wops s1 j)) s1).
Proof.
  intros I C M E Hh s1. pose proof I as I0. destruct I. subst s1. sm.
  rewrite upd_same.
  constructor; sm.
  - left. destruct inv_excl0; [auto|congruence].
  - rewrite rjobs_app. simpl.
    eapply (q_direct_self _ _ _ inv_r0 _ i); auto; try (now rewrite upd_same).
    intros k Hk. now rewrite upd_other.
  - rewrite wjobs_app. simpl. rewrite app_nil_r.
    eapply (q_handoff _ _ _ inv_w0 _ j); eauto.
    + intros k Hk. now rewrite !upd_other.
    + now rewrite upd_same.
    + now rewrite upd_same.
    + now rewrite upd_same.
  - congruence.
  - lia.
  - intros k. ucase k j; eauto. simpl. intros _. apply inv_wval0.
    destruct (q_head_facts _ _ _ inv_w0 j q E Hh) as (F & _). simpl in F. congruence.
  - intros k. ucase k j; eauto. all: simpl; eauto.
  - intros k. ucase k j; eauto. all: simpl; intros _; destruct (w_closed (wops s j)) eqn:Z; auto; apply inv_wclosed0 in Z; congruence.
Qed.

Lemma handoff_w_inv s i j q :
  Inv s -> closed s = false -> w_stage (wops s j) = Made -> rq s = i :: q -> r_handle (rops s i) = true ->
  let s1 := post (JW j) (set_rq q
                   (set_r i (mkR (r_stage (rops s i)) (r_cancelled (rops s i)) (w_val (wops s j)) (r_slot (rops s i)) false)
                     (set_w j (mkW Awaited false true (w_closed (wops s j)) false false (w_val (wops s j))) s))) in
  Inv (set_r i (r_finish (rops s1 i)) s1).
Proof.
  intros I C M E Hh s1. pose proof I as I0. destruct I. subst s1. sm.
  rewrite upd_same.
  constructor; sm.
  - right. destruct inv_excl0; [congruence|auto].
  - rewrite rjobs_app. simpl. rewrite app_nil_r.
    eapply (q_handoff _ _ _ inv_r0 _ i); eauto.
    + intros k Hk. now rewrite !upd_other.
    + now rewrite upd_same.
    + now rewrite upd_same.
    + now rewrite upd_same.
  - rewrite wjobs_app. simpl.
    eapply (q_direct_self _ _ _ inv_w0 _ j); auto; try (now rewrite upd_same).
    intros k Hk. now rewrite upd_other.
  - congruence.
  - lia.
  - intros k. ucase k j; eauto. all: try (simpl; intros _; apply inv_wval0; congruence).
  - intros k. ucase k j; eauto. all: simpl; eauto.
  - intros k. ucase k j; eauto. all: simpl; intros _; destruct (w_closed (wops s j)) eqn:Z; auto; apply inv_wclosed0 in Z; congruence.
Qed.

Lemma read_await_inv s i b :
  Inv s -> r_stage (rops s i) = Made ->
  bad (fst (read_await s i b)) = None -> Inv (fst (read_await s i b)).
Proof.
  intros I M. unfold read_await.
  destruct (read_ready s || r_cancelled (rops s i)) eqn:Er.
  - intros. apply read_resume_inv; auto. now apply finish_r_made_inv.
  - apply orb_false_iff in Er. destruct Er as [Er Ec].
    destruct (read_ready_false s Er) as [Eb Ecl].
    destruct (wq s) as [|j q] eqn:Ew.
    + intros _. pose proof I as I0. destruct I. constructor; simpl fst; sm; auto.
      * eapply (q_enqueue _ _ _ inv_r0 _ i); auto; try (now rewrite upd_same).
        -- intros k Hk. now rewrite upd_other.
        -- rewrite upd_same. simpl.
           destruct inv_r0 as (_ & _ & Hl). specialize (Hl i). unfold loc in Hl. simpl in Hl.
           destruct (is_some (r_direct (rops s i))); intuition congruence.
      * intros; congruence.
    + destruct (w_handle (wops s j)) eqn:Eh; [|simpl; discriminate].
      intros Hb. apply write_resume_inv; auto.
      now apply handoff_r_inv.
Qed.

Lemma write_await_inv s i b :
  Inv s -> w_stage (wops s i) = Made ->
  bad (fst (write_await s i b)) = None -> Inv (fst (write_await s i b)).
Proof.
  intros I M. unfold write_await.
  destruct (write_ready s || w_cancelled (wops s i)) eqn:Er.
  - intros. apply write_resume_inv; auto. now apply finish_w_made_inv.
  - apply orb_false_iff in Er. destruct Er as [Er Ec].
    destruct (write_ready_false s Er) as [Eb Ecl].
    destruct (rq s) as [|j q] eqn:Ew.
    + intros _. pose proof I as I0. destruct I. constructor; simpl fst; sm; auto.
      * eapply (q_enqueue _ _ _ inv_w0 _ i); auto; try (now rewrite upd_same).
        -- intros k Hk. now rewrite upd_other.
        -- rewrite upd_same. simpl.
           destruct inv_w0 as (_ & _ & Hl). specialize (Hl i). unfold loc in Hl. simpl in Hl.
           destruct (w_direct (wops s i)); intuition congruence.
      * intros; congruence.
      * intros k. ucase k i; eauto. all: try (simpl; intros _; apply inv_wval0; congruence).
      * intros k. ucase k i; eauto. all: simpl; eauto.
      * intros k. ucase k i; eauto. all: simpl; eauto.
    + destruct (r_handle (rops s j)) eqn:Eh; [|simpl; discriminate].
      intros Hb. apply read_resume_inv; auto.
      now apply handoff_w_inv.
Qed.

Lemma loc_slot q f jobs k : QInv q f jobs -> c_slot (f k) = true -> c_stage (f k) = Awaited /\ c_direct (f k) = false.
Proof.
  intros (_ & _ & Hl) S. specialize (Hl k). unfold loc in Hl.
  destruct (c_direct (f k)); intuition congruence.
Qed.

Lemma unlink_nil k : unlink k [] = [].
Proof. reflexivity. Qed.

Lemma read_cancel_inv s i : Inv s -> Inv (read_cancel s i).
Proof.
  intros I. unfold read_cancel. destruct (r_slot (rops s i)) eqn:Es; auto.
  destruct I. destruct (loc_slot _ _ _ i inv_r0 Es) as [A D]. simpl in A, D.
  destruct (r_handle (rops s i)) eqn:Eh; constructor; sm; auto.
  - destruct inv_excl0 as [E|E]; [left; rewrite E; apply unlink_nil|auto].
  - rewrite rjobs_app. simpl.
    eapply (q_unlink_post _ _ _ inv_r0 _ i); auto; try (now rewrite upd_same).
    intros k Hk. now rewrite upd_other.
  - rewrite wjobs_app. simpl. now rewrite app_nil_r.
  - intros C. destruct (inv_closed0 C) as [-> ->]. auto.
  - destruct inv_excl0 as [E|E]; [left; rewrite E; apply unlink_nil|auto].
  - rewrite (q_pending_unlink _ _ _ inv_r0 i Eh A).
    eapply (q_pending_change _ _ _ inv_r0 _ i); auto; try (now rewrite upd_same).
    intros k Hk. now rewrite upd_other.
  - intros C. destruct (inv_closed0 C) as [-> ->]. auto.
Qed.

Lemma write_cancel_inv s i : Inv s -> Inv (write_cancel s i).
Proof.
  intros I. unfold write_cancel. destruct (w_slot (wops s i)) eqn:Es; auto.
  destruct I. destruct (loc_slot _ _ _ i inv_w0 Es) as [A D]. simpl in A, D.
  destruct (w_handle (wops s i)) eqn:Eh; constructor; sm; auto.
  - destruct inv_excl0 as [E|E]; [auto|right; rewrite E; apply unlink_nil].
  - rewrite rjobs_app. simpl. now rewrite app_nil_r.
  - rewrite wjobs_app. simpl.
    eapply (q_unlink_post _ _ _ inv_w0 _ i); auto; try (now rewrite upd_same).
    intros k Hk. now rewrite upd_other.
  - intros C. destruct (inv_closed0 C) as [-> ->]. auto.
  - intros k. ucase k i; eauto. all: try (simpl; intros _; apply inv_wval0; congruence).
  - intros k. ucase k i; eauto. all: simpl; eauto.
  - intros k. ucase k i; eauto. all: simpl; eauto.
  - destruct inv_excl0 as [E|E]; [auto|right; rewrite E; apply unlink_nil].
  - rewrite (q_pending_unlink _ _ _ inv_w0 i Eh A).
    eapply (q_pending_change _ _ _ inv_w0 _ i); auto; try (now rewrite upd_same).
    intros k Hk. now rewrite upd_other.
  - intros C. destruct (inv_closed0 C) as [-> ->]. auto.
  - intros k. ucase k i; eauto. all: try (simpl; intros _; apply inv_wval0; congruence).
  - intros k. ucase k i; eauto. all: simpl; eauto.
  - intros k. ucase k i; eauto. all: simpl; eauto.
Qed.

Lemma is_some_true {A} (o : option A) : is_some o = true <-> o <> None.
Proof. destruct o; simpl; intuition congruence. Qed.

(** State in which a waiting read was interrupted and is finished but linked. *)
Lemma interrupt_r_inv s i : Inv s -> r_handle (rops s i) = true ->
  let s1 := set_r i (mkR (r_stage (rops s i)) true (r_direct (rops s i)) (r_slot (rops s i)) false) s in
  Inv (set_r i (r_finish (rops s1 i)) s1).
Proof.
  intros I Hh s1. subst s1. sm. rewrite upd_same. destruct I. constructor; sm; auto.
  eapply (q_interrupt _ _ _ inv_r0 _ i); auto; try (now rewrite upd_same).
  1: intros k Hk; now rewrite !upd_other.
  rewrite upd_same. simpl. destruct inv_r0 as (_ & _ & Hl). specialize (Hl i). unfold loc in Hl. simpl in Hl.
  destruct (is_some (r_direct (rops s i))); intuition congruence.
Qed.

Lemma interrupt_w_inv s i : Inv s -> w_handle (wops s i) = true ->
  let s1 := set_w i (mkW (w_stage (wops s i)) true (w_direct (wops s i)) (w_closed (wops s i)) (w_slot (wops s i)) false (w_val (wops s i))) s in
  Inv (set_w i (w_finish (wops s1 i)) s1).
Proof.
  intros I Hh s1. subst s1. sm. rewrite upd_same. destruct I.
  assert (w_stage (wops s i) = Awaited).
  { destruct inv_w0 as (_ & _ & Hl). specialize (Hl i). unfold loc in Hl. simpl in Hl. intuition. }
  constructor; sm; auto.
  - eapply (q_interrupt _ _ _ inv_w0 _ i); auto; try (now rewrite upd_same).
    1: intros k Hk; now rewrite !upd_other.
    rewrite upd_same. simpl. destruct inv_w0 as (_ & _ & Hl). specialize (Hl i). unfold loc in Hl. simpl in Hl.
    destruct (w_direct (wops s i)); intuition congruence.
  - intros k. ucase k i; eauto. all: try (simpl; intros _; apply inv_wval0; congruence).
  - intros k. ucase k i; eauto. all: simpl; eauto.
  - intros k. ucase k i; eauto. all: simpl; eauto.
Qed.

Lemma read_interrupt_inv s i : Inv s -> 
  bad (fst (read_interrupt s i)) = None -> Inv (fst (read_interrupt s i)).
Proof.
  intros I. unfold read_interrupt. destruct (is_some (r_direct (rops s i))) eqn:Ed; auto.
  destruct (r_handle (rops s i)) eqn:Eh; intros Hb.
  - apply read_resume_inv; auto. now apply interrupt_r_inv.
  - simpl. destruct I. constructor; sm; auto.
    eapply (q_pending_change _ _ _ inv_r0 _ i); auto; try (now rewrite upd_same).
    all: try (intros k Hk; now rewrite upd_other).
    all: try (now rewrite upd_same; simpl).
Qed.

Lemma write_interrupt_inv s i : Inv s -> 
  bad (fst (write_interrupt s i)) = None -> Inv (fst (write_interrupt s i)).
Proof.
  intros I. unfold write_interrupt. destruct (w_direct (wops s i)) eqn:Ed; auto.
  destruct (w_handle (wops s i)) eqn:Eh; intros Hb.
  - apply write_resume_inv; auto. pose proof (interrupt_w_inv s i I Eh) as X. cbv zeta in X. rewrite Ed in X. exact X.
  - simpl. destruct I. constructor; sm; auto.
    + eapply (q_pending_change _ _ _ inv_w0 _ i); auto; try (now rewrite upd_same).
      all: try (intros k Hk; now rewrite upd_other).
      all: try (now rewrite upd_same; simpl).
    + intros k. ucase k i; eauto. all: simpl; eauto.
    + intros k. ucase k i; eauto. all: simpl; eauto.
    + intros k. ucase k i; eauto. all: simpl; eauto. all: rewrite ?Ed; discriminate.
Qed.

(** The closing loops. *)
Lemma close_reads_other q : forall s : state,
  wq (fold_left close_read q s) = wq s /\ closed (fold_left close_read q s) = closed s /\
  wops (fold_left close_read q s) = wops s /\ buf (fold_left close_read q s) = buf s /\
  limit (fold_left close_read q s) = limit s /\ bad (fold_left close_read q s) = bad s /\
  wjobs (posted (fold_left close_read q s)) = wjobs (posted s) /\
  is_void (fold_left close_read q s) = is_void s.
Proof.
  induction q as [|i q IH]; intros s; simpl; auto 10.
  destruct (IH (close_read s i)) as (A & B & C & D & E & F & G & K).
  rewrite A, B, C, D, E, F, G, K. unfold close_read. destruct (r_handle _); sm; auto 10.
  rewrite wjobs_app. simpl. rewrite app_nil_r. auto 10.
Qed.

Lemma close_writes_other q : forall s : state,
  rq (fold_left close_write q s) = rq s /\ closed (fold_left close_write q s) = closed s /\
  rops (fold_left close_write q s) = rops s /\ buf (fold_left close_write q s) = buf s /\
  limit (fold_left close_write q s) = limit s /\ bad (fold_left close_write q s) = bad s /\
  rjobs (posted (fold_left close_write q s)) = rjobs (posted s) /\
  is_void (fold_left close_write q s) = is_void s.
Proof.
  induction q as [|i q IH]; intros s; simpl; auto 10.
  destruct (IH (close_write s i)) as (A & B & C & D & E & F & G & K).
  rewrite A, B, C, D, E, F, G, K. unfold close_write. destruct (w_handle _); sm; auto 10.
  rewrite rjobs_app. simpl. rewrite app_nil_r. auto 10.
Qed.

(** [closed] may only be set once the queues are empty, so the invariant for
    the closing loop drops [inv_closed]. *)
Record Inv0 (s : state) : Prop := {
  i0_excl : rq s = [] \/ wq s = [];
  i0_r : QInv (rq s) (fun i => rcore (rops s i)) (rjobs (posted s));
  i0_w : QInv (wq s) (fun i => wcore (wops s i)) (wjobs (posted s));
  i0_len : length (buf s) <= limit s;
  i0_wval : forall j, w_stage (wops s j) <> Absent -> w_val (wops s j) <> None;
  i0_wclosed : forall j, w_closed (wops s j) = true -> closed s = true;
  i0_wdc : forall j, w_direct (wops s j) = true -> w_closed (wops s j) = false }.

Lemma close_reads_inv0 q : forall s : state,
  Inv0 (set_rq q s) -> Inv0 (set_rq [] (fold_left close_read q s)).
Proof.
  induction q as [|i q IH]; intros s I; simpl; auto.
  apply IH; auto.
  unfold close_read. destruct I. sm.
  destruct i0_r0 as (N1 & N2 & Hl).
  assert (Q : QInv (i :: q) (fun i => rcore (rops s i)) (rjobs (posted s))) by (split; auto).
  inversion N1; subst.
  assert (Li := Hl i). unfold loc in Li. simpl in Li.
  destruct (r_handle (rops s i)) eqn:Eh; constructor; sm; auto.
  + destruct i0_excl0; [discriminate|auto].
  + rewrite rjobs_app. simpl.
    eapply (q_wake _ _ _ Q _ i); eauto; try (now rewrite upd_same).
    * intros k Hk. now rewrite upd_other.
    * rewrite upd_same. simpl. tauto.
    * rewrite upd_same. simpl. destruct (is_some (r_direct (rops s i))); intuition congruence.
  + rewrite wjobs_app. simpl. now rewrite app_nil_r.
  + destruct i0_excl0; [discriminate|auto].
  + eapply (QInv_change i _ _ _ _ _ _ Q); auto.
    * intros k Hk. now rewrite upd_other.
    * simpl. intuition congruence.
    * simpl. reflexivity.
    * rewrite upd_same. unfold loc. simpl.
      destruct (is_some (r_direct (rops s i))); intuition congruence.
Qed.

Lemma close_writes_inv0 q : forall s : state,
  Inv0 (set_wq q s) -> closed s = true -> Inv0 (set_wq [] (fold_left close_write q s)).
Proof.
  induction q as [|i q IH]; intros s I C; simpl; auto.
  apply IH; [|unfold close_write; destruct (w_handle _); sm; auto].
  unfold close_write. destruct I. sm.
  destruct i0_w0 as (N1 & N2 & Hl).
  assert (Q : QInv (i :: q) (fun i => wcore (wops s i)) (wjobs (posted s))) by (split; auto).
  inversion N1; subst.
  assert (Li := Hl i). unfold loc in Li. simpl in Li.
  assert (S : w_stage (wops s i) <> Absent) by intuition congruence.
  destruct (w_handle (wops s i)) eqn:Eh; constructor; sm; auto.
  + destruct i0_excl0; [auto|discriminate].
  + rewrite rjobs_app. simpl. now rewrite app_nil_r.
  + rewrite wjobs_app. simpl.
    eapply (q_wake _ _ _ Q _ i); eauto; try (now rewrite upd_same).
    * intros k Hk. now rewrite upd_other.
    * rewrite upd_same. simpl. tauto.
    * rewrite upd_same. simpl. destruct (w_direct (wops s i)); intuition congruence.
  + intros k. ucase k i; eauto. all: simpl; eauto.
  + intros k. ucase k i; eauto. all: simpl; eauto. all: intuition congruence.
  + destruct i0_excl0; [auto|discriminate].
  + eapply (QInv_change i _ _ _ _ _ _ Q); auto.
    * intros k Hk. now rewrite upd_other.
    * simpl. intuition congruence.
    * simpl. reflexivity.
    * rewrite upd_same. unfold loc. simpl.
      destruct (w_direct (wops s i)); intuition congruence.
  + intros k. ucase k i; eauto. all: simpl; eauto.
  + intros k. ucase k i; eauto. all: simpl; eauto. all: intuition congruence.
Qed.

Lemma Inv_Inv0 s : Inv s -> Inv0 s.
Proof. intros []. constructor; auto. Qed.

Lemma set_rq_same (s : state) : set_rq (rq s) s = s.
Proof. destruct s; reflexivity. Qed.
Lemma set_wq_same (s : state) : set_wq (wq s) s = s.
Proof. destruct s; reflexivity. Qed.

Lemma close_inv s : Inv s -> Inv (close s).
Proof.
  intros I. unfold close.
  assert (A : Inv0 (set_rq [] (fold_left close_read (rq s) (set_closed s)))).
  { apply close_reads_inv0. destruct I. constructor; sm; auto. }
  set (s1 := set_rq [] (fold_left close_read (rq s) (set_closed s))) in *.
  assert (W : wq s1 = wq s).
  { unfold s1. change (wq (fold_left close_read (rq s) (set_closed s)) = wq s). now destruct (close_reads_other (rq s) (set_closed s)) as (-> & _). }
  assert (C : closed s1 = true).
  { unfold s1. change (closed (fold_left close_read (rq s) (set_closed s)) = true). now destruct (close_reads_other (rq s) (set_closed s)) as (_ & -> & _). }
  assert (B : Inv0 (set_wq [] (fold_left close_write (wq s) s1))).
  { apply close_writes_inv0; auto. rewrite <- W. now rewrite set_wq_same. }
  destruct B. constructor; auto.
  intros _. split; [|reflexivity].
  change (rq (fold_left close_write (wq s) s1) = []). destruct (close_writes_other (wq s) s1) as (-> & _). reflexivity.
Qed.

(** Running one pending job. *)
Lemma nth_error_remove {A} k (l : list A) x : nth_error l k = Some x ->
  l = firstn k l ++ x :: skipn (S k) l.
Proof.
  revert l. induction k; intros [|y l] E; simpl in *; try discriminate.
  - congruence.
  - f_equal. now apply IHk.
Qed.

Lemma rjobs_remove k p i : nth_error p k = Some (JR i) -> 
  exists a b, rjobs p = a ++ i :: b /\ rjobs (remove_nth k p) = a ++ b /\ wjobs (remove_nth k p) = wjobs p.
Proof.
  intros E. apply nth_error_remove in E. unfold remove_nth.
  set (a := firstn k p) in *. set (b := skipn (S k) p) in *. clearbody a b. subst p.
  exists (rjobs a), (rjobs b).
  rewrite !rjobs_app, !wjobs_app. simpl. auto.
Qed.
Lemma wjobs_remove k p i : nth_error p k = Some (JW i) -> 
  exists a b, wjobs p = a ++ i :: b /\ wjobs (remove_nth k p) = a ++ b /\ rjobs (remove_nth k p) = rjobs p.
Proof.
  intros E. apply nth_error_remove in E. unfold remove_nth.
  set (a := firstn k p) in *. set (b := skipn (S k) p) in *. clearbody a b. subst p.
  exists (wjobs a), (wjobs b).
  rewrite !rjobs_app, !wjobs_app. simpl. auto.
Qed.

Lemma nodup_mid {A} (a b : list A) x : NoDup (a ++ x :: b) -> NoDup (a ++ b) /\ ~ In x (a ++ b).
Proof. intros N. apply NoDup_remove in N. auto. Qed.

Lemma run_r_finish_inv s k i : Inv s -> nth_error (posted s) k = Some (JR i) ->
  let s1 := set_posted (remove_nth k (posted s)) s in
  Inv (set_r i (r_finish (rops s1 i)) s1) /\ r_stage (rops s i) = Awaited.
Proof.
  intros I E s1. subst s1. sm. destruct (rjobs_remove _ _ _ E) as (a & b & E1 & E2 & E3).
  destruct I. destruct inv_r0 as (N1 & N2 & Hl). 
  assert (Q : QInv (rq s) (fun i => rcore (rops s i)) (rjobs (posted s))) by (split; auto).
  rewrite E1 in N2. destruct (nodup_mid _ _ _ N2) as [N3 N4].
  assert (Li := Hl i). unfold loc in Li. simpl in Li.
  assert (Hin : In i (rjobs (posted s))) by (rewrite E1; apply in_elt).
  split; [|tauto].
  constructor; sm; auto.
  - rewrite E2. eapply (q_finish_job _ _ _ Q _ i); auto; try (now rewrite upd_same).
    + intros j Hj. now rewrite upd_other.
    + intros j Hj. rewrite E1, !in_app_iff. simpl. intuition congruence.
    + rewrite upd_same. simpl. tauto.
  - now rewrite E3.
Qed.

Lemma run_w_finish_inv s k i : Inv s -> nth_error (posted s) k = Some (JW i) ->
  let s1 := set_posted (remove_nth k (posted s)) s in
  Inv (set_w i (w_finish (wops s1 i)) s1) /\ w_stage (wops s i) = Awaited.
Proof.
  intros I E s1. subst s1. sm. destruct (wjobs_remove _ _ _ E) as (a & b & E1 & E2 & E3).
  destruct I. destruct inv_w0 as (N1 & N2 & Hl). 
  assert (Q : QInv (wq s) (fun i => wcore (wops s i)) (wjobs (posted s))) by (split; auto).
  rewrite E1 in N2. destruct (nodup_mid _ _ _ N2) as [N3 N4].
  assert (Li := Hl i). unfold loc in Li. simpl in Li.
  assert (Hin : In i (wjobs (posted s))) by (rewrite E1; apply in_elt).
  split; [|tauto].
  constructor; sm; auto.
  - now rewrite E3.
  - rewrite E2. eapply (q_finish_job _ _ _ Q _ i); auto; try (now rewrite upd_same).
    + intros j Hj. now rewrite upd_other.
    + intros j Hj. rewrite E1, !in_app_iff. simpl. intuition congruence.
    + rewrite upd_same. simpl. tauto.
  - intros j. ucase j i; eauto. all: try (simpl; intros _; apply inv_wval0; intuition congruence).
  - intros j. ucase j i; eauto. all: simpl; eauto.
  - intros j. ucase j i; eauto. all: simpl; eauto.
Qed.

Lemma run_job_inv s k : Inv s -> bad (fst (run_job s k)) = None -> Inv (fst (run_job s k)).
Proof.
  intros I. unfold run_job. destruct (nth_error (posted s) k) as [[i|i]|] eqn:E; auto.
  - destruct (run_r_finish_inv s k i I E) as [F A]. rewrite A. simpl is_awaited. cbv iota.
    intros Hb. now apply read_resume_inv.
  - destruct (run_w_finish_inv s k i I E) as [F A]. rewrite A. simpl is_awaited. cbv iota.
    intros Hb. now apply write_resume_inv.
Qed.

Lemma destroy_r_inv s i : Inv s -> r_stage (rops s i) = Made \/ r_stage (rops s i) = Finished ->
  Inv (set_rq (unlink i (rq s)) (set_r i (mkR Destroyed (r_cancelled (rops s i)) (r_direct (rops s i)) false false) s)).
Proof.
  intros I S. destruct I. constructor; sm; auto.
  - destruct inv_excl0 as [E|E]; [left; rewrite E; apply unlink_nil|auto].
  - eapply (q_unlink_nopost _ _ _ inv_r0 _ i); auto; try (now rewrite upd_same).
    + intros k Hk. now rewrite upd_other.
    + simpl. destruct inv_r0 as (_ & _ & Hl). specialize (Hl i). unfold loc in Hl. simpl in Hl.
      destruct (r_handle (rops s i)); intuition congruence.
    + simpl. intuition congruence.
    + rewrite upd_same. simpl. auto.
  - intros C. destruct (inv_closed0 C) as [-> ->]. auto.
Qed.

Lemma destroy_w_inv s i : Inv s -> w_stage (wops s i) = Made \/ w_stage (wops s i) = Finished ->
  Inv (set_wq (unlink i (wq s)) (set_w i (mkW Destroyed (w_cancelled (wops s i)) (w_direct (wops s i)) (w_closed (wops s i)) false false (w_val (wops s i))) s)).
Proof.
  intros I S. destruct I. constructor; sm; auto.
  - destruct inv_excl0 as [E|E]; [auto|right; rewrite E; apply unlink_nil].
  - eapply (q_unlink_nopost _ _ _ inv_w0 _ i); auto; try (now rewrite upd_same).
    + intros k Hk. now rewrite upd_other.
    + simpl. destruct inv_w0 as (_ & _ & Hl). specialize (Hl i). unfold loc in Hl. simpl in Hl.
      destruct (w_handle (wops s i)); intuition congruence.
    + simpl. intuition congruence.
    + rewrite upd_same. simpl. auto.
  - intros C. destruct (inv_closed0 C) as [-> ->]. auto.
  - intros k. ucase k i; eauto. all: try (simpl; intros _; apply inv_wval0; intuition congruence).
  - intros k. ucase k i; eauto. all: simpl; eauto.
  - intros k. ucase k i; eauto. all: simpl; eauto.
Qed.

Lemma make_r_inv s i : Inv s -> r_stage (rops s i) = Absent -> Inv (set_r i (mkR Made false None false false) s).
Proof.
  intros I A. apply set_r_core_inv; auto. destruct I.
  destruct (q_not_awaited_out _ _ _ inv_r0 i (or_intror A)) as [N1 N2].
  eapply (q_outside _ _ _ inv_r0 _ i); auto; try (now rewrite upd_same).
  intros k Hk. now rewrite upd_other.
Qed.

Lemma make_w_inv s i v : Inv s -> w_stage (wops s i) = Absent -> Inv (set_w i (mkW Made false false (closed s) false false (Some v)) s).
Proof.
  intros I A. pose proof I as I0. apply set_w_core_inv; auto; destruct I.
  - destruct (q_not_awaited_out _ _ _ inv_w0 i (or_intror A)) as [N1 N2].
    eapply (q_outside _ _ _ inv_w0 _ i); auto; try (now rewrite upd_same).
    intros k Hk. now rewrite upd_other.
  - simpl. discriminate.
  - simpl. discriminate.
Qed.

Lemma step_inv s l : Inv s -> bad (fst (step s l)) = None -> Inv (fst (step s l)).
Proof.
  intros I. unfold step. destruct (bad s) eqn:B; auto.
  destruct l; simpl.
  - destruct (r_stage (rops s i)) eqn:S; auto. intros _. now apply make_r_inv.
  - destruct (r_stage (rops s i)) eqn:S; auto. now apply read_await_inv.
  - destruct (w_stage (wops s i)) eqn:S; auto. intros _. now apply make_w_inv.
  - destruct (w_stage (wops s i)) eqn:S; auto. now apply write_await_inv.
  - intros _. now apply read_cancel_inv.
  - intros _. now apply write_cancel_inv.
  - destruct (r_stage (rops s i)) eqn:S; auto; now apply read_interrupt_inv.
  - destruct (w_stage (wops s i)) eqn:S; auto; now apply write_interrupt_inv.
  - destruct (r_stage (rops s i)) eqn:S; auto; intros _; simpl; apply destroy_r_inv; auto.
  - destruct (w_stage (wops s i)) eqn:S; auto; intros _; simpl; apply destroy_w_inv; auto.
  - intros _. now apply close_inv.
  - now apply run_job_inv.
Qed.

Lemma step_bad (s : state) l : bad s <> None -> step s l = (s, []).
Proof. unfold step. destruct (bad s); congruence. Qed.

Lemma run_bad (s : state) ls : bad s <> None -> run s ls = (s, []).
Proof.
  induction ls as [|l ls IH]; simpl; auto. intros B. rewrite step_bad by auto. now rewrite IH.
Qed.

Lemma run_app (s : state) l1 : forall l2, run s (l1 ++ l2) =
  let '(s1, e1) := run s l1 in let '(s2, e2) := run s1 l2 in (s2, e1 ++ e2).
Proof.
  revert s. induction l1 as [|l ls IH]; intros s l2; simpl.
  - now destruct (run s l2).
  - destruct (step s l) as [s1 e1]. rewrite IH. destruct (run s1 ls) as [s2 e2].
    destruct (run s2 l2) as [s3 e3]. now rewrite app_assoc.
Qed.

Lemma run_cons (s : state) l ls : run s (l :: ls) =
  (fst (run (fst (step s l)) ls), snd (step s l) ++ snd (run (fst (step s l)) ls)).
Proof. simpl. destruct (step s l) as [s1 e1]. simpl. now destruct (run s1 ls). Qed.

Lemma run_good_prefix (s : state) ls : bad (fst (run s ls)) = None -> bad s = None.
Proof.
  intros H. destruct (bad s) eqn:B; auto. rewrite run_bad in H by congruence. simpl in H. congruence.
Qed.

Lemma run_inv ls : forall s : state, Inv s -> bad (fst (run s ls)) = None -> Inv (fst (run s ls)).
Proof.
  induction ls as [|l ls IH]; intros s I; auto.
  rewrite run_cons. simpl. intros B. apply IH; auto. apply step_inv; auto.
  now apply run_good_prefix in B.
Qed.

End Inv.
