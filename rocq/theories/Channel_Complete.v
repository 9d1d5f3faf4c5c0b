(** Completion facts: who completes, how often, with what effect. *)
From Coq Require Import List Bool Arith Lia Permutation.
From Verif Require Import Channel_Model Channel_Spec Channel_Inv Channel_Ledger Perm.
Import ListNotations.

Section Complete.
Context {V : Type}.
Notation state := (state V).
Notation label := (label V).
Notation event := (event V).

Ltac sm := unfold post, set_closed, set_buf, set_rq, set_wq, set_r, set_w, set_posted, set_bad in *; cbn [is_void limit closed buf rq wq rops wops posted bad] in *.
Ltac ifs := repeat (match goal with |- context[if ?b then _ else _] => destruct b end).

Definition rst (s : state) i := r_stage (rops s i).
Definition wst (s : state) i := w_stage (wops s i).
Definition rank (st : stage) : nat :=
  match st with Absent => 0 | Made => 1 | Awaited => 2 | Finished => 3 | Destroyed => 4 end.

(** What a piece of code may do to stages and values. *)
Definition mono (s s' : state) : Prop :=
  (forall k, rank (rst s k) <= rank (rst s' k)) /\
  (forall k, rank (wst s k) <= rank (wst s' k)) /\
  (forall k, wst s k <> Absent -> w_val (wops s' k) = w_val (wops s k)) /\
  (forall k, w_closed (wops s k) = true -> w_closed (wops s' k) = true).

Lemma mono_refl s : mono s s.
Proof. unfold mono. auto. Qed.
Lemma mono_trans a b c : mono a b -> mono b c -> mono a c.
Proof.
  intros (A1 & A2 & A3 & A4) (B1 & B2 & B3 & B4). split; [|split; [|split]]; intros k.
  - specialize (A1 k). specialize (B1 k). lia.
  - specialize (A2 k). specialize (B2 k). lia.
  - intros H. rewrite B3; auto. intros E. apply H. specialize (A2 k). rewrite E in A2. destruct (wst a k); simpl in A2; auto; lia.
  - auto.
Qed.

Lemma mono_set_r s i o : rank (rst s i) <= rank (r_stage o) -> mono s (set_r i o s).
Proof.
  intros H. unfold mono, rst, wst in *. sm. split; [|split; [|split]]; auto.
  intros k. unfold upd. destruct (Nat.eqb_spec k i); subst; auto.
Qed.
Lemma mono_set_w s i o : rank (wst s i) <= rank (w_stage o) ->
  (wst s i <> Absent -> w_val o = w_val (wops s i)) ->
  (w_closed (wops s i) = true -> w_closed o = true) -> mono s (set_w i o s).
Proof.
  intros H H1 H2. unfold mono, rst, wst in *. sm. split; [|split; [|split]]; auto;
  intros k; unfold upd; destruct (Nat.eqb_spec k i); subst; auto.
Qed.
Lemma mono_eq s s' : rops s' = rops s -> wops s' = wops s -> mono s s'.
Proof. unfold mono, rst, wst. intros -> ->. auto. Qed.

Lemma wake_writer_mono s : mono s (wake_writer s).
Proof.
  unfold wake_writer. destruct (wq s) as [|j q]; [apply mono_refl|]. ifs; try (apply mono_eq; reflexivity).
  eapply mono_trans; [|apply mono_eq with (s := set_w j (w_set_handle false (wops s j)) s); reflexivity].
  apply mono_set_w; auto.
Qed.
Lemma wake_reader_mono s : mono s (wake_reader s).
Proof.
  unfold wake_reader. destruct (rq s) as [|j q]; [apply mono_refl|]. ifs; try (apply mono_eq; reflexivity).
  eapply mono_trans; [|apply mono_eq with (s := set_r j (r_set_handle false (rops s j)) s); reflexivity].
  apply mono_set_r; auto.
Qed.

(** A resumption emits at most the completion of its own operation. *)
Lemma read_resume_spec (s : state) i :
  rank (rst s i) <= 3 ->
  mono s (fst (read_resume s i)) /\ rst (fst (read_resume s i)) i = Finished /\
  (snd (read_resume s i) = [] \/ exists r, snd (read_resume s i) = [ERead i r]).
Proof.
  intros L. unfold read_resume.
  set (s1 := set_r i (r_finish (rops s i)) s).
  assert (M : mono s s1) by (apply mono_set_r; simpl; auto).
  assert (F : rst s1 i = Finished) by (unfold rst, s1; sm; now rewrite upd_same).
  assert (G : forall s2, mono s1 s2 -> (forall k, rst s2 k = rst s1 k) -> mono s s2 /\ rst s2 i = Finished).
  { intros s2 A B. split; [now apply mono_trans with s1|]. now rewrite B. }
  assert (W : forall x k, rst (wake_writer x) k = rst x k).
  { intros x k. unfold rst, wake_writer. destruct (wq x); auto. ifs; auto. }
  destruct (read_broken _ _); [cbn [fst snd]; eauto|]. destruct (r_cancelled _); [cbn [fst snd]; eauto|].
  destruct (buf s1) as [|b bs], (r_direct (rops s i)) as [d|]; cbn [fst snd];
   match goal with |- mono s ?x /\ _ => destruct (G x) as [G1 G2]; [|intros; rewrite ?W; reflexivity|split; [exact G1|split; [exact G2|]]] end;
   try (right; eexists; reflexivity); try (left; reflexivity).
  - apply wake_writer_mono.
  - apply mono_eq; reflexivity.
  - eapply mono_trans; [|apply wake_writer_mono]; apply mono_eq; reflexivity.
  - eapply mono_trans; [|apply wake_writer_mono]; apply mono_eq; reflexivity.
Qed.

Lemma write_resume_spec (s : state) j :
  1 <= rank (wst s j) <= 3 ->
  mono s (fst (write_resume s j)) /\ wst (fst (write_resume s j)) j = Finished /\
  (snd (write_resume s j) = [] \/ exists v r, snd (write_resume s j) = [EWrite j v r] /\ w_val (wops s j) = Some v /\ (w_closed (wops s j) = true -> r = WBroken)).
Proof.
  intros L. unfold write_resume.
  set (s1 := set_w j (w_finish (wops s j)) s).
  assert (M : mono s s1) by (apply mono_set_w; simpl; auto; lia).
  assert (F : wst s1 j = Finished) by (unfold wst, s1; sm; now rewrite upd_same).
  assert (G : forall s2, mono s1 s2 -> (forall k, wst s2 k = wst s1 k) -> mono s s2 /\ wst s2 j = Finished).
  { intros s2 A B. split; [now apply mono_trans with s1|]. now rewrite B. }
  assert (W : forall x k, wst (wake_reader x) k = wst x k).
  { intros x k. unfold wst, wake_reader. destruct (rq x); auto. ifs; auto. }
  destruct (w_val (wops s j)) as [v|]; [|cbn [fst snd]; auto].
  destruct (w_closed (wops s j)); [cbn [fst snd]; split; auto; split; auto; right; exists v, WBroken; auto|].
  destruct (w_cancelled (wops s j)); [cbn [fst snd]; split; auto; split; auto; right; exists v, WAborted; repeat split; auto; discriminate|].
  destruct (w_direct (wops s j)); cbn [fst snd]; [|destruct (full s1); cbn [fst snd]];
   match goal with |- mono s ?x /\ _ => destruct (G x) as [G1 G2]; [|intros; rewrite ?W; reflexivity|split; [exact G1|split; [exact G2|]]] end;
   try (right; exists v, WOk; repeat split; auto; discriminate); try (left; reflexivity).
  - apply wake_reader_mono.
  - apply mono_eq; reflexivity.
  - eapply mono_trans; [|apply wake_reader_mono]; apply mono_eq; reflexivity.
Qed.

(** Events of one step: at most one, and for an operation that was not finished
    before and is finished afterwards. *)
Definition ev_ok (s : state) (evs : list event) (s' : state) : Prop :=
  match evs with
  | [] => True
  | [ERead i r] => rank (rst s i) <= 2 /\ rst s' i = Finished
  | [EWrite j v r] => rank (wst s j) <= 2 /\ wst s' j = Finished /\ w_val (wops s' j) = Some v /\ (w_closed (wops s j) = true -> r = WBroken)
  | _ => False
  end.

Lemma read_resume_ev s s1 i : mono s s1 -> rank (rst s i) <= 2 -> rank (rst s1 i) <= 3 ->
  mono s (fst (read_resume s1 i)) /\ ev_ok s (snd (read_resume s1 i)) (fst (read_resume s1 i)).
Proof.
  intros M L L1. destruct (read_resume_spec s1 i L1) as (A & B & C). split; [now apply mono_trans with s1|].
  destruct C as [-> | [r ->]]; simpl; auto.
Qed.

Lemma write_resume_ev s s1 i : mono s s1 -> rank (wst s i) <= 2 -> 1 <= rank (wst s1 i) <= 3 ->
  mono s (fst (write_resume s1 i)) /\ ev_ok s (snd (write_resume s1 i)) (fst (write_resume s1 i)).
Proof.
  intros M L L1. destruct (write_resume_spec s1 i L1) as (A & B & C). split; [now apply mono_trans with s1|].
  destruct C as [-> | (v & r & -> & D & E)]; simpl; auto.
  repeat split; auto.
  - destruct A as (_ & _ & A & _). rewrite A; auto. intros Z. rewrite Z in L1. simpl in L1. lia.
  - intros H. apply E. destruct M as (_ & _ & _ & M). now apply M.
Qed.

Lemma fold_close_read_mono q : forall s : state, mono s (fold_left close_read q s).
Proof.
  induction q as [|i q IH]; intros s; simpl; [apply mono_refl|]. eapply mono_trans; [|apply IH].
  unfold close_read. destruct (r_handle _).
  - eapply mono_trans; [|apply mono_eq; reflexivity]. apply mono_set_r. auto.
  - apply mono_set_r. auto.
Qed.
Lemma fold_close_write_mono q : forall s : state, mono s (fold_left close_write q s).
Proof.
  induction q as [|i q IH]; intros s; simpl; [apply mono_refl|]. eapply mono_trans; [|apply IH].
  unfold close_write. destruct (w_handle _).
  - eapply mono_trans; [|apply mono_eq; reflexivity]. apply mono_set_w; auto.
  - apply mono_set_w; auto.
Qed.

Lemma step_ev s l : Inv s -> mono s (fst (step s l)) /\ ev_ok s (snd (step s l)) (fst (step s l)).
Proof.
  intros I. unfold step. destruct (bad s) eqn:B; [split; [apply mono_refl|exact Logic.I]|].
  assert (Z : mono s s /\ ev_ok s [] s) by (split; [apply mono_refl|exact Logic.I]).
  destruct l; simpl.
  - destruct (r_stage (rops s i)) eqn:S; auto. split; [|exact Logic.I]. apply mono_set_r. unfold rst. rewrite S. simpl; lia.
  - destruct (r_stage (rops s i)) eqn:S; auto. unfold read_await.
    destruct (_ || _); [apply read_resume_ev; auto; [apply mono_refl| |]; unfold rst; rewrite S; simpl; lia|].
    destruct (wq s) as [|j q] eqn:Ew.
    + split; [|exact Logic.I]. cbn [fst].
      eapply mono_trans; [|apply mono_eq; reflexivity]. apply mono_set_r. unfold rst. rewrite S. simpl; lia.
    + destruct (w_handle (wops s j)) eqn:Eh.
      * destruct (handle_not_job_w s j I Eh) as (_ & _ & Aw).
        apply write_resume_ev.
        -- eapply mono_trans; [apply (mono_set_r s i (mkR Awaited false (w_val (wops s j)) false false)); unfold rst; rewrite S; simpl; lia|].
           eapply mono_trans; [|apply mono_eq; reflexivity]. apply mono_set_w; auto.
        -- unfold wst. rewrite Aw. simpl; lia.
        -- unfold wst. sm. rewrite upd_same. simpl. rewrite Aw. simpl; lia.
      * split; [|exact Logic.I].
        eapply mono_trans; [apply (mono_set_r s i (mkR Awaited false (w_val (wops s j)) false false)); unfold rst; rewrite S; simpl; lia|].
        eapply mono_trans; [|apply mono_eq; reflexivity]. apply mono_set_w; auto.
  - destruct (w_stage (wops s i)) eqn:S; auto. split; [|exact Logic.I].
    apply mono_set_w; unfold wst; rewrite ?S; simpl; auto; try congruence. intros H. now apply (inv_wclosed _ I) in H.
  - destruct (w_stage (wops s i)) eqn:S; auto. unfold write_await.
    destruct (_ || _); [apply write_resume_ev; auto; [apply mono_refl| |]; unfold wst; rewrite S; simpl; lia|].
    destruct (rq s) as [|j q] eqn:Ew.
    + split; [|exact Logic.I]. cbn [fst].
      eapply mono_trans; [|apply mono_eq; reflexivity]. apply mono_set_w; auto. unfold wst. rewrite S. simpl; lia.
    + destruct (r_handle (rops s j)) eqn:Eh.
      * destruct (handle_not_job_r s j I Eh) as (_ & _ & Aw).
        apply read_resume_ev.
        -- eapply mono_trans; [apply (mono_set_w s i (mkW Awaited false true (w_closed (wops s i)) false false (w_val (wops s i)))); auto; unfold wst; rewrite S; simpl; lia|].
           eapply mono_trans; [|apply mono_eq; reflexivity]. apply mono_set_r; auto.
        -- unfold rst. rewrite Aw. simpl; lia.
        -- unfold rst. sm. rewrite upd_same. simpl. rewrite Aw. simpl; lia.
      * split; [|exact Logic.I].
        eapply mono_trans; [apply (mono_set_w s i (mkW Awaited false true (w_closed (wops s i)) false false (w_val (wops s i)))); auto; unfold wst; rewrite S; simpl; lia|].
        eapply mono_trans; [|apply mono_eq; reflexivity]. apply mono_set_r; auto.
  - split; [|exact Logic.I]. unfold read_cancel. destruct (r_slot _); [|apply mono_refl]. destruct (r_handle _);
    (eapply mono_trans; [|apply mono_eq; reflexivity]); apply mono_set_r; auto.
  - split; [|exact Logic.I]. unfold write_cancel. destruct (w_slot _); [|apply mono_refl]. destruct (w_handle _);
    (eapply mono_trans; [|apply mono_eq; reflexivity]); apply mono_set_w; auto.
  - assert (X : rank (rst s i) <= 2 -> mono s (fst (read_interrupt s i)) /\ ev_ok s (snd (read_interrupt s i)) (fst (read_interrupt s i))).
    { intros R. unfold read_interrupt. destruct (is_some _); auto. destruct (r_handle _).
      - apply read_resume_ev; auto. + apply mono_set_r; auto. + unfold rst in *. sm. rewrite upd_same. simpl. lia.
      - split; [|exact Logic.I]. apply mono_set_r; auto. }
    unfold rst in X. destruct (r_stage (rops s i)) eqn:S; auto.
  - assert (X : 1 <= rank (wst s i) <= 2 -> mono s (fst (write_interrupt s i)) /\ ev_ok s (snd (write_interrupt s i)) (fst (write_interrupt s i))).
    { intros R. unfold write_interrupt. destruct (w_direct _); auto. destruct (w_handle _).
      - apply write_resume_ev; auto. + apply mono_set_w; auto. + lia. + unfold wst in *. sm. rewrite upd_same. simpl. lia.
      - split; [|exact Logic.I]. apply mono_set_w; auto. }
    unfold wst in X. destruct (w_stage (wops s i)) eqn:S; auto; apply X; simpl; lia.
  - destruct (r_stage (rops s i)) eqn:S; auto; (split; [|exact Logic.I]);
    (eapply mono_trans; [|apply mono_eq; reflexivity]); apply mono_set_r; unfold rst; rewrite S; simpl; try lia.
  - destruct (w_stage (wops s i)) eqn:S; auto; (split; [|exact Logic.I]);
    (eapply mono_trans; [|apply mono_eq; reflexivity]); apply mono_set_w; auto; unfold wst; rewrite S; simpl; try lia.
  - split; [|exact Logic.I]. unfold close. cbn [fst].
    eapply mono_trans; [|apply mono_eq with (s := fold_left close_write (wq s) (set_rq [] (fold_left close_read (rq s) (set_closed s)))); reflexivity].
    eapply mono_trans; [|apply fold_close_write_mono].
    eapply mono_trans; [|apply mono_eq with (s := fold_left close_read (rq s) (set_closed s)); reflexivity].
    eapply mono_trans; [|apply fold_close_read_mono]. apply mono_eq; reflexivity.
  - unfold run_job. destruct (nth_error (posted s) k) as [[i|j]|] eqn:E; auto.
    + destruct (run_r_finish_inv s k i I E) as [_ A]. rewrite A. simpl is_awaited. cbv iota.
      apply read_resume_ev; [apply mono_eq; reflexivity| |]; unfold rst; sm; rewrite A; simpl; lia.
    + destruct (run_w_finish_inv s k j I E) as [_ A]. rewrite A. simpl is_awaited. cbv iota.
      apply write_resume_ev; [apply mono_eq; reflexivity| |]; unfold wst; sm; rewrite A; simpl; lia.
Qed.

Lemma completed_reads_app (a b : list event) : completed_reads (a ++ b) = completed_reads a ++ completed_reads b.
Proof. induction a as [|[i r|i v r] a IH]; simpl; auto. now rewrite IH. Qed.
Lemma completed_writes_app (a b : list event) : completed_writes (a ++ b) = completed_writes a ++ completed_writes b.
Proof. induction a as [|[i r|i v r] a IH]; simpl; auto. now rewrite IH. Qed.

Lemma in_completed_writes j (evs : list event) : In j (completed_writes evs) <-> exists v r, In (EWrite j v r) evs.
Proof.
  induction evs as [|[i r|i v r] a IH]; simpl.
  - split; [tauto|intros (v & r & [])].
  - rewrite IH. split; intros (w & q & H); exists w, q; intuition discriminate.
  - rewrite IH. split.
    + intros [->|(w & q & H)]; eauto.
    + intros (w & q & [E|H]); [left; congruence|right; eauto].
Qed.
Lemma in_completed_reads j (evs : list event) : In j (completed_reads evs) <-> exists r, In (ERead j r) evs.
Proof.
  induction evs as [|[i r|i v r] a IH]; simpl.
  - split; [tauto|intros (r & [])].
  - rewrite IH. split.
    + intros [->|(q & H)]; eauto.
    + intros (q & [E|H]); [left; congruence|right; eauto].
  - rewrite IH. split; intros (q & H); exists q; intuition discriminate.
Qed.

(** Properties of a whole run. *)
Record Hist (s : state) (evs : list event) (s' : state) : Prop := {
  h_mono : mono s s';
  h_r : forall i, In i (completed_reads evs) -> rank (rst s i) <= 2 /\ 3 <= rank (rst s' i);
  h_w : forall i, In i (completed_writes evs) -> rank (wst s i) <= 2 /\ 3 <= rank (wst s' i);
  h_rnd : NoDup (completed_reads evs);
  h_wnd : NoDup (completed_writes evs);
  h_val : forall j v r, In (EWrite j v r) evs -> w_val (wops s' j) = Some v;
  h_broken : forall j v r, In (EWrite j v r) evs -> w_closed (wops s j) = true -> r = WBroken }.

Lemma nodup_app {A} (a b : list A) : NoDup a -> NoDup b -> (forall x, In x a -> ~ In x b) -> NoDup (a ++ b).
Proof.
  induction a as [|x a IH]; simpl; auto. intros Na Nb D. inversion Na; subst. constructor.
  - rewrite in_app_iff. intros [X|X]; auto. apply (D x); auto.
  - apply IH; auto.
Qed.

Lemma Hist_trans a e1 b e2 c : Hist a e1 b -> Hist b e2 c -> Hist a (e1 ++ e2) c.
Proof.
  intros [A1 A2 A3 A4 A5 A6 A7] [B1 B2 B3 B4 B5 B6 B7].
  pose proof (mono_trans _ _ _ A1 B1) as M.
  destruct A1 as (AR & AW & AV & AC). destruct B1 as (BR & BW & BV & BC).
  constructor; auto.
  - intros i. rewrite completed_reads_app, in_app_iff. specialize (AR i). specialize (BR i).
    intros [H|H]; [apply A2 in H|apply B2 in H]; lia.
  - intros i. rewrite completed_writes_app, in_app_iff. specialize (AW i). specialize (BW i).
    intros [H|H]; [apply A3 in H|apply B3 in H]; lia.
  - rewrite completed_reads_app. apply nodup_app; auto.
    intros x H1 H2. apply A2 in H1. apply B2 in H2. lia.
  - rewrite completed_writes_app. apply nodup_app; auto.
    intros x H1 H2. apply A3 in H1. apply B3 in H2. lia.
  - intros j v r. rewrite in_app_iff. intros [H|H]; eauto.
    rewrite BV; eauto. intros E. assert (X : In j (completed_writes e1)) by (apply in_completed_writes; eauto).
    apply A3 in X. rewrite E in X. simpl in X. lia.
  - intros j v r. rewrite in_app_iff. intros [H|H]; eauto.
Qed.

Lemma Hist_refl s : Hist s [] s.
Proof. constructor; simpl; auto using NoDup_nil, mono_refl; contradiction. Qed.

Lemma step_hist s l : Inv s -> Hist s (snd (step s l)) (fst (step s l)).
Proof.
  intros I. destruct (step_ev s l I) as [M E]. destruct (snd (step s l)) as [|e [|e' t]] eqn:Z.
  - constructor; simpl; auto using NoDup_nil; contradiction.
  - destruct e as [i r|j v r]; simpl in E.
    + destruct E as [E1 E2]. constructor; simpl; auto using NoDup_nil, NoDup_cons; try contradiction.
      * intros k [->|[]]. rewrite E2. simpl. lia.
      * intros j v q [X|[]]. discriminate.
      * intros j v q [X|[]]. discriminate.
    + destruct E as (E1 & E2 & E3 & E4). constructor; simpl; auto using NoDup_nil, NoDup_cons; try contradiction.
      * intros k [->|[]]. rewrite E2. simpl. lia.
      * intros j' v' q [X|[]]. inversion X; subst. auto.
      * intros j' v' q [X|[]]. inversion X; subst. auto.
  - destruct e as [i r|j v r]; contradiction.
Qed.

Lemma run_hist ls : forall s, Inv s -> Hist s (snd (run s ls)) (fst (run s ls)).
Proof.
  induction ls as [|l ls IH]; intros s I; [apply Hist_refl|].
  rewrite run_cons. cbn [fst snd]. eapply Hist_trans; [now apply step_hist|].
  destruct (bad (fst (step s l))) eqn:B.
  - rewrite run_bad by congruence. apply Hist_refl.
  - apply IH. now apply step_inv.
Qed.

(** Hazards that never occur. *)
Definition never (h : option hazard) : Prop := h <> Some DoubleResume /\ h <> Some QueueAssert.

Lemma wake_writer_never s : Inv (V:=V) s -> never (bad s) -> never (bad (wake_writer s)).
Proof.
  intros I N. unfold wake_writer. destruct (wq s) as [|j q] eqn:E; auto.
  destruct (inv_excl _ I) as [X|X]; [|congruence]. rewrite X. simpl.
  ifs; simpl; auto. split; discriminate.
Qed.
Lemma wake_reader_never s : Inv (V:=V) s -> never (bad s) -> never (bad (wake_reader s)).
Proof.
  intros I N. unfold wake_reader. destruct (rq s) as [|j q] eqn:E; auto.
  destruct (inv_excl _ I) as [X|X]; [congruence|]. rewrite X. simpl.
  ifs; simpl; auto. split; discriminate.
Qed.
Lemma read_resume_never s i : Inv (set_r i (r_finish (rops s i)) s) -> never (bad s) -> never (bad (fst (read_resume (V:=V) s i))).
Proof.
  intros I N. unfold read_resume. destruct (read_broken _ _); auto. destruct (r_cancelled _); auto.
  pose proof (inv_len _ I) as L.
  destruct (buf (set_r i (r_finish (rops s i)) s)) as [|b bs] eqn:Eb, (r_direct (rops s i)) as [d|]; cbn [fst]; simpl in L.
  - apply wake_writer_never; auto.
  - split; discriminate.
  - apply wake_writer_never; auto. apply set_buf_inv; auto. rewrite app_length. simpl in *. lia.
  - apply wake_writer_never; auto. apply set_buf_inv; auto. simpl in *. lia.
Qed.
Lemma write_resume_never s i : Inv (set_w i (w_finish (wops s i)) s) -> never (bad s) -> never (bad (fst (write_resume (V:=V) s i))).
Proof.
  intros I N. unfold write_resume. destruct (w_val _); auto. destruct (w_closed _); auto. destruct (w_cancelled _); auto.
  pose proof (inv_len _ I) as L. destruct (w_direct _); cbn [fst]; [now apply wake_reader_never|].
  destruct (full _) eqn:Ef; cbn [fst]; [split; discriminate|].
  apply wake_reader_never; auto. apply set_buf_inv; auto.
  unfold full in Ef. apply Nat.leb_gt in Ef. rewrite app_length. simpl in *. lia.
Qed.

Lemma step_never s l : Inv s -> bad s = None -> never (bad (fst (step (V:=V) s l))).
Proof.
  intros I B. unfold step. rewrite B.
  assert (Z : never (bad s)) by (rewrite B; split; discriminate).
  destruct l; simpl.
  - destruct (r_stage _); auto.
  - destruct (r_stage (rops s i)) eqn:S; auto. unfold read_await.
    destruct (read_ready s || r_cancelled (rops s i)) eqn:Er; [apply read_resume_never; auto; now apply finish_r_made_inv|].
    apply orb_false_iff in Er. destruct Er as [Er _]. destruct (read_ready_false s Er) as [Eb Ecl].
    destruct (wq s) as [|j q] eqn:Ew; auto. destruct (w_handle (wops s j)) eqn:Eh; [|split; discriminate].
    apply write_resume_never; auto. now apply handoff_r_inv.
  - destruct (w_stage _); auto.
  - destruct (w_stage (wops s i)) eqn:S; auto. unfold write_await.
    destruct (write_ready s || w_cancelled (wops s i)) eqn:Er; [apply write_resume_never; auto; now apply finish_w_made_inv|].
    apply orb_false_iff in Er. destruct Er as [Er _]. destruct (write_ready_false s Er) as [Eb Ecl].
    destruct (rq s) as [|j q] eqn:Ew; auto. destruct (r_handle (rops s j)) eqn:Eh; [|split; discriminate].
    apply read_resume_never; auto. now apply handoff_w_inv.
  - unfold read_cancel. destruct (r_slot _); auto. destruct (r_handle _); auto.
  - unfold write_cancel. destruct (w_slot _); auto. destruct (w_handle _); auto.
  - assert (X : never (bad (fst (read_interrupt s i)))).
    { unfold read_interrupt. destruct (is_some _); auto. destruct (r_handle (rops s i)) eqn:Eh; auto.
      apply read_resume_never; auto. now apply interrupt_r_inv. }
    destruct (r_stage _); auto.
  - assert (X : never (bad (fst (write_interrupt s i)))).
    { unfold write_interrupt. destruct (w_direct (wops s i)) eqn:Ed; auto. destruct (w_handle (wops s i)) eqn:Eh; auto.
      apply write_resume_never; auto. pose proof (interrupt_w_inv s i I Eh) as X. cbv zeta in X. rewrite Ed in X. exact X. }
    destruct (w_stage _); auto.
  - destruct (r_stage _); auto.
  - destruct (w_stage _); auto.
  - unfold close. sm.
    match goal with |- never (bad (fold_left close_write ?q ?x)) => destruct (close_writes_other q x) as (_ & _ & _ & _ & _ & -> & _) end.
    match goal with |- never ?x => replace x with (bad s) end; auto.
    destruct (close_reads_other (rq s) (set_closed s)) as (_ & _ & _ & _ & _ & E & _). simpl in E. now symmetry.
  - unfold run_job. destruct (nth_error (posted s) k) as [[i|j]|] eqn:E; auto.
    + destruct (run_r_finish_inv s k i I E) as [F A]. rewrite A. simpl is_awaited. cbv iota. now apply read_resume_never.
    + destruct (run_w_finish_inv s k j I E) as [F A]. rewrite A. simpl is_awaited. cbv iota. now apply write_resume_never.
Qed.

Lemma run_never ls : forall s, Inv s -> bad s = None -> never (bad (fst (run (V:=V) s ls))).
Proof.
  induction ls as [|l ls IH]; intros s I B; [simpl; rewrite B; split; discriminate|].
  rewrite run_cons. cbn [fst]. destruct (bad (fst (step s l))) eqn:Z.
  - rewrite run_bad by congruence. cbn [fst]. now apply step_never.
  - apply IH; auto. now apply step_inv.
Qed.

(** Only c.write(v) turns an absent write into a present one. *)
Definition absk (s s' : state) : Prop := forall k, wst s k = Absent -> wst s' k = Absent.
Lemma absk_refl s : absk s s. Proof. unfold absk. auto. Qed.
Lemma absk_trans a b c : absk a b -> absk b c -> absk a c. Proof. unfold absk. auto. Qed.
Lemma absk_eq s s' : wops s' = wops s -> absk s s'. Proof. unfold absk, wst. intros ->. auto. Qed.
Lemma absk_set_w s i o : (wst s i = Absent -> w_stage o = Absent) -> absk s (set_w i o s).
Proof. intros H k. unfold wst in *. sm. unfold upd. destruct (Nat.eqb_spec k i); subst; auto. Qed.
Lemma wake_writer_absk s : absk s (wake_writer s).
Proof.
  unfold wake_writer. destruct (wq s) as [|j q]; [apply absk_refl|]. ifs; try (apply absk_eq; reflexivity).
  eapply absk_trans; [|apply absk_eq with (s := set_w j (w_set_handle false (wops s j)) s); reflexivity].
  apply absk_set_w; auto.
Qed.
Lemma wake_reader_absk s : absk s (wake_reader s).
Proof. unfold wake_reader. destruct (rq s) as [|j q]; [apply absk_refl|]. ifs; apply absk_eq; reflexivity. Qed.
Lemma read_resume_absk s i : absk s (fst (read_resume s i)).
Proof.
  unfold read_resume. destruct (read_broken _ _); [apply absk_eq; reflexivity|]. destruct (r_cancelled _); [apply absk_eq; reflexivity|].
  destruct (buf _), (r_direct _); cbn [fst]; try (apply absk_eq; reflexivity);
  (eapply absk_trans; [|apply wake_writer_absk]); apply absk_eq; reflexivity.
Qed.
Lemma write_resume_absk s i : wst s i <> Absent -> absk s (fst (write_resume s i)).
Proof.
  intros N. assert (F : absk s (set_w i (w_finish (wops s i)) s)) by (apply absk_set_w; contradiction).
  unfold write_resume. destruct (w_val _); auto. destruct (w_closed _); auto. destruct (w_cancelled _); auto.
  destruct (w_direct _); cbn [fst]; [|destruct (full _)]; cbn [fst]; auto;
  (eapply absk_trans; [|apply wake_reader_absk]); auto.
Qed.

Lemma fold_close_write_absk q : forall s : state, absk s (fold_left close_write q s).
Proof.
  induction q as [|i q IH]; intros s; simpl; [apply absk_refl|]. eapply absk_trans; [|apply IH].
  unfold close_write. destruct (w_handle _).
  - eapply absk_trans; [|apply absk_eq; reflexivity]. apply absk_set_w; auto.
  - apply absk_set_w; auto.
Qed.
Lemma fold_close_read_absk q : forall s : state, absk s (fold_left close_read q s).
Proof. intros s. apply absk_eq. now destruct (close_reads_other q s) as (_ & _ & -> & _). Qed.

Lemma step_absk s l : Inv s -> absk s (fst (step s l)) \/ exists j v, l = MkWrite j v.
Proof.
  intros I. destruct l; try (right; eauto; fail); left; unfold step; (destruct (bad s) eqn:B; [apply absk_refl|]); simpl.
  - destruct (r_stage _); apply absk_eq; reflexivity.
  - destruct (r_stage _); try (apply absk_refl). unfold read_await. destruct (_ || _); [apply read_resume_absk|].
    destruct (wq s) as [|j q] eqn:Ew; [apply absk_eq; reflexivity|].
    set (s1 := set_wq q _). assert (A : absk s s1).
    { unfold s1. eapply absk_trans; [apply (absk_eq s (set_r i (mkR Awaited false (w_val (wops s j)) false false) s)); reflexivity|].
      eapply absk_trans; [|apply absk_eq; reflexivity]. apply absk_set_w; auto. }
    destruct (w_handle (wops s j)) eqn:Eh.
    + eapply absk_trans; [|apply write_resume_absk].
      * exact A.
      * destruct (handle_not_job_w s j I Eh) as (_ & _ & Aw). unfold wst, s1. sm. rewrite upd_same. simpl. congruence.
    + exact A.
  - destruct (w_stage (wops s i)) eqn:S; try (apply absk_refl). unfold write_await.
    destruct (_ || _); [apply write_resume_absk; unfold wst; congruence|].
    destruct (rq s) as [|j q] eqn:Ew.
    + cbn [fst]. eapply absk_trans; [|apply absk_eq; reflexivity]. apply absk_set_w. unfold wst. congruence.
    + assert (A : absk s (set_w i (mkW Awaited false true (w_closed (wops s i)) false false (w_val (wops s i))) s)).
      { apply absk_set_w. unfold wst. congruence. }
      destruct (r_handle _); cbn [fst].
      * eapply absk_trans; [|apply read_resume_absk]. exact A.
      * exact A.
  - unfold read_cancel. destruct (r_slot _); [|apply absk_refl]. destruct (r_handle _); apply absk_eq; reflexivity.
  - unfold write_cancel. destruct (w_slot _); [|apply absk_refl]. destruct (w_handle _); apply (absk_set_w s); auto.
  - assert (X : absk s (fst (read_interrupt s i))).
    { unfold read_interrupt. destruct (is_some _); [apply absk_refl|]. destruct (r_handle _); [|apply absk_eq; reflexivity].
      eapply absk_trans; [|apply read_resume_absk]. apply absk_eq; reflexivity. }
    destruct (r_stage _); auto; apply absk_refl.
  - assert (X : w_stage (wops s i) <> Absent -> absk s (fst (write_interrupt s i))).
    { intros N. unfold write_interrupt. destruct (w_direct _); [apply absk_refl|]. destruct (w_handle _).
      - eapply absk_trans; [|apply write_resume_absk]; [apply absk_set_w; auto|]. unfold wst. sm. now rewrite upd_same.
      - apply absk_set_w; auto. }
    destruct (w_stage (wops s i)) eqn:S; try apply absk_refl; apply X; congruence.
  - destruct (r_stage _); apply absk_eq; reflexivity.
  - destruct (w_stage (wops s i)) eqn:S; try apply absk_refl; apply (absk_set_w s); unfold wst; congruence.
  - unfold close.
    eapply absk_trans; [|apply absk_eq with (s := fold_left close_write (wq s) (set_rq [] (fold_left close_read (rq s) (set_closed s)))); reflexivity].
    eapply absk_trans; [|apply fold_close_write_absk].
    eapply absk_trans; [|apply absk_eq with (s := fold_left close_read (rq s) (set_closed s)); reflexivity].
    eapply absk_trans; [|apply fold_close_read_absk]. apply absk_eq; reflexivity.
  - unfold run_job. destruct (nth_error (posted s) k) as [[i|j]|] eqn:E; try apply absk_refl.
    + destruct (is_awaited _); [|apply absk_eq; reflexivity]. eapply absk_trans; [|apply read_resume_absk]. apply absk_eq; reflexivity.
    + destruct (run_w_finish_inv s k j I E) as [_ A]. rewrite A. simpl is_awaited. cbv iota.
      eapply absk_trans; [|apply write_resume_absk]; [apply absk_eq; reflexivity|]. unfold wst. sm. congruence.
Qed.

Lemma step_wval s (l : label) j v : Inv s -> w_stage (wops (fst (step s l)) j) <> Absent -> w_val (wops (fst (step s l)) j) = Some v ->
  (w_stage (wops s j) <> Absent /\ w_val (wops s j) = Some v) \/ l = MkWrite j v.
Proof.
  intros I NA H. destruct (step_ev s l I) as [(M1 & M2 & M3 & M4) _].
  destruct (w_stage (wops s j)) eqn:S;
    try (left; split; [congruence|]; rewrite <- M3; auto; unfold wst; congruence).
  destruct (step_absk s l I) as [A|(k & w & ->)].
  { exfalso. apply NA. now apply A. }
  revert H NA. unfold step. destruct (bad s); [cbn [fst]; congruence|]. simpl.
  destruct (w_stage (wops s k)) eqn:Sk; cbn [fst]; try congruence.
  sm. unfold upd. destruct (Nat.eqb_spec j k); [subst|congruence]. simpl. intros E _. right. congruence.
Qed.

Lemma run_wval (ls : list label) : forall s, Inv s -> forall j v,
  w_stage (wops (fst (run s ls)) j) <> Absent -> w_val (wops (fst (run s ls)) j) = Some v ->
  (w_stage (wops s j) <> Absent /\ w_val (wops s j) = Some v) \/ In (MkWrite j v) ls.
Proof.
  induction ls as [|l ls IH]; intros s I j v; [simpl; auto|].
  rewrite run_cons. cbn [fst]. intros H1 H2.
  destruct (bad (fst (step s l))) eqn:B.
  - rewrite run_bad in * by congruence. cbn [fst] in *. destruct (step_wval s l j v I H1 H2) as [?| ->]; simpl; auto.
  - destruct (IH _ (step_inv s l I B) j v H1 H2) as [[H3 H4]|H3]; [|simpl; auto].
    destruct (step_wval s l j v I H3 H4) as [?| ->]; simpl; auto.
Qed.

Lemma created_unique (ls : list label) (v : V) j j' : NoDup (created ls) -> In (MkWrite j v) ls -> In (MkWrite j' v) ls -> j = j'.
Proof.
  assert (C : forall ls (v : V) j, In (MkWrite j v) ls -> In v (created ls)).
  { clear. induction ls as [|l ls IH]; simpl; auto. intros v j [->|H]; [simpl; auto|].
    apply IH in H. destruct l; simpl; auto. }
  induction ls as [|l ls IH]; simpl; [contradiction|].
  intros N [A|A] [B|B]; subst.
  - congruence.
  - simpl in N. inversion N; subst. exfalso. eauto.
  - simpl in N. inversion N; subst. exfalso. eauto.
  - apply IH; auto. destruct l; auto. now inversion N.
Qed.

Lemma in_created (ls : list label) (v : V) j : In (MkWrite j v) ls -> In v (created ls).
Proof.
  induction ls as [|l ls IH]; simpl; auto. intros [->|H]; [simpl; auto|].
  apply IH in H. destruct l; simpl; auto.
Qed.

Lemma in_written v (evs : list event) : In v (written evs) <-> exists j, In (EWrite j v WOk) evs.
Proof.
  induction evs as [|e evs IH]; simpl.
  - split; [contradiction|intros (j & [])].
  - destruct e as [i r|i w r]; [|destruct r]; simpl; rewrite ?IH.
    + split; intros (j & H); exists j; intuition discriminate.
    + split.
      * intros [->|(j & H)]; eauto.
      * intros (j & [E|H]); [left; congruence|right; eauto].
    + split; intros (j & H); exists j; intuition discriminate.
    + split; intros (j & H); exists j; intuition discriminate.
Qed.

(** Two completions of one write coincide. *)
Lemma completed_once j v r v' r' (evs : list event) : NoDup (completed_writes evs) ->
  In (EWrite j v r) evs -> In (EWrite j v' r') evs -> v = v' /\ r = r'.
Proof.
  induction evs as [|e evs IH]; simpl; [contradiction|].
  intros N [A|A] [B|B]; subst.
  - inversion B; auto.
  - simpl in N. inversion N; subst. exfalso. apply H1. apply in_completed_writes. eauto.
  - simpl in N. inversion N; subst. exfalso. apply H1. apply in_completed_writes. eauto.
  - apply IH; auto. destruct e; auto. now inversion N.
Qed.

Section Run.
Variables (void : bool) (lim : nat) (ls : list label) (s : state) (evs : list event).
Hypothesis R : run (init void lim) ls = (s, evs).

Lemma R1 : s = fst (run (init void lim) ls). Proof. now rewrite R. Qed.
Lemma R2 : evs = snd (run (init void lim) ls). Proof. now rewrite R. Qed.

Lemma Rinv : bad s = None -> Inv s.
Proof. intros B. rewrite R1 in *. apply run_inv; auto. apply init_inv. Qed.
Lemma Rhist : Hist (init void lim) evs s.
Proof. rewrite R1, R2. apply run_hist. apply init_inv. Qed.

Lemma Rval j v : w_stage (wops s j) <> Absent -> w_val (wops s j) = Some v -> In (MkWrite j v) ls.
Proof.
  rewrite R1. intros H1 H2. destruct (run_wval ls _ (init_inv void lim) j v H1 H2) as [[X _]|]; auto.
  simpl in X. congruence.
Qed.

Lemma Rev j v r : In (EWrite j v r) evs -> In (MkWrite j v) ls /\ 3 <= rank (wst s j).
Proof.
  intros H. pose proof (h_val _ _ _ Rhist j v r H) as E.
  assert (X : In j (completed_writes evs)) by (apply in_completed_writes; eauto).
  apply (h_w _ _ _ Rhist) in X. split; [|tauto]. apply Rval; auto. unfold wst in X. intros Z. rewrite Z in X. simpl in X. lia.
Qed.

(** Identities of the writes whose values were taken: completed ones and those
    handed over. *)
Definition okpairs (es : list event) : list (nat * V) :=
  flat_map (fun e => match e with EWrite j v WOk => [(j, v)] | _ => [] end) es.
Definition handpairs : list (nat * V) :=
  flat_map (fun j => if w_direct (wops s j) then map (pair j) (opt_list (w_val (wops s j))) else []) (wjobs (posted s)).

Lemma okpairs_snd es : map snd (okpairs es) = written es.
Proof. induction es as [|[i r|j v []] es IH]; simpl; auto. now rewrite IH. Qed.
Lemma handpairs_snd : map snd handpairs = handed s.
Proof.
  unfold handpairs, handed. induction (wjobs (posted s)) as [|j js IH]; simpl; auto.
  rewrite map_app, IH. f_equal. destruct (w_direct (wops s j)); auto. destruct (w_val (wops s j)); auto.
Qed.

Lemma nodup_flat_map_fst {B} (g : nat -> list (nat * B)) js :
  NoDup js -> (forall j x, In x (g j) -> fst x = j) -> (forall j, length (g j) <= 1) -> NoDup (map fst (flat_map g js)).
Proof.
  intros N H1 H2. induction js as [|j js IH]; simpl; [constructor|]. inversion N; subst.
  rewrite map_app. apply nodup_app; auto.
  - specialize (H2 j). destruct (g j) as [|a [|b t]]; simpl in *; try lia; repeat constructor; auto.
  - intros x A B0. apply in_map_iff in A. destruct A as (y & <- & A). apply H1 in A.
    apply in_map_iff in B0. destruct B0 as (z & E & B0). apply in_flat_map in B0. destruct B0 as (k & Hk & B0).
    apply H1 in B0. congruence.
Qed.

Lemma okpairs_fst_nodup : forall es, NoDup (completed_writes es) -> NoDup (map fst (okpairs es)).
Proof.
  induction es as [|[i r|j v r] es IH]; simpl; [constructor|auto|]. intros N. inversion N; subst.
  destruct r; simpl; auto. constructor; auto. intros X. apply H1.
  apply in_map_iff in X. destruct X as ((a & b) & E & X). simpl in E. subst a.
  unfold okpairs in X. apply in_flat_map in X. destruct X as (e & He & X). apply in_completed_writes.
  destruct e as [|k w []]; simpl in X; try contradiction. destruct X as [X|[]]. inversion X; subst. eauto.
Qed.

Lemma nodup_taken : bad s = None -> NoDup (created ls) -> NoDup (written evs ++ handed s).
Proof.
  intros B N. pose proof (Rinv B) as I.
  rewrite <- okpairs_snd, <- handpairs_snd, <- map_app.
  assert (P : NoDup (map fst (okpairs evs ++ handpairs))).
  { rewrite map_app. apply nodup_app.
    - apply okpairs_fst_nodup. apply (h_wnd _ _ _ Rhist).
    - apply nodup_flat_map_fst.
      + destruct (inv_w _ I) as (_ & X & _). exact X.
      + intros j x H. destruct (w_direct (wops s j)); [|contradiction]. apply in_map_iff in H. destruct H as (y & <- & _). reflexivity.
      + intros j. destruct (w_direct (wops s j)); simpl; auto. destruct (w_val (wops s j)); simpl; auto.
    - intros x H1 H2. apply in_map_iff in H1. destruct H1 as ((a & b) & E & H1). simpl in E. subst a.
      apply in_flat_map in H1. destruct H1 as (e & He & H1). destruct e as [|k w []]; simpl in H1; try contradiction.
      destruct H1 as [H1|[]]. inversion H1; subst. apply Rev in He. destruct He as [_ He].
      apply in_map_iff in H2. destruct H2 as ((a & c) & E & H2). simpl in E. subst a.
      apply in_flat_map in H2. destruct H2 as (k & Hk & H2).
      assert (k = x).
      { destruct (w_direct (wops s k)); [|contradiction]. apply in_map_iff in H2. destruct H2 as (y & Ey & _). congruence. }
      subst k. destruct (inv_w _ I) as (_ & _ & Hl). specialize (Hl x). unfold loc in Hl. simpl in Hl.
      unfold wst in He. destruct Hl as (_ & Hl & _). destruct (Hl Hk) as [Z _]. rewrite Z in He. simpl in He. lia. }
  assert (O : forall j v, In (j, v) (okpairs evs ++ handpairs) -> In (MkWrite j v) ls).
  { intros j v H. apply in_app_iff in H. destruct H as [H|H].
    - apply in_flat_map in H. destruct H as (e & He & H). destruct e as [|k w []]; simpl in H; try contradiction.
      destruct H as [H|[]]. inversion H; subst. now apply Rev in He.
    - apply in_flat_map in H. destruct H as (k & Hk & H). destruct (w_direct (wops s k)) eqn:D; [|contradiction].
      apply in_map_iff in H. destruct H as (y & E & H). inversion E; subst.
      destruct (w_val (wops s j)) eqn:Ev; simpl in H; [|contradiction]. destruct H as [->|[]].
      apply Rval; auto. destruct (inv_w _ I) as (_ & _ & Hl). specialize (Hl j). unfold loc in Hl. simpl in Hl.
      destruct Hl as (_ & Hl & _). destruct (Hl Hk) as [Z _]. congruence. }
  revert P O. generalize (okpairs evs ++ handpairs). intros l. induction l as [|[j v] l IH]; simpl; [constructor|].
  intros P O. inversion P; subst. constructor; auto.
  intros X. apply in_map_iff in X. destruct X as ((k & w) & E & X). simpl in E. subst w.
  assert (j = k) by (eapply created_unique; eauto). subst k. apply H1. apply in_map_iff. exists (j, v). auto.
Qed.

Lemma taken_created : bad s = None -> incl (written evs ++ handed s) (created ls).
Proof.
  intros B v H. pose proof (Rinv B) as I. apply in_app_iff in H. destruct H as [H|H].
  - apply in_written in H. destruct H as (j & H). apply Rev in H. eapply in_created. apply H.
  - apply in_flat_map in H. destruct H as (j & Hj & H). destruct (w_direct (wops s j)); [|contradiction].
    destruct (w_val (wops s j)) eqn:Ev; simpl in H; [|contradiction]. destruct H as [->|[]].
    eapply in_created. apply Rval; eauto.
    destruct (inv_w _ I) as (_ & _ & Hl). specialize (Hl j). unfold loc in Hl. simpl in Hl.
    destruct Hl as (_ & Hl & _). destruct (Hl Hj) as [Z _]. congruence.
Qed.

Lemma failed_write_not_taken j v r : bad s = None -> NoDup (created ls) -> In (EWrite j v r) evs -> r <> WOk ->
  ~ In v (written evs ++ handed s).
Proof.
  intros B N H NR X. pose proof (Rinv B) as I. destruct (Rev j v r H) as [Cj Rk].
  apply in_app_iff in X. destruct X as [X|X].
  - apply in_written in X. destruct X as (k & X). destruct (Rev k v WOk X) as [Ck _].
    assert (j = k) by (eapply created_unique; eauto). subst k.
    destruct (completed_once _ _ _ _ _ _ (h_wnd _ _ _ Rhist) H X). congruence.
  - apply in_flat_map in X. destruct X as (k & Hk & X). destruct (w_direct (wops s k)); [|contradiction].
    destruct (w_val (wops s k)) eqn:Ev; simpl in X; [|contradiction]. destruct X as [->|[]].
    destruct (inv_w _ I) as (_ & _ & Hl). specialize (Hl k). unfold loc in Hl. simpl in Hl.
    destruct Hl as (_ & Hl & _). destruct (Hl Hk) as [Z _].
    assert (Ck : In (MkWrite k v) ls) by (apply Rval; congruence).
    assert (j = k) by (eapply created_unique; eauto). subst k. unfold wst in Rk. rewrite Z in Rk. simpl in Rk. lia.
Qed.
End Run.

(** A failing completion moves no value. *)
Lemma read_fail_frame s i : snd (read_resume s i) = [ERead i RAborted] \/ snd (read_resume (V:=V) s i) = [ERead i RBroken] ->
  fst (read_resume s i) = set_r i (r_finish (rops s i)) s.
Proof.
  unfold read_resume. destruct (read_broken _ _); auto. destruct (r_cancelled _); auto.
  destruct (buf _), (r_direct _); cbn [fst snd]; intros [E|E]; congruence.
Qed.
Lemma write_fail_frame s j v : snd (write_resume s j) = [EWrite j v WAborted] \/ snd (write_resume (V:=V) s j) = [EWrite j v WBroken] ->
  fst (write_resume s j) = set_w j (w_finish (wops s j)) s.
Proof.
  unfold write_resume. destruct (w_val _); auto. destruct (w_closed _); auto. destruct (w_cancelled _); auto.
  destruct (w_direct _); [|destruct (full _)]; cbn [fst snd]; intros [E|E]; congruence.
Qed.

End Complete.
