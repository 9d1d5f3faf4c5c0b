(** Conservation of values, completion at most once, nobody forgotten. *)
From Coq Require Import List Bool Arith Lia Permutation.
From Verif Require Import Channel_Model Channel_Spec Channel_Inv Perm.
Import ListNotations.

Section Ledger.
Context {V : Type}.
Notation state := (state V).
Notation label := (label V).
Notation event := (event V).

Lemma delivered_app (a b : list event) : delivered (a ++ b) = delivered a ++ delivered b.
Proof. induction a as [|[i [v| |]|i v r] a IH]; simpl; auto. now rewrite IH. Qed.
Lemma written_app (a b : list event) : written (a ++ b) = written a ++ written b.
Proof. induction a as [|[i r|i v [| |]] a IH]; simpl; auto. now rewrite IH. Qed.

Lemma flat_map_upd_out {A B} (g : A -> list B) f i o js : ~ In i js ->
  flat_map (fun k => g (upd f i o k)) js = flat_map (fun k => g (f k)) js.
Proof.
  induction js as [|j js IH]; simpl; auto. intros N.
  rewrite upd_other by tauto. f_equal. apply IH. tauto.
Qed.

Definition gr (o : rop V) := opt_list (r_direct o).
Definition gw (o : wop V) := if w_direct o then opt_list (w_val o) else [].
Lemma held_eq (s : state) : held s = flat_map (fun i => gr (rops s i)) (rjobs (posted s)).
Proof. reflexivity. Qed.
Lemma handed_eq (s : state) : handed s = flat_map (fun i => gw (wops s i)) (wjobs (posted s)).
Proof. reflexivity. Qed.

Lemma not_awaited_not_job_r s i : Inv (V:=V) s -> r_stage (rops s i) <> Awaited -> ~ In i (rjobs (posted s)).
Proof. intros I N J. destruct (inv_r _ I) as (_ & _ & Hl). specialize (Hl i). unfold loc in Hl. simpl in Hl. tauto. Qed.
Lemma not_awaited_not_job_w s i : Inv (V:=V) s -> w_stage (wops s i) <> Awaited -> ~ In i (wjobs (posted s)).
Proof. intros I N J. destruct (inv_w _ I) as (_ & _ & Hl). specialize (Hl i). unfold loc in Hl. simpl in Hl. tauto. Qed.
Lemma handle_not_job_r s i : Inv (V:=V) s -> r_handle (rops s i) = true -> ~ In i (rjobs (posted s)) /\ r_direct (rops s i) = None /\ r_stage (rops s i) = Awaited.
Proof.
  intros I N. destruct (inv_r _ I) as (_ & _ & Hl). specialize (Hl i). unfold loc in Hl. simpl in Hl.
  destruct (r_direct (rops s i)); simpl in *; intuition congruence.
Qed.
Lemma handle_not_job_w s i : Inv (V:=V) s -> w_handle (wops s i) = true -> ~ In i (wjobs (posted s)) /\ w_direct (wops s i) = false /\ w_stage (wops s i) = Awaited.
Proof.
  intros I N. destruct (inv_w _ I) as (_ & _ & Hl). specialize (Hl i). unfold loc in Hl. simpl in Hl.
  destruct (w_direct (wops s i)); simpl in *; intuition congruence.
Qed.

Lemma handle_not_cancelled_w s j : Inv (V:=V) s -> w_handle (wops s j) = true -> w_cancelled (wops s j) = false.
Proof. intros I N. destruct (inv_w _ I) as (_ & _ & Hl). specialize (Hl j). unfold loc in Hl. simpl in Hl. tauto. Qed.
Lemma handle_not_cancelled_r s j : Inv (V:=V) s -> r_handle (rops s j) = true -> r_cancelled (rops s j) = false.
Proof. intros I N. destruct (inv_r _ I) as (_ & _ & Hl). specialize (Hl j). unfold loc in Hl. simpl in Hl. tauto. Qed.

Ltac sm := unfold post, set_closed, set_buf, set_rq, set_wq, set_r, set_w, set_posted, set_bad in *; cbn [is_void limit closed buf rq wq rops wops posted bad] in *.

Lemma wake_writer_ledger s : Inv s -> bad (wake_writer s) = None ->
  buf (wake_writer s) = buf s /\ held (wake_writer s) = held s /\ handed (wake_writer s) = handed (V:=V) s.
Proof.
  intros I. unfold wake_writer. destruct (wq s) as [|j q] eqn:E; auto.
  destruct (is_nil (rq s)) eqn:Er; simpl; [|discriminate].
  destruct (write_ready s); auto.
  destruct (w_handle (wops s j)) eqn:Eh; [|discriminate].
  intros _. destruct (handle_not_job_w s j I Eh) as (N & D & _).
  sm. split; auto. rewrite !held_eq, !handed_eq. simpl.
  rewrite rjobs_app, wjobs_app. simpl. rewrite app_nil_r. split; auto.
  rewrite flat_map_app. simpl. rewrite upd_same. unfold gw at 2. simpl. rewrite D. simpl.
  rewrite app_nil_r. now apply flat_map_upd_out.
Qed.

Lemma wake_reader_ledger s : Inv s -> bad (wake_reader s) = None ->
  buf (wake_reader s) = buf s /\ held (wake_reader s) = held s /\ handed (wake_reader s) = handed (V:=V) s.
Proof.
  intros I. unfold wake_reader. destruct (rq s) as [|j q] eqn:E; auto.
  destruct (is_nil (wq s)) eqn:Er; simpl; [|discriminate].
  destruct (read_ready s); auto.
  destruct (r_handle (rops s j)) eqn:Eh; [|discriminate].
  intros _. destruct (handle_not_job_r s j I Eh) as (N & D & _).
  sm. split; auto. rewrite !held_eq, !handed_eq. simpl.
  rewrite rjobs_app, wjobs_app. simpl. rewrite app_nil_r. split; auto.
  rewrite flat_map_app. simpl. rewrite upd_same. unfold gr at 2. simpl. rewrite D. simpl.
  rewrite app_nil_r. now apply flat_map_upd_out.
Qed.

Lemma held_set_r i o (s : state) : ~ In i (rjobs (posted s)) -> held (set_r i o s) = held s.
Proof. intros. rewrite !held_eq. sm. now apply flat_map_upd_out. Qed.
Lemma handed_set_r i o (s : state) : handed (set_r i o s) = handed s.
Proof. reflexivity. Qed.
Lemma handed_set_w i o (s : state) : ~ In i (wjobs (posted s)) -> handed (set_w i o s) = handed s.
Proof. intros. rewrite !handed_eq. sm. now apply flat_map_upd_out. Qed.
Lemma held_set_w i o (s : state) : held (set_w i o s) = held s.
Proof. reflexivity. Qed.

Definition balance (s : state) (ev : list event) (s' : state) (inr inw : list V) : Prop :=
  Permutation (delivered ev ++ buf s' ++ held s' ++ handed s ++ inw)
              (written ev ++ handed s' ++ buf s ++ held s ++ inr).

Lemma read_resume_ledger s i :
  Inv (set_r i (r_finish (rops s i)) s) ->
  bad (fst (read_resume s i)) = None ->
  (r_direct (rops s i) <> None -> r_cancelled (rops s i) = false /\ read_broken s (rops s i) = false) ->
  balance s (snd (read_resume s i)) (fst (read_resume s i)) (opt_list (r_direct (rops s i))) [].
Proof.
  intros I Hb Hd. unfold balance.
  assert (N : ~ In i (rjobs (posted s))).
  { apply (not_awaited_not_job_r _ i) in I; auto. sm. rewrite upd_same. discriminate. }
  revert Hb. unfold read_resume.
  change (read_broken (set_r i (r_finish (rops s i)) s) (rops s i)) with (read_broken s (rops s i)).
  destruct (read_broken s (rops s i)) eqn:Ebr.
  { intros _. simpl. rewrite held_set_r, handed_set_r by auto. sm.
    destruct (r_direct (rops s i)); [destruct Hd; congruence|]. simpl. perm. }
  destruct (r_cancelled (rops s i)) eqn:Ec.
  { intros _. simpl. rewrite held_set_r, handed_set_r by auto. sm.
    destruct (r_direct (rops s i)); [destruct Hd; congruence|]. simpl. perm. }
  clear Hd. pose proof (inv_len _ I) as L.
  change (buf (set_r i (r_finish (rops s i)) s)) with (buf s) in *.
  change (limit (set_r i (r_finish (rops s i)) s)) with (limit s) in *.
  destruct (buf s) as [|b bs] eqn:Eb; destruct (r_direct (rops s i)) as [d|] eqn:Ed; cbn [fst snd]; intros Hb.
  - destruct (wake_writer_ledger _ I Hb) as (-> & -> & ->).
    rewrite held_set_r, handed_set_r by auto. sm. rewrite Eb. simpl. perm.
  - discriminate.
  - assert (I2 : Inv (set_buf (bs ++ [d]) (set_r i (r_finish (rops s i)) s))).
    { apply set_buf_inv; auto. sm. rewrite app_length in *. simpl in *. lia. }
    destruct (wake_writer_ledger _ I2 Hb) as (-> & -> & ->).
    change (held (set_buf (bs ++ [d]) (set_r i (r_finish (rops s i)) s))) with (held (set_r i (r_finish (rops s i)) s)).
    change (handed (set_buf (bs ++ [d]) (set_r i (r_finish (rops s i)) s))) with (handed s).
    rewrite held_set_r by auto. sm. simpl. perm.
  - assert (I2 : Inv (set_buf bs (set_r i (r_finish (rops s i)) s))).
    { apply set_buf_inv; auto. sm. simpl in *. lia. }
    destruct (wake_writer_ledger _ I2 Hb) as (-> & -> & ->).
    change (held (set_buf bs (set_r i (r_finish (rops s i)) s))) with (held (set_r i (r_finish (rops s i)) s)).
    change (handed (set_buf bs (set_r i (r_finish (rops s i)) s))) with (handed s).
    rewrite held_set_r by auto. sm. simpl. perm.
Qed.

Lemma write_resume_ledger s j :
  Inv (set_w j (w_finish (wops s j)) s) ->
  bad (fst (write_resume s j)) = None ->
  (w_direct (wops s j) = true -> w_cancelled (wops s j) = false /\ w_closed (wops s j) = false) ->
  balance s (snd (write_resume s j)) (fst (write_resume s j)) [] (gw (wops s j)).
Proof.
  intros I Hb Hd. unfold balance.
  assert (N : ~ In j (wjobs (posted s))).
  { apply (not_awaited_not_job_w _ j) in I; auto. sm. rewrite upd_same. discriminate. }
  revert Hb. unfold write_resume, gw.
  destruct (w_val (wops s j)) as [v|] eqn:Ev.
  2:{ intros _. simpl. rewrite handed_set_w, held_set_w by auto. sm. destruct (w_direct (wops s j)); perm. }
  destruct (w_closed (wops s j)) eqn:Ecl.
  { intros _. simpl. rewrite handed_set_w, held_set_w by auto. sm.
    destruct (w_direct (wops s j)); [destruct Hd; congruence|]. simpl. perm. }
  destruct (w_cancelled (wops s j)) eqn:Ec.
  { intros _. simpl. rewrite handed_set_w, held_set_w by auto. sm.
    destruct (w_direct (wops s j)); [destruct Hd; congruence|]. simpl. perm. }
  clear Hd. pose proof (inv_len _ I) as L.
  destruct (w_direct (wops s j)) eqn:Ed; cbn [fst snd].
  - intros Hb. destruct (wake_reader_ledger _ I Hb) as (-> & -> & ->).
    rewrite handed_set_w, held_set_w by auto. sm. simpl. perm.
  - destruct (full (set_w j (w_finish (wops s j)) s)) eqn:Ef; cbn [fst snd]; intros Hb; [discriminate|].
    assert (I2 : Inv (set_buf (buf (set_w j (w_finish (wops s j)) s) ++ [v]) (set_w j (w_finish (wops s j)) s))).
    { apply set_buf_inv; auto. unfold full in Ef. apply Nat.leb_gt in Ef. rewrite app_length. sm. simpl. lia. }
    destruct (wake_reader_ledger _ I2 Hb) as (-> & -> & ->).
    change (handed (set_buf (buf (set_w j (w_finish (wops s j)) s) ++ [v]) (set_w j (w_finish (wops s j)) s))) with (handed (set_w j (w_finish (wops s j)) s)).
    change (held (set_buf (buf (set_w j (w_finish (wops s j)) s) ++ [v]) (set_w j (w_finish (wops s j)) s))) with (held s).
    rewrite handed_set_w by auto. sm. simpl. perm.
Qed.

Lemma read_broken_false_of_direct (s : state) o : is_void s = false \/ closed s = false -> r_direct o <> None -> read_broken s o = false.
Proof.
  unfold read_broken. intros [->| ->] H; simpl; auto.
  destruct (r_direct o); [|congruence]. simpl. rewrite andb_false_r. now destruct (closed s).
Qed.

Lemma made_direct_r s i : Inv (V:=V) s -> r_stage (rops s i) = Made -> r_direct (rops s i) = None.
Proof.
  intros I M. destruct (inv_r _ I) as (_ & _ & Hl). specialize (Hl i). unfold loc in Hl. simpl in Hl.
  destruct (r_direct (rops s i)); simpl in *; intuition congruence.
Qed.
Lemma made_direct_w s i : Inv (V:=V) s -> w_stage (wops s i) = Made -> w_direct (wops s i) = false.
Proof.
  intros I M. destruct (inv_w _ I) as (_ & _ & Hl). specialize (Hl i). unfold loc in Hl. simpl in Hl.
  destruct (w_direct (wops s i)); simpl in *; intuition congruence.
Qed.

Lemma read_await_ledger s i b :
  Inv s -> r_stage (rops s i) = Made ->
  bad (fst (read_await s i b)) = None ->
  balance s (snd (read_await s i b)) (fst (read_await s i b)) [] [].
Proof.
  intros I M. pose proof (made_direct_r s i I M) as D. unfold read_await.
  destruct (read_ready s || r_cancelled (rops s i)) eqn:Er; intros Hb.
  - pose proof (read_resume_ledger s i (finish_r_made_inv s i I M) Hb) as X.
    rewrite D in X. apply X. congruence.
  - apply orb_false_iff in Er. destruct Er as [Er Ec].
    destruct (read_ready_false s Er) as [Eb Ecl].
    assert (N : ~ In i (rjobs (posted s))) by (apply not_awaited_not_job_r; auto; congruence).
    destruct (wq s) as [|j q] eqn:Ew.
    + unfold balance. simpl.
      match goal with |- context[held (set_rq ?q ?x)] => change (held (set_rq q x)) with (held x); change (handed (set_rq q x)) with (handed x) end.
      rewrite held_set_r, handed_set_r by auto. sm. perm.
    + destruct (w_handle (wops s j)) eqn:Eh; [|discriminate].
      destruct (handle_not_job_w s j I Eh) as (Nw & Dw & Aw).
      pose proof (handoff_r_inv s i j q I Ecl M Ew Eh) as IH. cbv zeta in IH.
      pose proof (write_resume_ledger _ _ IH Hb) as X.
      match type of X with context[write_resume ?s1 j] => set (s1' := s1) in * end.
      assert (E1 : wops s1' j = mkW (w_stage (wops s j)) (w_cancelled (wops s j)) true (w_closed (wops s j)) (w_slot (wops s j)) false (w_val (wops s j))).
      { unfold s1'. sm. now rewrite upd_same. }
      rewrite E1 in X. simpl in X.
      assert (E2 : buf s1' = buf s) by reflexivity.
      assert (E3 : held s1' = held s ++ opt_list (w_val (wops s j))).
      { rewrite !held_eq. unfold s1'. sm. rewrite rjobs_app. simpl. rewrite flat_map_app. simpl.
        rewrite upd_same. unfold gr at 2. simpl. rewrite app_nil_r. f_equal. now apply flat_map_upd_out. }
      assert (E4 : handed s1' = handed s).
      { rewrite !handed_eq. unfold s1'. sm. rewrite wjobs_app. simpl. rewrite app_nil_r. now apply flat_map_upd_out. }
      unfold balance in *. rewrite E2, E3, E4 in X. unfold gw in X. simpl in X.
      assert (A : true = true -> w_cancelled (wops s j) = false /\ w_closed (wops s j) = false).
      { intros _. split.
        - destruct (w_cancelled (wops s j)) eqn:Z; auto. exfalso.
          apply (handle_not_cancelled_w s j) in Eh; auto. congruence.
        - destruct (w_closed (wops s j)) eqn:Z; auto. apply (inv_wclosed _ I) in Z. congruence. }
      specialize (X A). perm_by X.
Qed.

Lemma write_await_ledger s j b :
  Inv s -> w_stage (wops s j) = Made ->
  bad (fst (write_await s j b)) = None ->
  balance s (snd (write_await s j b)) (fst (write_await s j b)) [] [].
Proof.
  intros I M. pose proof (made_direct_w s j I M) as D. unfold write_await.
  destruct (write_ready s || w_cancelled (wops s j)) eqn:Er; intros Hb.
  - pose proof (write_resume_ledger s j (finish_w_made_inv s j I M) Hb) as X.
    unfold gw in X. rewrite D in X. apply X. congruence.
  - apply orb_false_iff in Er. destruct Er as [Er Ec].
    destruct (write_ready_false s Er) as [Eb Ecl].
    assert (N : ~ In j (wjobs (posted s))) by (apply not_awaited_not_job_w; auto; congruence).
    destruct (rq s) as [|i q] eqn:Ew.
    + unfold balance. simpl.
      match goal with |- context[held (set_wq ?q ?x)] => change (held (set_wq q x)) with (held x); change (handed (set_wq q x)) with (handed x) end.
      rewrite held_set_w, handed_set_w by auto. sm. perm.
    + destruct (r_handle (rops s i)) eqn:Eh; [|discriminate].
      destruct (handle_not_job_r s i I Eh) as (Nw & Dw & Aw).
      pose proof (handle_not_cancelled_r s i I Eh) as Cn.
      pose proof (handoff_w_inv s i j q I Ecl M Ew Eh) as IH. cbv zeta in IH.
      pose proof (read_resume_ledger _ _ IH Hb) as X.
      match type of X with context[read_resume ?s1 i] => set (s1' := s1) in * end.
      assert (E1 : rops s1' i = mkR (r_stage (rops s i)) (r_cancelled (rops s i)) (w_val (wops s j)) (r_slot (rops s i)) false).
      { unfold s1'. sm. now rewrite upd_same. }
      rewrite E1 in X. simpl in X.
      assert (E2 : buf s1' = buf s) by reflexivity.
      assert (E3 : held s1' = held s).
      { rewrite !held_eq. unfold s1'. sm. rewrite rjobs_app. simpl. rewrite app_nil_r. now apply flat_map_upd_out. }
      assert (E4 : handed s1' = handed s ++ opt_list (w_val (wops s j))).
      { rewrite !handed_eq. unfold s1'. sm. rewrite wjobs_app. simpl. rewrite flat_map_app. simpl.
        rewrite upd_same. unfold gw at 2. simpl. rewrite app_nil_r. f_equal. now apply flat_map_upd_out. }
      unfold balance in *. rewrite E2, E3, E4 in X.
      assert (A : w_val (wops s j) <> None -> r_cancelled (rops s i) = false /\ read_broken s1' (mkR (r_stage (rops s i)) (r_cancelled (rops s i)) (w_val (wops s j)) (r_slot (rops s i)) false) = false).
      { intros Z. split; auto. apply read_broken_false_of_direct; auto. }
      specialize (X A). perm_by X.
Qed.

Lemma read_cancel_ledger s i : Inv (V:=V) s ->
  buf (read_cancel s i) = buf s /\ held (read_cancel s i) = held s /\ handed (read_cancel s i) = handed s.
Proof.
  intros I. unfold read_cancel. destruct (r_slot (rops s i)) eqn:Es; auto.
  destruct (loc_slot _ _ _ i (inv_r _ I) Es) as [A D]. simpl in A, D.
  destruct (r_direct (rops s i)) eqn:Ed; [discriminate|].
  destruct (r_handle (rops s i)) eqn:Eh.
  - destruct (handle_not_job_r s i I Eh) as (N & _ & _).
    sm. rewrite !held_eq, !handed_eq. simpl.
    rewrite rjobs_app, wjobs_app. simpl. rewrite app_nil_r. split; auto. split; auto.
    rewrite flat_map_app. simpl. rewrite upd_same. unfold gr at 2. simpl. rewrite app_nil_r.
    now apply flat_map_upd_out.
  - split; auto. split; auto. rewrite !held_eq. sm.
    apply flat_map_ext. intros k. unfold upd. destruct (Nat.eqb_spec k i); subst; auto. all: unfold gr; simpl; repeat match goal with H : _ = None |- _ => rewrite H | H : _ = false |- _ => rewrite H end; reflexivity.
Qed.

Lemma write_cancel_ledger s i : Inv (V:=V) s ->
  buf (write_cancel s i) = buf s /\ held (write_cancel s i) = held s /\ handed (write_cancel s i) = handed s.
Proof.
  intros I. unfold write_cancel. destruct (w_slot (wops s i)) eqn:Es; auto.
  destruct (loc_slot _ _ _ i (inv_w _ I) Es) as [A D]. simpl in A, D.
  destruct (w_handle (wops s i)) eqn:Eh.
  - destruct (handle_not_job_w s i I Eh) as (N & _ & _).
    sm. rewrite !held_eq, !handed_eq. simpl.
    rewrite rjobs_app, wjobs_app. simpl. rewrite app_nil_r. split; auto. split; auto.
    rewrite flat_map_app. simpl. rewrite upd_same. unfold gw at 2. simpl. rewrite D. simpl. rewrite app_nil_r.
    now apply flat_map_upd_out.
  - split; auto. split; auto. rewrite !handed_eq. sm.
    apply flat_map_ext. intros k. unfold upd. destruct (Nat.eqb_spec k i); subst; auto. all: unfold gw; simpl; repeat match goal with H : _ = None |- _ => rewrite H | H : _ = false |- _ => rewrite H end; reflexivity.
Qed.

Lemma balance_same s s' : buf s' = buf s -> held s' = held s -> handed s' = handed s -> balance s [] s' [] [].
Proof. intros A B C. unfold balance. rewrite A, B, C. simpl. perm. Qed.

Lemma read_interrupt_ledger s i : Inv s ->
  bad (fst (read_interrupt s i)) = None ->
  balance s (snd (read_interrupt s i)) (fst (read_interrupt s i)) [] [].
Proof.
  intros I. unfold read_interrupt. destruct (is_some (r_direct (rops s i))) eqn:Ed.
  { intros _. now apply balance_same. }
  destruct (r_direct (rops s i)) eqn:Ed'; [discriminate|].
  destruct (r_handle (rops s i)) eqn:Eh; intros Hb.
  - pose proof (interrupt_r_inv s i I Eh) as IH. cbv zeta in IH. rewrite Ed' in IH.
    pose proof (read_resume_ledger _ _ IH Hb) as X.
    destruct (handle_not_job_r s i I Eh) as (N & _ & _).
    unfold balance in *. rewrite held_set_r in X by auto. rewrite handed_set_r in X.
    assert (E : rops (set_r i (mkR (r_stage (rops s i)) true None (r_slot (rops s i)) false) s) i = mkR (r_stage (rops s i)) true None (r_slot (rops s i)) false) by (sm; now rewrite upd_same).
    rewrite E in X. simpl r_direct in X. apply X. congruence.
  - apply balance_same; auto. simpl. rewrite !held_eq. sm.
    apply flat_map_ext. intros k. unfold upd. destruct (Nat.eqb_spec k i); subst; auto. all: unfold gr; simpl; repeat match goal with H : _ = None |- _ => rewrite H | H : _ = false |- _ => rewrite H end; reflexivity.
Qed.

Lemma write_interrupt_ledger s i : Inv s ->
  bad (fst (write_interrupt s i)) = None ->
  balance s (snd (write_interrupt s i)) (fst (write_interrupt s i)) [] [].
Proof.
  intros I. unfold write_interrupt. destruct (w_direct (wops s i)) eqn:Ed.
  { intros _. now apply balance_same. }
  destruct (w_handle (wops s i)) eqn:Eh; intros Hb.
  - pose proof (interrupt_w_inv s i I Eh) as IH. cbv zeta in IH. rewrite Ed in IH.
    pose proof (write_resume_ledger _ _ IH Hb) as X.
    destruct (handle_not_job_w s i I Eh) as (N & _ & _).
    unfold balance in *. rewrite handed_set_w in X by auto. rewrite held_set_w in X.
    match type of X with context[gw (wops ?s1 i)] => assert (E : gw (wops s1 i) = []) by (sm; now rewrite upd_same) end.
    rewrite E in X. apply X. sm. rewrite upd_same. simpl. discriminate.
  - apply balance_same; auto. simpl. rewrite !handed_eq. sm.
    apply flat_map_ext. intros k. unfold upd. destruct (Nat.eqb_spec k i); subst; auto. all: unfold gw; simpl; repeat match goal with H : _ = None |- _ => rewrite H | H : _ = false |- _ => rewrite H end; reflexivity.
Qed.

(** Closing loops: no value moves. *)
Lemma close_reads_ledger q : forall s : state,
  NoDup q -> (forall i, In i q -> ~ In i (rjobs (posted s)) /\ (r_handle (rops s i) = true -> r_direct (rops s i) = None)) ->
  held (fold_left close_read q s) = held s /\ handed (fold_left close_read q s) = handed s.
Proof.
  induction q as [|i q IH]; intros s N H; simpl; auto.
  inversion N; subst. destruct (H i (or_introl eq_refl)) as [Hi Hd].
  assert (A : held (close_read s i) = held s /\ handed (close_read s i) = handed s).
  { unfold close_read. destruct (r_handle (rops s i)) eqn:Eh.
    - rewrite !held_eq, !handed_eq. sm. rewrite rjobs_app, wjobs_app. simpl. rewrite app_nil_r. split; auto.
      rewrite flat_map_app. simpl. rewrite upd_same. unfold gr at 2. simpl. rewrite Hd by auto. simpl. rewrite app_nil_r.
      now apply flat_map_upd_out.
    - rewrite held_set_r, handed_set_r by auto. auto. }
  destruct A as [A1 A2]. rewrite <- A1, <- A2. apply IH; auto.
  intros k Hk. destruct (H k (or_intror Hk)) as [Hk1 Hk2].
  assert (k <> i) by (intros ->; contradiction).
  unfold close_read. destruct (r_handle (rops s i)); sm; rewrite ?rjobs_app, ?in_app_iff; simpl; rewrite upd_other by auto; intuition.
Qed.

Lemma close_writes_ledger q : forall s : state,
  NoDup q -> (forall i, In i q -> ~ In i (wjobs (posted s)) /\ (w_handle (wops s i) = true -> w_direct (wops s i) = false)) ->
  held (fold_left close_write q s) = held s /\ handed (fold_left close_write q s) = handed s.
Proof.
  induction q as [|i q IH]; intros s N H; simpl; auto.
  inversion N; subst. destruct (H i (or_introl eq_refl)) as [Hi Hd].
  assert (A : held (close_write s i) = held s /\ handed (close_write s i) = handed s).
  { unfold close_write. destruct (w_handle (wops s i)) eqn:Eh.
    - rewrite !held_eq, !handed_eq. sm. rewrite rjobs_app, wjobs_app. simpl. rewrite app_nil_r. split; auto.
      rewrite flat_map_app. simpl. rewrite upd_same. unfold gw at 2. simpl. rewrite Hd by auto. simpl. rewrite app_nil_r.
      now apply flat_map_upd_out.
    - rewrite handed_set_w, held_set_w by auto. auto. }
  destruct A as [A1 A2]. rewrite <- A1, <- A2. apply IH; auto.
  intros k Hk. destruct (H k (or_intror Hk)) as [Hk1 Hk2].
  assert (k <> i) by (intros ->; contradiction).
  unfold close_write. destruct (w_handle (wops s i)); sm; rewrite ?wjobs_app, ?in_app_iff; simpl; rewrite upd_other by auto; intuition.
Qed.

Lemma close_buf (s : state) : buf (close s) = buf s.
Proof.
  unfold close. sm.
  match goal with |- buf (fold_left close_write ?q ?x) = _ => destruct (close_writes_other q x) as (_ & _ & _ & -> & _) end.
  change (buf (fold_left close_read (rq s) (set_closed s)) = buf s).
  destruct (close_reads_other (rq s) (set_closed s)) as (_ & _ & _ & -> & _). reflexivity.
Qed.

Lemma queue_not_job_r s i : Inv (V:=V) s -> In i (rq s) -> ~ In i (rjobs (posted s)).
Proof. intros I A J. destruct (inv_r _ I) as (_ & _ & Hl). specialize (Hl i). unfold loc in Hl. simpl in Hl. intuition congruence. Qed.
Lemma queue_not_job_w s i : Inv (V:=V) s -> In i (wq s) -> ~ In i (wjobs (posted s)).
Proof. intros I A J. destruct (inv_w _ I) as (_ & _ & Hl). specialize (Hl i). unfold loc in Hl. simpl in Hl. intuition congruence. Qed.

Lemma close_ledger s : Inv s -> held (close s) = held s /\ handed (close s) = handed (V:=V) s.
Proof.
  intros I. unfold close.
  set (s1 := fold_left close_read (rq s) (set_closed s)).
  set (s2 := fold_left close_write (wq s) (set_rq [] s1)).
  change (held s2 = held s /\ handed s2 = handed s).
  assert (A : held s1 = held s /\ handed s1 = handed s).
  { unfold s1. apply (close_reads_ledger (rq s) (set_closed s)).
    - destruct (inv_r _ I) as (N & _); auto.
    - intros i Hi. split; [exact (queue_not_job_r s i I Hi)|]. intros Hh. destruct (handle_not_job_r s i I Hh). tauto. }
  destruct A as [<- <-].
  apply (close_writes_ledger (wq s) (set_rq [] s1)).
  - destruct (inv_w _ I) as (N & _); auto.
  - intros i Hi. destruct (close_reads_other (rq s) (set_closed s)) as (E1 & _ & E2 & _ & _ & _ & E3 & _).
    fold s1 in E1, E2, E3. sm. rewrite E2, E3. split; [exact (queue_not_job_w s i I Hi)|]. intros Hh. destruct (handle_not_job_w s i I Hh). tauto.
Qed.

Lemma awaited_direct_r s i : Inv (V:=V) s -> r_stage (rops s i) = Awaited -> r_direct (rops s i) <> None -> r_cancelled (rops s i) = false.
Proof.
  intros I A D. destruct (inv_r _ I) as (_ & _ & Hl). specialize (Hl i). unfold loc in Hl. simpl in Hl.
  destruct (r_direct (rops s i)); simpl in *; intuition congruence.
Qed.
Lemma awaited_direct_w s i : Inv (V:=V) s -> w_stage (wops s i) = Awaited -> w_direct (wops s i) = true -> w_cancelled (wops s i) = false.
Proof.
  intros I A D. destruct (inv_w _ I) as (_ & _ & Hl). specialize (Hl i). unfold loc in Hl. simpl in Hl. intuition congruence.
Qed.


Lemma flat_map_mid {A B} (g : A -> list B) a x b : flat_map g (a ++ x :: b) = flat_map g a ++ g x ++ flat_map g b.
Proof. rewrite flat_map_app. reflexivity. Qed.

Lemma run_job_ledger s k : Inv s -> (is_void s = false \/ closed s = false) ->
  bad (fst (run_job s k)) = None ->
  balance s (snd (run_job s k)) (fst (run_job s k)) [] [].
Proof.
  intros I NV. unfold run_job. destruct (nth_error (posted s) k) as [[i|j]|] eqn:E.
  - destruct (run_r_finish_inv s k i I E) as [F A]. rewrite A. simpl is_awaited. cbv iota.
    intros Hb. pose proof (read_resume_ledger _ _ F Hb) as X.
    destruct (rjobs_remove _ _ _ E) as (a & b & E1 & E2 & E3).
    set (s1 := set_posted (remove_nth k (posted s)) s) in *.
    assert (Y : Permutation (held s) (held s1 ++ opt_list (r_direct (rops s i)))).
    { rewrite !held_eq. unfold s1. sm. rewrite E1, E2, flat_map_mid, flat_map_app. unfold gr at 2. perm. }
    assert (Z : handed s1 = handed s).
    { rewrite !handed_eq. unfold s1. sm. now rewrite E3. }
    unfold balance in *. change (buf s1) with (buf s) in X. change (rops s1) with (rops s) in X. rewrite Z in X.
    assert (D : r_direct (rops s i) <> None -> r_cancelled (rops s i) = false /\ read_broken s1 (rops s i) = false).
    { intros D. split; [now apply (awaited_direct_r s)|]. apply read_broken_false_of_direct; auto. }
    specialize (X D). rewrite Y. perm_by X.
  - destruct (run_w_finish_inv s k j I E) as [F A]. rewrite A. simpl is_awaited. cbv iota.
    intros Hb. pose proof (write_resume_ledger _ _ F Hb) as X.
    destruct (wjobs_remove _ _ _ E) as (a & b & E1 & E2 & E3).
    set (s1 := set_posted (remove_nth k (posted s)) s) in *.
    assert (Y : Permutation (handed s) (handed s1 ++ gw (wops s j))).
    { rewrite !handed_eq. unfold s1. sm. rewrite E1, E2, flat_map_mid, flat_map_app. perm. }
    assert (Z : held s1 = held s).
    { rewrite !held_eq. unfold s1. sm. now rewrite E3. }
    unfold balance in *. change (buf s1) with (buf s) in X. change (wops s1) with (wops s) in X. rewrite Z in X.
    assert (D : w_direct (wops s j) = true -> w_cancelled (wops s j) = false /\ w_closed (wops s j) = false).
    { intros D. split; [now apply (awaited_direct_w s)|]. now apply (inv_wdc _ I). }
    specialize (X D). rewrite Y. perm_by X.
  - intros _. now apply balance_same.
Qed.

Lemma step_ledger s l : Inv s -> (is_void s = false \/ closed s = false) ->
  bad (fst (step s l)) = None ->
  balance s (snd (step s l)) (fst (step s l)) [] [].
Proof.
  intros I NV. unfold step. destruct (bad s) eqn:B; [now intros; apply balance_same|].
  destruct l; simpl.
  - destruct (r_stage (rops s i)) eqn:S; intros _; apply balance_same; auto.
    apply held_set_r. apply not_awaited_not_job_r; auto. congruence.
  - destruct (r_stage (rops s i)) eqn:S; try (intros _; now apply balance_same). now apply read_await_ledger.
  - destruct (w_stage (wops s i)) eqn:S; intros _; apply balance_same; auto.
    apply handed_set_w. apply not_awaited_not_job_w; auto. congruence.
  - destruct (w_stage (wops s i)) eqn:S; try (intros _; now apply balance_same). now apply write_await_ledger.
  - intros _. destruct (read_cancel_ledger s i I) as (E1 & E2 & E3). now apply balance_same.
  - intros _. destruct (write_cancel_ledger s i I) as (E1 & E2 & E3). now apply balance_same.
  - destruct (r_stage (rops s i)) eqn:S; try (intros _; now apply balance_same); now apply read_interrupt_ledger.
  - destruct (w_stage (wops s i)) eqn:S; try (intros _; now apply balance_same); now apply write_interrupt_ledger.
  - destruct (r_stage (rops s i)) eqn:S; intros _; apply balance_same; auto;
      apply (held_set_r i _ s); apply not_awaited_not_job_r; auto; congruence.
  - destruct (w_stage (wops s i)) eqn:S; intros _; apply balance_same; auto;
      apply (handed_set_w i _ s); apply not_awaited_not_job_w; auto; congruence.
  - intros _. destruct (close_ledger s I). apply balance_same; auto. apply close_buf.
  - now apply run_job_ledger.
Qed.

(** Constants along a run. *)
Lemma wake_writer_const (s : state) : is_void (wake_writer s) = is_void s /\ limit (wake_writer s) = limit s /\ closed (wake_writer s) = closed s.
Proof. unfold wake_writer. destruct (wq s); auto. repeat (match goal with |- context[if ?b then _ else _] => destruct b end); auto. Qed.
Lemma wake_reader_const (s : state) : is_void (wake_reader s) = is_void s /\ limit (wake_reader s) = limit s /\ closed (wake_reader s) = closed s.
Proof. unfold wake_reader. destruct (rq s); auto. repeat (match goal with |- context[if ?b then _ else _] => destruct b end); auto. Qed.

Lemma read_resume_const (s : state) i : let s' := fst (read_resume s i) in is_void s' = is_void s /\ limit s' = limit s /\ closed s' = closed s.
Proof.
  unfold read_resume. destruct (read_broken _ _); auto. destruct (r_cancelled _); auto.
  destruct (buf _), (r_direct _); cbn [fst]; auto;
  match goal with |- context[wake_writer ?x] => destruct (wake_writer_const x) as (-> & -> & ->); auto end.
Qed.
Lemma write_resume_const (s : state) i : let s' := fst (write_resume s i) in is_void s' = is_void s /\ limit s' = limit s /\ closed s' = closed s.
Proof.
  unfold write_resume. destruct (w_val _); auto. destruct (w_closed _); auto. destruct (w_cancelled _); auto.
  destruct (w_direct _); cbn [fst]; [|destruct (full _); cbn [fst]]; auto;
  match goal with |- context[wake_reader ?x] => destruct (wake_reader_const x) as (-> & -> & ->); auto end.
Qed.

Definition is_close (l : label) : bool := match l with Close => true | _ => false end.

Lemma step_const s l : let s' := fst (step s l) in is_void s' = is_void s /\ limit s' = limit s /\
  (is_close l = false -> closed s' = closed s) /\ (closed s = true -> closed s' = true).
Proof.
  cbv zeta. unfold step. destruct (bad s); auto. destruct l; simpl; auto.
  - destruct (r_stage _); auto.
  - destruct (r_stage _); auto. unfold read_await. destruct (_ || _).
    + destruct (read_resume_const s i) as (-> & -> & ->); auto.
    + destruct (wq s); auto. destruct (w_handle _); auto.
      match goal with |- context[write_resume ?x ?n] => destruct (write_resume_const x n) as (-> & -> & ->); auto end.
  - destruct (w_stage _); auto.
  - destruct (w_stage _); auto. unfold write_await. destruct (_ || _).
    + destruct (write_resume_const s i) as (-> & -> & ->); auto.
    + destruct (rq s); auto. destruct (r_handle _); auto.
      match goal with |- context[read_resume ?x ?n] => destruct (read_resume_const x n) as (-> & -> & ->); auto end.
  - unfold read_cancel. destruct (r_slot _); auto. destruct (r_handle _); auto.
  - unfold write_cancel. destruct (w_slot _); auto. destruct (w_handle _); auto.
  - destruct (r_stage _); auto; unfold read_interrupt; destruct (is_some _); auto; destruct (r_handle _); auto;
      match goal with |- context[read_resume ?x ?n] => destruct (read_resume_const x n) as (-> & -> & ->); auto end.
  - destruct (w_stage _); auto; unfold write_interrupt; destruct (w_direct _); auto; destruct (w_handle _); auto;
      match goal with |- context[write_resume ?x ?n] => destruct (write_resume_const x n) as (-> & -> & ->); auto end.
  - destruct (r_stage _); auto.
  - destruct (w_stage _); auto.
  - unfold close. sm.
    match goal with |- context[fold_left close_write ?q ?x] => destruct (close_writes_other q x) as (_ & -> & _ & _ & -> & _ & _ & ->) end. simpl.
    destruct (close_reads_other (rq s) (set_closed s)) as (_ & E1 & _ & _ & E2 & _ & _ & E3).
    unfold set_closed in *. simpl in *. rewrite E1, E2, E3. intuition discriminate.
  - unfold run_job. destruct (nth_error _ _) as [[]|]; auto.
    + destruct (is_awaited _); auto. match goal with |- context[read_resume ?x ?n] => destruct (read_resume_const x n) as (-> & -> & ->); auto end.
    + destruct (is_awaited _); auto. match goal with |- context[write_resume ?x ?n] => destruct (write_resume_const x n) as (-> & -> & ->); auto end.
Qed.

Lemma run_const ls : forall s : state, let s' := fst (run s ls) in is_void s' = is_void s /\ limit s' = limit s /\
  (existsb is_close ls = false -> closed s' = closed s) /\ (closed s = true -> closed s' = true).
Proof.
  induction ls as [|l ls IH]; intros s; cbv zeta; auto. rewrite run_cons. cbn [fst].
  destruct (IH (fst (step s l))) as (A & B & C & D). destruct (step_const s l) as (A' & B' & C' & D').
  rewrite A, B, A', B'. split; auto. split; auto. split; auto.
  simpl. rewrite orb_false_iff. intros [X Y]. rewrite C, C'; auto.
Qed.

Lemma run_ledger ls : forall s, Inv s -> (is_void s = false \/ (closed s = false /\ existsb is_close ls = false)) ->
  bad (fst (run s ls)) = None ->
  balance s (snd (run s ls)) (fst (run s ls)) [] [].
Proof.
  induction ls as [|l ls IH]; intros s I NV Hb; [now apply balance_same|].
  rewrite run_cons in *. cbn [fst snd] in *.
  pose proof (run_good_prefix _ _ Hb) as Hb1.
  assert (NV1 : is_void s = false \/ closed s = false) by tauto.
  pose proof (step_ledger s l I NV1 Hb1) as X.
  destruct (step_const s l) as (A' & B' & C' & D').
  assert (Y : balance (fst (step s l)) (snd (run (fst (step s l)) ls)) (fst (run (fst (step s l)) ls)) [] []).
  { apply IH; auto. - now apply step_inv.
    - rewrite A'. destruct NV as [|[N1 N2]]; auto. simpl in N2. apply orb_false_iff in N2. right. rewrite C' by tauto. tauto. }
  unfold balance in *. rewrite delivered_app, written_app. rewrite !app_nil_r in *.
  apply (perm_use _ _ _ _ X). apply (perm_use _ _ _ _ Y). perm.
Qed.

Lemma conservation lim ls (s : state) evs :
  run (init false lim) ls = (s, evs) -> bad s = None ->
  Permutation (delivered evs ++ buf s ++ held s) (written evs ++ handed s) /\ length (buf s) <= lim.
Proof.
  intros R Hb. assert (E1 : s = fst (run (init false lim) ls)) by (now rewrite R).
  assert (E2 : evs = snd (run (init false lim) ls)) by (now rewrite R).
  rewrite E1 in Hb. split.
  - pose proof (run_ledger ls (init false lim) (init_inv _ _) (or_introl eq_refl) Hb) as X.
    unfold balance in X. rewrite <- E1, <- E2 in X. change (handed (init false lim)) with (@nil V) in X.
    change (held (init false lim)) with (@nil V) in X. change (buf (init (V:=V) false lim)) with (@nil V) in X.
    rewrite !app_nil_r in X. exact X.
  - pose proof (run_inv ls (init false lim) (init_inv _ _) Hb) as I.
    pose proof (inv_len _ I) as L. rewrite <- E1 in L.
    destruct (run_const ls (init (V:=V) false lim)) as (_ & B & _). rewrite <- E1 in B. rewrite B in L. exact L.
Qed.

Lemma void_conservation lim ls (s : state) evs :
  existsb is_close ls = false ->
  run (init true lim) ls = (s, evs) -> bad s = None ->
  Permutation (delivered evs ++ buf s ++ held s) (written evs ++ handed s) /\ length (buf s) <= lim.
Proof.
  intros NC R Hb. assert (E1 : s = fst (run (init true lim) ls)) by (now rewrite R).
  assert (E2 : evs = snd (run (init true lim) ls)) by (now rewrite R).
  rewrite E1 in Hb. split.
  - pose proof (run_ledger ls (init true lim) (init_inv _ _) (or_intror (conj eq_refl NC)) Hb) as X.
    unfold balance in X. rewrite <- E1, <- E2 in X. change (handed (init true lim)) with (@nil V) in X.
    change (held (init true lim)) with (@nil V) in X. change (buf (init (V:=V) true lim)) with (@nil V) in X.
    rewrite !app_nil_r in X. exact X.
  - pose proof (run_inv ls (init true lim) (init_inv _ _) Hb) as I.
    pose proof (inv_len _ I) as L. rewrite <- E1 in L.
    destruct (run_const ls (init (V:=V) true lim)) as (_ & B & _). rewrite <- E1 in B. rewrite B in L. exact L.
Qed.

End Ledger.
