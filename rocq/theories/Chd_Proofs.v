(** * Proofs about the destruction of a channel *)
From Coq Require Import List Bool Arith Lia.
From Verif Require Import Channel_Model Channel_Spec Channel_Inv Channel_Close Chd_Model Chd_Spec.
Import ListNotations.

Section Proofs.
Context {V : Type}.
Notation state := (Channel_Model.state V).
Notation dst := (dst V).

Lemma in_use_inv void lim (d : dst) : in_use void lim d -> Inv (ch d).
Proof.
  intros (ls & evs & R & B). pose proof (run_inv ls (init void lim) (init_inv void lim)) as H.
  rewrite R in H. apply H. exact B.
Qed.

Lemma front_waits (s : state) o : front s = Some o -> waits s o.
Proof.
  unfold front. destruct (rq s) eqn:E; [destruct (wq s) eqn:E2; [discriminate|]|]; intro H; injection H as <-; cbn.
  - rewrite E2. left. reflexivity.
  - rewrite E. left. reflexivity.
Qed.

Lemma front_none (s : state) : front s = None <-> forall o, ~ waits s o.
Proof.
  split.
  - unfold front. destruct (rq s) eqn:E; [destruct (wq s) eqn:E2; [|discriminate]|discriminate].
    intros _ [i|j]; cbn; rewrite ?E, ?E2; intros [].
  - intro H. destruct (front s) as [o|] eqn:E; [|reflexivity]. exfalso. apply (H o). apply front_waits; exact E.
Qed.

Lemma rounds_none n (d : dst) : front (ch d) = None -> rounds n d = (d, []).
Proof. intro H. destruct n; cbn; [reflexivity|]. rewrite H. reflexivity. Qed.

Lemma rounds_stuck n (d : dst) o : front (ch d) = Some o -> handle o (ch d) = false -> rounds n d = (d, []).
Proof.
  intros F H. induction n as [|n IH]; cbn; [reflexivity|].
  rewrite F. unfold reset. rewrite H, IH. reflexivity.
Qed.

Lemma never n (d d' : dst) evs o : front (ch d) = Some o -> ~ goes_away d o ->
  rounds n d = (d', evs) -> front (ch d') = Some o.
Proof.
  intros F N R. destruct (handle o (ch d)) eqn:H.
  - destruct n as [|n]; cbn in R; [injection R as <- <-; exact F|]. rewrite F in R. unfold reset in R. rewrite H in R.
    unfold goes_away in N. destruct (who d o) as [|g] eqn:Wo; [tauto|].
    destruct (Nat.eqb (outst d g) 1) eqn:E; [apply Nat.eqb_eq in E; tauto|].
    set (d1 := mkD (drop_handle o (ch d)) (who d) (upd (outst d) g (outst d g - 1))) in *.
    assert (F1 : front (ch d1) = Some o) by (destruct o; exact F).
    assert (H1 : handle o (ch d1) = false) by (destruct o; cbn; rewrite upd_same; reflexivity).
    rewrite (rounds_stuck n d1 o F1 H1) in R. injection R as <- <-. exact F1.
  - rewrite (rounds_stuck n d o F H) in R. injection R as <- <-. exact F.
Qed.

(** *** One round *)
Definition isdead (s : state) (o : opid) : Prop :=
  match o with R i => r_stage (rops s i) = Destroyed | W j => w_stage (wops s j) = Destroyed end.

Lemma is_group_eq (d d1 : dst) g o : who d1 = who d -> is_group d1 g o = is_group d g o.
Proof. intro E. unfold is_group. rewrite E. reflexivity. Qed.

(** What happens to an operation in a round: nothing, or it is destroyed, or
    (a helper that is not the last) it loses its coroutine. *)
Definition rop_after (o o' : rop V) : Prop := o' = o \/ o' = r_dead o \/ o' = r_set_handle false o.
Definition wop_after (o o' : wop V) : Prop := o' = o \/ o' = w_dead o \/ o' = w_set_handle false o.

Lemma upd_eq {A} (f : nat -> A) i x j : upd f i x j = if Nat.eqb j i then x else f j.
Proof. reflexivity. Qed.

Lemma reset_frame (d d1 : dst) o e : reset o d = (d1, e) ->
  posted (ch d1) = posted (ch d) /\ bad (ch d1) = bad (ch d) /\ who d1 = who d /\
  (forall o', waits (ch d) o' -> waits (ch d1) o' \/ isdead (ch d1) o') /\
  (forall o', waits (ch d1) o' -> waits (ch d) o') /\
  (forall o', isdead (ch d) o' -> isdead (ch d1) o') /\
  (forall i, w_closed (wops (ch d1) i) = w_closed (wops (ch d) i) /\ w_cancelled (wops (ch d1) i) = w_cancelled (wops (ch d) i) /\
             w_val (wops (ch d1) i) = w_val (wops (ch d) i)) /\
  (forall o', handle o' (ch d1) = true -> handle o' (ch d) = true) /\
  (forall o', isdead (ch d1) o' -> isdead (ch d) o' \/ handle o' (ch d1) = false).
Proof.
  unfold reset. destruct (handle o (ch d)) eqn:H; [|intro E; injection E as <- <-; repeat split; auto].
  destruct (who d o) as [|g] eqn:Wo.
  - intro E; injection E as <- <-. destruct o as [i|j]; cbn.
    + repeat split; auto.
      * intros [i'|j']; cbn; [|auto]. intro X. destruct (Nat.eq_dec i' i) as [->|N]; [right; rewrite upd_same; reflexivity|].
        left. apply in_unlink. auto.
      * intros [i'|j']; cbn; [|auto]. rewrite in_unlink. tauto.
      * intros [i'|j']; cbn; [|auto]. rewrite upd_eq. destruct (Nat.eqb_spec i' i); [reflexivity|auto].
      * intros [i'|j']; cbn; [|auto]. rewrite upd_eq. destruct (Nat.eqb_spec i' i); [discriminate|auto].
      * intros [i'|j']; cbn; [|auto]. rewrite !upd_eq. destruct (Nat.eqb_spec i' i); [auto|auto].
    + repeat split; auto; try (rewrite upd_eq; destruct (Nat.eqb_spec i j); subst; reflexivity).
      * intros [i'|j']; cbn; [auto|]. intro X. destruct (Nat.eq_dec j' j) as [->|N]; [right; rewrite upd_same; reflexivity|].
        left. apply in_unlink. auto.
      * intros [i'|j']; cbn; [auto|]. rewrite in_unlink. tauto.
      * intros [i'|j']; cbn; [auto|]. rewrite upd_eq. destruct (Nat.eqb_spec j' j); [reflexivity|auto].
      * intros [i'|j']; cbn; [auto|]. rewrite upd_eq. destruct (Nat.eqb_spec j' j); [discriminate|auto].
      * intros [i'|j']; cbn; [auto|]. rewrite !upd_eq. destruct (Nat.eqb_spec j' j); [auto|auto].
  - set (d0 := mkD (drop_handle o (ch d)) (who d) (upd (outst d) g (outst d g - 1))).
    assert (D0 : posted (ch d0) = posted (ch d) /\ bad (ch d0) = bad (ch d) /\
      (forall o', waits (ch d) o' <-> waits (ch d0) o') /\ (forall o', isdead (ch d) o' <-> isdead (ch d0) o') /\
      (forall i, w_closed (wops (ch d0) i) = w_closed (wops (ch d) i) /\ w_cancelled (wops (ch d0) i) = w_cancelled (wops (ch d) i) /\
             w_val (wops (ch d0) i) = w_val (wops (ch d) i)) /\
      (forall o', handle o' (ch d0) = true -> handle o' (ch d) = true)).
    { destruct o as [i|j]; cbn; repeat split; auto;
        try (rewrite upd_eq; destruct (Nat.eqb_spec i j); subst; reflexivity);
        destruct o' as [i'|j']; cbn; auto; rewrite ?upd_eq;
        try (destruct (Nat.eqb_spec i' i); subst; cbn; auto; discriminate);
        try (destruct (Nat.eqb_spec j' j); subst; cbn; auto; discriminate). }
    destruct D0 as (A1 & A2 & A3 & A4 & A5 & A6).
    destruct (Nat.eqb (outst d g) 1); intro E; injection E as <- <-.
    + cbn [kill_group ch set_ch posted bad who]. repeat split; auto.
      * intros o' X. apply A3 in X. destruct o' as [i'|j']; cbn in *.
        -- destruct (is_group d0 g (R i')) eqn:G; [right; reflexivity|left; apply filter_In; rewrite G; auto].
        -- destruct (is_group d0 g (W j')) eqn:G; [right; reflexivity|left; apply filter_In; rewrite G; auto].
      * intros o' X. apply A3. destruct o' as [i'|j']; cbn in *; apply filter_In in X; tauto.
      * intros o' X. apply A4 in X. destruct o' as [i'|j']; cbn in *;
          [destruct (is_group d0 g (R i'))|destruct (is_group d0 g (W j'))]; auto.
      * cbn [wops]. destruct (is_group d0 g (W i)); apply A5.
      * cbn [wops]. destruct (is_group d0 g (W i)); apply A5.
      * cbn [wops]. destruct (is_group d0 g (W i)); apply A5.
      * intros o' X. apply A6. destruct o' as [i'|j']; cbn in *;
          [destruct (is_group d0 g (R i'))|destruct (is_group d0 g (W j'))]; auto; discriminate.
      * intros o' X. rewrite (A4 o'). destruct o' as [i'|j']; cbn in *;
          [destruct (is_group d0 g (R i'))|destruct (is_group d0 g (W j'))]; auto.
    + repeat split; auto; try apply A5; intros o' X; [left; apply A3; auto|apply A3; auto|apply A4; auto|left; apply A4; auto].
Qed.

Lemma rounds_frame n : forall (d d1 : dst) e, rounds n d = (d1, e) ->
  posted (ch d1) = posted (ch d) /\ bad (ch d1) = bad (ch d) /\
  (forall o', waits (ch d) o' -> waits (ch d1) o' \/ isdead (ch d1) o') /\
  (forall o', isdead (ch d) o' -> isdead (ch d1) o') /\
  (forall i, w_closed (wops (ch d1) i) = w_closed (wops (ch d) i) /\ w_cancelled (wops (ch d1) i) = w_cancelled (wops (ch d) i) /\
             w_val (wops (ch d1) i) = w_val (wops (ch d) i)) /\
  (forall o', handle o' (ch d1) = true -> handle o' (ch d) = true) /\
  (forall o', isdead (ch d1) o' -> isdead (ch d) o' \/ handle o' (ch d1) = false).
Proof.
  induction n as [|n IH]; intros d d1 e E; cbn in E.
  - injection E as <- <-. repeat split; auto.
  - destruct (front (ch d)) as [o|]; [|injection E as <- <-; repeat split; auto].
    destruct (reset o d) as [d0 e0] eqn:R. destruct (rounds n d0) as [d2 e2] eqn:R2. injection E as <- <-.
    destruct (reset_frame _ _ _ _ R) as (B1 & B2 & _ & B3 & _ & B4 & B5 & B6 & B7).
    destruct (IH _ _ _ R2) as (C1 & C2 & C3 & C4 & C5 & C6 & C7).
    split; [congruence|]. split; [congruence|]. split; [|split; [auto|split; [|split; [auto|]]]].
    + intros o' X. apply B3 in X as [X|X]; auto.
    + intro i. destruct (B5 i) as (P & Q & S0). destruct (C5 i) as (P' & Q' & S'). repeat split; congruence.
    + intros o' X. apply C7 in X as [X|X]; auto. apply B7 in X as [X|X]; auto. right.
      destruct (handle o' (ch d2)) eqn:Hh; [|reflexivity]. apply C6 in Hh. congruence.
Qed.

(** *** Termination *)
Definition size (s : state) : nat := length (rq s) + length (wq s).

Lemma filter_le {A} (f : A -> bool) l : length (filter f l) <= length l.
Proof. induction l as [|x l IH]; cbn; [lia|]. destruct (f x); cbn; lia. Qed.

Lemma unlink_head i q : length (unlink i (i :: q)) <= length q.
Proof. unfold unlink. cbn. rewrite Nat.eqb_refl. cbn. apply filter_le. Qed.

Lemma reset_away (d d1 : dst) o e : front (ch d) = Some o -> (forall o', waits (ch d) o' -> goes_away d o') ->
  reset o d = (d1, e) ->
  size (ch d1) < size (ch d) /\ (forall o', waits (ch d1) o' -> goes_away d1 o') /\
  e = [match who d o with Plain => Killed o | Fork g => GroupKilled g end].
Proof.
  intros F G R. pose proof (G o (front_waits _ _ F)) as (Hh & Ho).
  destruct (reset_frame _ _ _ _ R) as (_ & _ & Ew & _ & Back & _).
  unfold reset in R. rewrite Hh in R. destruct (who d o) as [|g] eqn:Wo.
  - injection R as <- <-. split; [|split; [|reflexivity]].
    + unfold front in F. unfold size. destruct o as [i|j];
        [change (length (unlink i (rq (ch d))) + length (wq (ch d)) < length (rq (ch d)) + length (wq (ch d)))
        |change (length (rq (ch d)) + length (unlink j (wq (ch d))) < length (rq (ch d)) + length (wq (ch d)))].
      * destruct (rq (ch d)) as [|i' q]; [destruct (wq (ch d)); discriminate|]. injection F as ->.
        pose proof (unlink_head i q). cbn [length]. lia.
      * destruct (rq (ch d)) as [|i' q]; [|discriminate]. destruct (wq (ch d)) as [|j' q]; [discriminate|]. injection F as ->.
        pose proof (unlink_head j q). cbn [length]. lia.
    + intros o' Wt. destruct (G o' (Back o' Wt)) as (H' & O'). split; [|exact O'].
      destruct o as [i|j], o' as [i'|j']; cbn in *; auto; apply in_unlink in Wt as (_ & N); rewrite upd_other by exact N; exact H'.
  - rewrite Ho in R. cbn [Nat.eqb] in R. injection R as <- <-.
    set (d0 := mkD (drop_handle o (ch d)) (who d) (upd (outst d) g 0)) in *.
    assert (Go : is_group d0 g o = true) by (unfold is_group, d0; cbn [who]; rewrite Wo; apply Nat.eqb_refl).
    split; [|split; [|reflexivity]].
    + unfold front in F. unfold size, kill_group. cbn [ch set_ch rq wq].
      pose proof (filter_le (fun i => negb (is_group d0 g (R i))) (rq (ch d0))) as L1.
      pose proof (filter_le (fun i => negb (is_group d0 g (W i))) (wq (ch d0))) as L2.
      destruct o as [i|j].
      * assert (Eq : rq (ch d0) = rq (ch d) /\ wq (ch d0) = wq (ch d)) by (split; reflexivity). destruct Eq as (Eq1 & Eq2).
        rewrite Eq1, Eq2 in *. destruct (rq (ch d)) as [|i' q]; [destruct (wq (ch d)); discriminate|]. injection F as ->.
        cbn [filter]. rewrite Go. cbn. pose proof (filter_le (fun i => negb (is_group d0 g (R i))) q). lia.
      * assert (Eq : rq (ch d0) = rq (ch d) /\ wq (ch d0) = wq (ch d)) by (split; reflexivity). destruct Eq as (Eq1 & Eq2).
        rewrite Eq1, Eq2 in *. destruct (rq (ch d)) as [|i' q]; [|discriminate]. destruct (wq (ch d)) as [|j' q]; [discriminate|]. injection F as ->.
        cbn [filter]. rewrite Go. cbn. pose proof (filter_le (fun i => negb (is_group d0 g (W i))) q). lia.
    + intros o' Wt. destruct (G o' (Back o' Wt)) as (H' & O').
      assert (Ng : is_group d0 g o' = false).
      { destruct o' as [i'|j']; cbn in Wt; apply filter_In in Wt as (_ & N); apply negb_true_iff in N; exact N. }
      assert (No : o' <> o) by (intros ->; congruence).
      split.
      * destruct o' as [i'|j']; cbn; rewrite Ng; destruct o as [i|j]; cbn; try exact H';
          rewrite upd_other by (intros ->; apply No; reflexivity); exact H'.
      * cbn [kill_group set_ch who outst d0]. destruct (who d o') as [|g'] eqn:Wo'; [exact Logic.I|].
        unfold is_group, d0 in Ng. cbn [who] in Ng. rewrite Wo' in Ng. apply Nat.eqb_neq in Ng.
        rewrite upd_other by exact Ng. exact O'.
Qed.

Lemma terminates : forall n (d : dst), size (ch d) <= n -> (forall o, waits (ch d) o -> goes_away d o) ->
  exists d' evs, rounds n d = (d', evs) /\ front (ch d') = None.
Proof.
  induction n as [|n IH]; intros d Le G.
  - exists d, []. split; [reflexivity|]. unfold size in Le. unfold front.
    destruct (rq (ch d)); [|cbn in Le; lia]. destruct (wq (ch d)); [reflexivity|cbn in Le; lia].
  - cbn. destruct (front (ch d)) as [o|] eqn:F; [|eauto].
    destruct (reset o d) as [d1 e1] eqn:R. destruct (reset_away _ _ _ _ F G R) as (L & G1 & _).
    destruct (IH d1) as (d2 & e2 & R2 & F2); [lia|exact G1|]. rewrite R2. eauto.
Qed.

(** Every waiting coroutine is destroyed, and said to be. *)
Definition victim (d : dst) (o : opid) : dev :=
  match who d o with Plain => Killed o | Fork g => GroupKilled g end.

Lemma rounds_who n : forall (d d1 : dst) e, rounds n d = (d1, e) -> who d1 = who d.
Proof.
  induction n as [|n IH]; intros d d1 e E; cbn in E.
  - injection E as <- <-. reflexivity.
  - destruct (front (ch d)) as [o|]; [|injection E as <- <-; reflexivity].
    destruct (reset o d) as [d0 e0] eqn:R. destruct (rounds n d0) as [d2 e2] eqn:R2. injection E as <- <-.
    rewrite (IH _ _ _ R2). apply (reset_frame _ _ _ _ R).
Qed.

Lemma victims : forall n (d d' : dst) evs, (forall o, waits (ch d) o -> goes_away d o) ->
  rounds n d = (d', evs) -> front (ch d') = None ->
  (forall o, waits (ch d) o -> In (victim d o) evs) /\
  (forall e, In e evs -> exists o, waits (ch d) o /\ e = victim d o).
Proof.
  induction n as [|n IH]; intros d d' evs G E F; cbn in E.
  - injection E as <- <-. rewrite front_none in F. split; [intros o H; destruct (F o H)|intros e []].
  - destruct (front (ch d)) as [o|] eqn:Fo.
    + destruct (reset o d) as [d1 e1] eqn:R. destruct (rounds n d1) as [d2 e2] eqn:R2. injection E as <- <-.
      destruct (reset_away _ _ _ _ Fo G R) as (_ & G1 & ->).
      destruct (reset_frame _ _ _ _ R) as (_ & _ & Ew & _ & Back & _).
      destruct (IH _ _ _ G1 R2 F) as (H1 & H2). split.
      * intros o' Wt. destruct (G o (front_waits _ _ Fo)) as (Hh & Ho).
        assert (D : waits (ch d1) o' \/ victim d o' = victim d o).
        { unfold reset in R. rewrite Hh in R. unfold victim. destruct (who d o) as [|g] eqn:Wo.
          - injection R as <-. destruct o as [i|j], o' as [i'|j']; cbn in *; auto.
            + destruct (Nat.eq_dec i' i) as [->|N]; [right; rewrite Wo; reflexivity|left; apply in_unlink; auto].
            + destruct (Nat.eq_dec j' j) as [->|N]; [right; rewrite Wo; reflexivity|left; apply in_unlink; auto].
          - rewrite Ho in R. cbn [Nat.eqb] in R. injection R as <-.
            set (d0 := mkD (drop_handle o (ch d)) (who d) (upd (outst d) g 0)).
            destruct (is_group d0 g o') eqn:Gr.
            + right. unfold is_group, d0 in Gr. cbn [who] in Gr. destruct (who d o'); [discriminate|]. apply Nat.eqb_eq in Gr as ->. reflexivity.
            + left. destruct o' as [i'|j']; cbn; apply filter_In; fold d0; rewrite Gr; split; auto; destruct o; exact Wt. }
        destruct D as [D|D]; [|left; symmetry; exact D].
        right. apply H1 in D. unfold victim in *. rewrite Ew in D. exact D.
      * intros e [<-|He]; [exists o; split; [apply front_waits; exact Fo|reflexivity]|].
        destruct (H2 e He) as (o' & Wt & ->). exists o'. split; [apply Back; exact Wt|]. unfold victim. rewrite Ew. reflexivity.
    + injection E as <- <-. rewrite front_none in F. split; [intros o H; destruct (F o H)|intros e []].
Qed.

(** *** After the destructor *)
Record DInv (s : state) : Prop := {
  dv_handle : forall o, handle o s = false;
  dv_posted : forall k jb, nth_error (posted s) k = Some jb ->
     match jb with JR _ => False | JW j => w_closed (wops s j) || w_cancelled (wops s j) = true /\ w_val (wops s j) <> None end }.

Definition same_flags (s s' : state) : Prop :=
  forall j, w_closed (wops s' j) = w_closed (wops s j) /\ w_val (wops s' j) = w_val (wops s j) /\
            (w_cancelled (wops s j) = true -> w_cancelled (wops s' j) = true).

Lemma same_flags_refl (s : state) : same_flags s s.
Proof. intro j. auto. Qed.

Lemma set_w_flags (s : state) j o : w_closed o = w_closed (wops s j) -> w_val o = w_val (wops s j) ->
  (w_cancelled (wops s j) = true -> w_cancelled o = true) -> same_flags s (set_w j o s).
Proof.
  intros A B C j'. cbn. rewrite upd_eq. destruct (Nat.eqb_spec j' j) as [->|]; auto.
Qed.

Lemma DInv_same (s s' : state) : DInv s -> (forall o, handle o s' = true -> handle o s = true) ->
  (forall jb, In jb (posted s') -> In jb (posted s)) -> same_flags s s' -> DInv s'.
Proof.
  intros [H1 H2] A B C. constructor.
  - intro o. destruct (handle o s') eqn:E; [|reflexivity]. apply A in E. rewrite H1 in E. discriminate.
  - intros k jb E. apply nth_error_In in E. apply B in E. apply In_nth_error in E as (k' & E). apply H2 in E.
    destruct jb as [i|j]; [exact E|]. destruct E as (E1 & E2). destruct (C j) as (C1 & C2 & C3).
    rewrite C1, C2. split; [|exact E2]. apply orb_true_iff in E1 as [E1|E1]; [rewrite E1; reflexivity|].
    rewrite (C3 E1). apply orb_true_r.
Qed.

Lemma set_r_handle (s : state) i o : r_handle o = false -> forall o', handle o' (set_r i o s) = true -> handle o' s = true.
Proof.
  intros H [i'|j']; cbn; [|auto]. rewrite upd_eq. destruct (Nat.eqb_spec i' i); [congruence|auto].
Qed.
Lemma set_w_handle (s : state) i o : w_handle o = false -> forall o', handle o' (set_w i o s) = true -> handle o' s = true.
Proof.
  intros H [i'|j']; cbn; [auto|]. rewrite upd_eq. destruct (Nat.eqb_spec j' i); [congruence|auto].
Qed.

Lemma remove_nth_in {A} k (l : list A) x : In x (remove_nth k l) -> In x l.
Proof.
  unfold remove_nth. intro H. rewrite <- (firstn_skipn k l). apply in_app_or in H as [H|H]; apply in_or_app; [auto|].
  right. clear -H. revert l H. induction k as [|k IH]; intros l H; destruct l as [|y l]; cbn in *; auto.
Qed.

Lemma dead_ok (s : state) l : DInv s -> hands_off l = true ->
  exists s' ev, dead_step s l = Some (s', ev) /\ DInv s' /\ (forall jb, In jb (posted s') -> In jb (posted s)) /\
    (forall o e, In e ev -> completes o e -> exists j, o = W j /\ In (JW j) (posted s)).
Proof.
  intros I Ho. pose proof (dv_handle _ I) as Hh.
  assert (Ht : forall s1 : state, (forall o, handle o s1 = true -> handle o s = true) -> posted s1 = posted s -> same_flags s s1 ->
    exists s' ev, Some (s1, @nil (event V)) = Some (s', ev) /\ DInv s' /\ (forall jb, In jb (posted s') -> In jb (posted s)) /\
      (forall o e, In e ev -> completes o e -> exists j, o = W j /\ In (JW j) (posted s))).
  { intros s1 A B C. exists s1, []. split; [reflexivity|]. split; [eapply DInv_same; eauto; rewrite B; auto|].
    split; [rewrite B; auto|intros o e []]. }
  assert (T0 : exists s' ev, Some (s, @nil (event V)) = Some (s', ev) /\ DInv s' /\ (forall jb, In jb (posted s') -> In jb (posted s)) /\
      (forall o e, In e ev -> completes o e -> exists j, o = W j /\ In (JW j) (posted s))).
  { apply Ht; auto. apply same_flags_refl. }
  destruct l; cbn in Ho; try discriminate; cbn [dead_step].
  - (* CancelR *)
    destruct (r_slot (rops s i)) eqn:Sl; [|exact T0]. pose proof (Hh (R i)) as Hi. cbn in Hi. rewrite Hi.
    unfold read_cancel. rewrite Sl, Hi. apply Ht; [|reflexivity|].
    + intros o. cbn [handle set_rq]. apply (set_r_handle s i). reflexivity.
    + intro j. cbn. auto.
  - destruct (w_slot (wops s i)) eqn:Sl; [|exact T0]. pose proof (Hh (W i)) as Hi. cbn in Hi. rewrite Hi.
    unfold write_cancel. rewrite Sl, Hi. apply Ht; [|reflexivity|].
    + intros o. apply (set_w_handle s i). reflexivity.
    + intro j. apply (set_w_flags s i); auto.
  - (* InterruptR *)
    destruct (r_stage (rops s i)); try exact T0;
      (destruct (is_some (r_direct (rops s i))) eqn:D; [exact T0|]);
      pose proof (Hh (R i)) as Hi; cbn in Hi; rewrite Hi; unfold read_interrupt; rewrite D, Hi;
      (apply Ht; [|reflexivity|intro j; cbn; auto]); intros o; apply (set_r_handle s i); reflexivity.
  - destruct (w_stage (wops s i)); try exact T0;
      (destruct (w_direct (wops s i)) eqn:D; [exact T0|]);
      pose proof (Hh (W i)) as Hi; cbn in Hi; rewrite Hi; unfold write_interrupt; rewrite D, Hi;
      (apply Ht; [|reflexivity|apply (set_w_flags s i); auto]); intros o; apply (set_w_handle s i); reflexivity.
  - (* DestroyR *)
    cbn [step_ok]. destruct (r_stage (rops s i)); try exact T0;
      (apply Ht; [|reflexivity|intro j; cbn; auto]); intros o; apply (set_r_handle s i); reflexivity.
  - cbn [step_ok]. destruct (w_stage (wops s i)); try exact T0;
      (apply Ht; [|reflexivity|apply (set_w_flags s i); auto]); intros o; apply (set_w_handle s i); reflexivity.
  - (* Run *)
    destruct (nth_error (posted s) k) as [jb|] eqn:E; [|exact T0].
    pose proof (dv_posted _ I _ _ E) as P. destruct jb as [i|j]; [destruct P|]. destruct P as (P1 & P2).
    destruct (w_val (wops s j)) as [v|] eqn:Ev; [|congruence]. rewrite P1.
    eexists; eexists. split; [reflexivity|].
    assert (Sub : forall jb, In jb (remove_nth k (posted s)) -> In jb (posted s)) by (intro jb; apply remove_nth_in).
    split; [|split; [exact Sub|]].
    + apply (DInv_same s); auto.
      * intros o. apply (set_w_handle s j). apply (Hh (W j)).
      * intro j'. apply (set_w_flags s j); auto.
    + intros o e [<-|[]] C. destruct o as [i'|j']; cbn in C; [contradiction|]. subst j'. exists j. split; [reflexivity|].
      eapply nth_error_In; eauto.
Qed.

Lemma dead_run_ok ls : forall s : state, DInv s -> forallb hands_off ls = true ->
  exists s' ev, dead_run s ls = Some (s', ev) /\ DInv s' /\
    (forall o e, In e ev -> completes o e -> exists j, o = W j /\ In (JW j) (posted s)).
Proof.
  induction ls as [|l ls IH]; intros s I H.
  - exists s, []. split; [reflexivity|]. split; [exact I|intros o e []].
  - cbn in H. apply andb_true_iff in H as (H1 & H2).
    destruct (dead_ok s l I H1) as (s1 & e1 & E1 & I1 & P1 & C1).
    destruct (IH s1 I1 H2) as (s2 & e2 & E2 & I2 & C2).
    exists s2, (e1 ++ e2). cbn. rewrite E1, E2. split; [reflexivity|]. split; [exact I2|].
    intros o e He C. apply in_app_or in He as [He|He]; [eauto|].
    destruct (C2 o e He C) as (j & -> & Hj). exists j. auto.
Qed.

(** Completions after the destructor, whether or not it is used then. *)
Lemma dead_only (s s' : state) l ev : dead_step s l = Some (s', ev) -> (forall o, handle o s = false) ->
  (forall jb, In jb (posted s') -> In jb (posted s)) /\ (forall o, handle o s' = false) /\
  (forall o e, In e ev -> completes o e -> exists j, o = W j /\ In (JW j) (posted s)).
Proof.
  intros E Hh.
  assert (T : forall s1 : state, (forall o, handle o s1 = true -> handle o s = true) -> posted s1 = posted s ->
     (forall jb, In jb (posted s1) -> In jb (posted s)) /\ (forall o, handle o s1 = false) /\
     (forall o e, In e (@nil (event V)) -> completes o e -> exists j, o = W j /\ In (JW j) (posted s))).
  { intros s1 A B. rewrite B. split; [auto|]. split; [|intros o e []].
    intro o. destruct (handle o s1) eqn:X; [|reflexivity]. apply A in X. rewrite Hh in X. discriminate. }
  destruct l; cbn [dead_step] in E; try discriminate.
  - destruct (r_stage (rops s i)); try discriminate; injection E as <- <-; apply T; auto.
  - destruct (w_stage (wops s i)); try discriminate; injection E as <- <-; apply T; auto.
  - destruct (r_slot (rops s i)) eqn:Sl; [|injection E as <- <-; apply T; auto]. pose proof (Hh (R i)) as Hi. cbn in Hi.
    rewrite Hi in E. injection E as <- <-. unfold read_cancel. rewrite Sl, Hi. apply T; [|reflexivity].
    intros o. apply (set_r_handle s i). reflexivity.
  - destruct (w_slot (wops s i)) eqn:Sl; [|injection E as <- <-; apply T; auto]. pose proof (Hh (W i)) as Hi. cbn in Hi.
    rewrite Hi in E. injection E as <- <-. unfold write_cancel. rewrite Sl, Hi. apply T; [|reflexivity].
    intros o. apply (set_w_handle s i). reflexivity.
  - pose proof (Hh (R i)) as Hi; cbn in Hi; rewrite Hi in E; unfold read_interrupt in E; rewrite Hi in E.
    destruct (r_stage (rops s i)); try (injection E as <- <-; apply T; auto; fail);
      (destruct (is_some (r_direct (rops s i))) eqn:D; injection E as <- <-; [apply T; auto|]);
      (apply T; [|reflexivity]); intros o; apply (set_r_handle s i); reflexivity.
  - pose proof (Hh (W i)) as Hi; cbn in Hi; rewrite Hi in E; unfold write_interrupt in E; rewrite Hi in E.
    destruct (w_stage (wops s i)); try (injection E as <- <-; apply T; auto; fail);
      (destruct (w_direct (wops s i)) eqn:D; injection E as <- <-; [apply T; auto|]);
      (apply T; [|reflexivity]); intros o; apply (set_w_handle s i); reflexivity.
  - cbn [step_ok] in E. destruct (r_stage (rops s i)); injection E as <- <-; try (apply T; auto; fail);
      (apply T; [|reflexivity]); intros o; apply (set_r_handle s i); reflexivity.
  - cbn [step_ok] in E. destruct (w_stage (wops s i)); injection E as <- <-; try (apply T; auto; fail);
      (apply T; [|reflexivity]); intros o; apply (set_w_handle s i); reflexivity.
  - destruct (nth_error (posted s) k) as [[i|j]|] eqn:En; [discriminate| |injection E as <- <-; apply T; auto].
    destruct (w_val (wops s j)) as [v|]; [|discriminate]. destruct (w_closed (wops s j) || w_cancelled (wops s j)); [|discriminate].
    injection E as <- <-. split; [intro jb; apply remove_nth_in|]. split.
    + intro o. destruct (handle o (set_w j (w_finish (wops s j)) (set_posted (remove_nth k (posted s)) s))) eqn:X; [|reflexivity].
      apply (set_w_handle s j) in X; [rewrite Hh in X; discriminate|apply (Hh (W j))].
    + intros o e [<-|[]] C. destruct o as [i'|j']; cbn in C; [contradiction|]. subst j'. exists j. split; [reflexivity|].
      eapply nth_error_In; eauto.
Qed.

Lemma dead_run_only ls : forall (s : state) s' ev, dead_run s ls = Some (s', ev) -> (forall o, handle o s = false) ->
  forall o e, In e ev -> completes o e -> exists j, o = W j /\ In (JW j) (posted s).
Proof.
  induction ls as [|l ls IH]; intros s s' ev E Hh o e He C; cbn in E.
  - injection E as <- <-. destruct He.
  - destruct (dead_step s l) as [[s1 e1]|] eqn:E1; [|discriminate].
    destruct (dead_run s1 ls) as [[s2 e2]|] eqn:E2; [|discriminate]. injection E as <- <-.
    destruct (dead_only _ _ _ _ E1 Hh) as (P & H1 & C1).
    apply in_app_or in He as [He|He]; [eauto|].
    destruct (IH _ _ _ E2 H1 o e He C) as (j & -> & Hj). exists j. auto.
Qed.

(** *** From the invariant of the channel *)
Lemma in_rjobs i (p : list job) : In (JR i) p <-> In i (rjobs p).
Proof.
  unfold rjobs. rewrite in_flat_map. split; [intro H; exists (JR i); split; [exact H|left; reflexivity]|].
  intros ([i'|j'] & H & X); cbn in X; [destruct X as [->|[]]; exact H|destruct X].
Qed.
Lemma in_wjobs i (p : list job) : In (JW i) p <-> In i (wjobs p).
Proof.
  unfold wjobs. rewrite in_flat_map. split; [intro H; exists (JW i); split; [exact H|left; reflexivity]|].
  intros ([i'|j'] & H & X); cbn in X; [destruct X|destruct X as [->|[]]; exact H].
Qed.

Lemma handle_waits (s : state) o : Inv s -> handle o s = true -> waits s o.
Proof.
  intros I H. destruct o as [i|j]; cbn in *.
  - destruct (inv_r _ I) as (_ & _ & L). specialize (L i). destruct L as (_ & _ & L3 & L4 & _). cbn in *.
    destruct (L4 H) as (St & _). destruct (L3 St) as [(_ & X)|(X & _)]; [exact X|congruence].
  - destruct (inv_w _ I) as (_ & _ & L). specialize (L j). destruct L as (_ & _ & L3 & L4 & _). cbn in *.
    destruct (L4 H) as (St & _). destruct (L3 St) as [(_ & X)|(X & _)]; [exact X|congruence].
Qed.

Lemma waits_not_posted (s : state) o : Inv s -> waits s o ->
  match o with R i => ~ In (JR i) (posted s) | W j => ~ In (JW j) (posted s) end.
Proof.
  intros I H. destruct o as [i|j]; cbn in *.
  - rewrite in_rjobs. intro J. destruct (inv_r _ I) as (_ & _ & L). specialize (L i). destruct L as (L1 & L2 & _). cbn in *.
    destruct (L1 H) as ([(A & B)|(A & B)] & _); destruct (L2 J); congruence.
  - rewrite in_wjobs. intro J. destruct (inv_w _ I) as (_ & _ & L). specialize (L j). destruct L as (L1 & L2 & _). cbn in *.
    destruct (L1 H) as ([(A & B)|(A & B)] & _); destruct (L2 J); congruence.
Qed.

Lemma waits_not_dead (s : state) o : Inv s -> waits s o -> ~ isdead s o.
Proof.
  intros I H. destruct o as [i|j]; cbn in *.
  - destruct (inv_r _ I) as (_ & _ & L). specialize (L i). destruct L as (L1 & _). cbn in *.
    destruct (L1 H) as ([(A & B)|(A & B)] & _); congruence.
  - destruct (inv_w _ I) as (_ & _ & L). specialize (L j). destruct L as (L1 & _). cbn in *.
    destruct (L1 H) as ([(A & B)|(A & B)] & _); congruence.
Qed.

Lemma returns_nohandle (d d' : dst) evs : Inv (ch d) -> returns d d' evs -> forall o, handle o (ch d') = false.
Proof.
  intros I (n & E & N) o. destruct (rounds_frame _ _ _ _ E) as (_ & _ & F1 & _ & _ & F2 & F3).
  destruct (handle o (ch d')) eqn:H; [|reflexivity]. pose proof (F2 o H) as H0.
  pose proof (handle_waits _ _ I H0) as Wt. destruct (F1 o Wt) as [X|X]; [destruct (N o X)|].
  destruct (F3 o X) as [Y|Y]; [destruct (waits_not_dead _ _ I Wt Y)|congruence].
Qed.
End Proofs.

Section Facts.
Context {V : Type}.
Notation state := (Channel_Model.state V).
Notation dst := (dst V).

Lemma returns_DInv void lim (d d' : dst) evs : in_use void lim d -> returns d d' evs ->
  (forall jb, In jb (posted (ch d)) -> exists j, jb = JW j /\ (w_closed (wops (ch d) j) = true \/ w_cancelled (wops (ch d) j) = true)) ->
  DInv (ch d').
Proof.
  intros U Rt P. pose proof (in_use_inv _ _ _ U) as I. constructor; [eapply returns_nohandle; eauto|].
  destruct Rt as (n & E & _). destruct (rounds_frame _ _ _ _ E) as (Fp & _ & _ & _ & Fw & _).
  intros k jb Hk. apply nth_error_In in Hk. rewrite Fp in Hk. destruct (P _ Hk) as (j & -> & C).
  destruct (Fw j) as (A1 & A2 & A3). rewrite A1, A2, A3. split; [apply orb_true_iff; exact C|].
  apply (inv_wval _ I). apply in_wjobs in Hk. destruct (inv_w _ I) as (_ & _ & L). specialize (L j).
  destruct L as (_ & L2 & _). destruct (L2 Hk) as (St & _). cbn in St. congruence.
Qed.

Lemma never_told void lim (d d' : dst) evs o : in_use void lim d -> waits (ch d) o -> returns d d' evs ->
  forall ls s' ev e, dead_run (ch d') ls = Some (s', ev) -> In e ev -> ~ completes o e.
Proof.
  intros U Wt Rt ls s' ev e E He C. pose proof (in_use_inv _ _ _ U) as I.
  destruct (dead_run_only ls _ _ _ E (returns_nohandle _ _ _ I Rt) o e He C) as (j & -> & Hj).
  destruct Rt as (n & En & _). destruct (rounds_frame _ _ _ _ En) as (Fp & _). rewrite Fp in Hj.
  apply (waits_not_posted _ _ I Wt). exact Hj.
Qed.

Lemma run_posted_read (s : state) i : In (JR i) (posted s) -> exists k, dead_run s [Run k] = None.
Proof. intro H. apply In_nth_error in H as (k & E). exists k. cbn. rewrite E. reflexivity. Qed.

Lemma run_posted_write (s : state) j : In (JW j) (posted s) -> w_closed (wops s j) = false -> w_cancelled (wops s j) = false ->
  exists k, dead_run s [Run k] = None.
Proof.
  intros H A B. apply In_nth_error in H as (k & E). exists k. cbn. rewrite E, A, B. cbn. destruct (w_val (wops s j)); reflexivity.
Qed.

Lemma closed_returns void lim (d : dst) : in_use void lim d -> closed (ch d) = true -> returns d d [].
Proof.
  intros U C. destruct (inv_closed _ (in_use_inv _ _ _ U) C) as (A & B). exists 0. split; [reflexivity|].
  intros [i|j]; cbn; rewrite ?A, ?B; intros [].
Qed.

Lemma in_use_run void lim (d : dst) ls : in_use void lim d -> bad (fst (run (ch d) ls)) = None ->
  in_use void lim (set_ch (fst (run (ch d) ls)) d).
Proof.
  intros (l0 & e0 & R & B) B'. destruct (run (ch d) ls) as [s' e'] eqn:E. exists (l0 ++ ls), (e0 ++ e'). cbn in *.
  split; [|exact B']. rewrite run_app, R, E. reflexivity.
Qed.
Lemma close_reads_keep q : forall s : state, let s' := fold_left close_read q s in closed s' = closed s /\ bad s' = bad s.
Proof.
  induction q as [|z q IH]; intros s; cbn; [auto|]. destruct (IH (close_read s z)) as (A & B). rewrite A, B.
  unfold close_read. destruct (r_handle (rops s z)); auto.
Qed.
Lemma close_writes_keep q : forall s : state, let s' := fold_left close_write q s in closed s' = closed s /\ bad s' = bad s /\ rops s' = rops s.
Proof.
  induction q as [|z q IH]; intros s; cbn; [auto|]. destruct (IH (close_write s z)) as (A & B & C). rewrite A, B, C.
  unfold close_write. destruct (w_handle (wops s z)); auto.
Qed.

Lemma close_keep (s : state) : closed (close s) = true /\ bad (close s) = bad s.
Proof.
  unfold close. cbn.
  destruct (close_writes_keep (wq s) (set_rq [] (fold_left close_read (rq s) (set_closed s)))) as (A & B & _). rewrite A, B. cbn.
  apply (close_reads_keep (rq s) (set_closed s)).
Qed.

Lemma in_use_close void lim (d : dst) : in_use void lim d -> in_use void lim (set_ch (close (ch d)) d).
Proof.
  intro U. destruct (U) as (ls & evs & _ & B).
  assert (E : fst (run (ch d) [Close]) = close (ch d)) by (rewrite run_cons; unfold step; rewrite B; reflexivity).
  rewrite <- E. apply in_use_run; [exact U|]. rewrite E. rewrite (proj2 (close_keep (ch d))). exact B.
Qed.

Lemma close_schedules void lim (d : dst) i : in_use void lim d -> In i (rq (ch d)) -> handle (R i) (ch d) = true ->
  In (JR i) (posted (close (ch d))).
Proof.
  intros U Wt Hh. pose proof (in_use_inv _ _ _ U) as I. pose proof (in_use_inv _ _ _ (in_use_close _ _ _ U)) as I1. cbn in I1.
  destruct (closed_all_scheduled _ I1 (proj1 (close_keep (ch d)))) as (_ & _ & A & _). apply A.
  destruct (inv_r _ I) as (Nd & _ & L). specialize (L i). destruct L as (_ & _ & _ & L4 & _). cbn in L4, Hh. destruct (L4 Hh) as (St & _).
  unfold close. cbn.
  destruct (close_writes_keep (wq (ch d)) (set_rq [] (fold_left close_read (rq (ch d)) (set_closed (ch d))))) as (_ & _ & C). rewrite C. cbn.
  destruct (close_read_flags (rq (ch d)) (set_closed (ch d)) i Nd) as (_ & B & _). rewrite B. exact St.
Qed.
End Facts.
