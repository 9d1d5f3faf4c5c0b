(** Whole-run consequences. *)
From Coq Require Import List Bool Arith Lia.
From Verif Require Import Promise_Model Promise_Spec Promise_Inv Promise_Step.
Import ListNotations.

Section Final.
Context {V E : Type}.
Notation event := (event V E).
Notation state := (state V E).

Lemma run_from (s : state) (a : list event) ls s' tr : INV s (view_of a) -> correct s ls -> run s ls = Some (s', tr) ->
  INV s' (view_of (a ++ tr)) /\ Pall a tr.
Proof.
  revert s a tr. induction ls as [|l ls IH]; intros s a tr I C H; cbn in H.
  - injection H as <- <-. rewrite app_nil_r. cbn. auto.
  - destruct C as [C1 C2]. destruct (step l s) as [[s1 e1]|] eqn:S; [|discriminate].
    destruct (run s1 ls) as [[s2 e2]|] eqn:R; [|discriminate]. injection H as <- <-.
    destruct (step_ok _ _ _ _ _ I C1 S) as [I1 P1]. destruct (IH _ (a ++ e1) _ I1 C2 R) as [I2 P2].
    rewrite app_assoc. split; auto. apply Pall_app. auto.
Qed.
Lemma run_INV ls (s : state) (tr : list event) : correct init ls -> run init ls = Some (s, tr) -> INV s (view_of tr) /\ Pall [] tr.
Proof. intros C H. exact (run_from init [] ls s tr init_INV C H). Qed.
Lemma run_P ls (s : state) (tr : list event) a e b : correct init ls -> run init ls = Some (s, tr) -> tr = a ++ e :: b -> P a e.
Proof. intros C H ->. destruct (run_INV _ _ _ C H) as [_ Q]. apply Pall_app in Q as [_ Q]. apply Q. Qed.

Theorem no_ub ls (s : state) (tr : list event) : correct init ls -> run init ls = Some (s, tr) -> ~ undefined tr.
Proof.
  intros C H (b & Q). apply in_split in Q as (x & y & ->). exact (run_P _ _ _ x (EBad b) y C H eq_refl).
Qed.
Theorem result_right ls (s : state) (tr : list event) : correct init ls -> run init ls = Some (s, tr) -> forall a w h r b, tr = a ++ EResult w h r :: b ->
  let v := view_of a in waits v w = Some h /\
  match own v h with
  | Some c => answers v c r \/ r = RExc XDetached /\ (exists a', a = a' ++ [EInterrupt w])
              \/ r = RExc XAlready /\ (exists w', w' <> w /\ waits v w' = Some h) /\ running v c
  | None => r = RExc XMoved \/ r = RVal Hollow
  end.
Proof. intros C H a w h r b T. exact (run_P _ _ _ _ _ _ C H T). Qed.
Theorem get_right ls (s : state) (tr : list event) : correct init ls -> run init ls = Some (s, tr) -> forall a h r b, tr = a ++ EGet h r :: b ->
  match own (view_of a) h with Some c => answers (view_of a) c r | None => r = RExc XMoved \/ r = RVal Hollow end.
Proof. intros C H a h r b T. exact (run_P _ _ _ _ _ _ C H T). Qed.
Theorem gave_once ls (s : state) (tr : list event) : correct init ls -> run init ls = Some (s, tr) -> NoDup (gave (view_of tr)).
Proof. intros C H. exact (ig _ _ (proj1 (run_INV _ _ _ C H))). Qed.
Theorem waiter_has_coroutine ls (s : state) (tr : list event) : correct init ls -> run init ls = Some (s, tr) -> forall w h, waits (view_of tr) w = Some h ->
  exists c, own (view_of tr) h = Some c /\ over (view_of tr) c = false.
Proof.
  intros C H w h W. destruct (run_INV _ _ _ C H) as [I _].
  pose proof (iw _ _ I w) as Q. unfold WI in Q. destruct (ws s w) as [|k o|]; try congruence.
  destruct Q as (A & _ & Q). assert (k = h) by congruence. subst k.
  pose proof (ih _ _ I h) as Z. unfold HI, Free in Z. destruct (live s h); [|destruct Z; congruence].
  destruct (own (view_of tr) h) as [c|]; [|destruct Z as (_ & Z & _); congruence]. exists c. split; auto.
  pose proof (ic _ _ I c) as Y. unfold CI in Y.
  destruct Z as [_ [Z|(_ & _ & Z)]]; [destruct Z as (_ & _ & _ & Z & _)|destruct (Z w A) as [Z1 _]; clear Z; rename Z1 into Z]; rewrite Z in Y; tauto.
Qed.
Theorem running_can_finish ls (s : state) (tr : list event) : correct init ls -> run init ls = Some (s, tr) -> forall c, running (view_of tr) c -> forall v,
  exists s' ev, step (LReturn c v) s = Some (s', ev) /\ ~ undefined ev.
Proof.
  intros C H c [R1 R2] v. destruct (run_INV _ _ _ C H) as [I _].
  pose proof (ic _ _ I c) as Y. unfold CI in Y. cbn -[upd].
  destruct (cs (co s c)) eqn:Cs; try (exfalso; destruct Y as (Y & _);
    repeat match goal with K : _ /\ _ |- _ => destruct K | K : exists _, _ |- _ => destruct K end; congruence).
  destruct (rec (co s c)) as [h|] eqn:R.
  - destruct (rec_live _ _ _ _ I R) as (L & _). rewrite L. eexists; eexists; split; [reflexivity|]. intros (b & [|[]]). discriminate.
  - eexists; eexists; split; [reflexivity|]. intros (b & [|[]]). discriminate.
Qed.
Theorem destroy_signals ls (s : state) (tr : list event) : correct init ls -> run init ls = Some (s, tr) ->
  forall h s' ev, ok s (LDestroy1 h) = true -> step (LDestroy1 h) s = Some (s', ev) ->
  (attd (view_of tr) h = true -> forall c, own (view_of tr) h = Some c -> running (view_of tr) c -> ev = [ESignal c ct_all]) /\
  (attd (view_of tr) h = false \/ (forall c, own (view_of tr) h = Some c -> ~ running (view_of tr) c) -> ev = []).
Proof.
  intros C H h s' ev K S. destruct (run_INV _ _ _ C H) as [I _]. cbn -[cancel upd] in S, K.
  destruct (is_live (life_of (hs s h))) eqn:L; [|discriminate]. apply is_live_live in L.
  pose proof (ih _ _ I h) as Q. unfold HI in Q. rewrite L in Q. destruct Q as [Q _]. rewrite Q in S.
  destruct (attd (view_of tr) h).
  - destruct (cancel_ok s tr h ct_all I L K) as (ev1 & Cc & _ & _ & X & Y). rewrite Cc in S. injection S as <- <-. split.
    + intros _ c O R. destruct X as [->|(c' & -> & O' & _)]; [exfalso; apply Y; eauto|congruence].
    + intros [D|D]; [discriminate|]. destruct X as [->|(c' & -> & O' & R')]; auto. now elim (D c').
  - injection S as <- <-. split; auto. discriminate.
Qed.
Theorem assign_signals ls (s : state) (tr : list event) : correct init ls -> run init ls = Some (s, tr) ->
  forall g h s' ev, ok s (LAssign1 g h) = true -> step (LAssign1 g h) s = Some (s', ev) ->
  (attd (view_of tr) g = true -> forall c, own (view_of tr) g = Some c -> running (view_of tr) c -> ev = [ESignal c ct_all]) /\
  (attd (view_of tr) g = false \/ (forall c, own (view_of tr) g = Some c -> ~ running (view_of tr) c) -> ev = []).
Proof.
  intros C H g h s' ev K S. destruct (run_INV _ _ _ C H) as [I _]. cbn -[cancel upd] in S, K.
  destruct (is_live (life_of (hs s g)) && is_live (life_of (hs s h)) && negb (g =? h)) eqn:G; [|discriminate].
  rewrite !andb_true_iff in G. destruct G as ((L & _) & _). apply is_live_live in L. destruct (from (hs s g)); [discriminate|].
  pose proof (ih _ _ I g) as Q. unfold HI in Q. rewrite L in Q. destruct Q as [Q _]. rewrite Q in S.
  destruct (attd (view_of tr) g).
  - destruct (cancel_ok s tr g ct_all I L K) as (ev1 & Cc & _ & _ & X & Y). rewrite Cc in S. injection S as <- <-. split.
    + intros _ c O R. destruct X as [->|(c' & -> & O' & _)]; [exfalso; apply Y; eauto|congruence].
    + intros [D|D]; [discriminate|]. destruct X as [->|(c' & -> & O' & R')]; auto. now elim (D c').
  - injection S as <- <-. split; auto. discriminate.
Qed.
Theorem signal_alive ls (s : state) (tr : list event) : correct init ls -> run init ls = Some (s, tr) -> forall a c t b, tr = a ++ ESignal c t :: b ->
  born (view_of a) c = true /\ over (view_of a) c = false.
Proof. intros C H a c t b T. exact (run_P _ _ _ _ _ _ C H T). Qed.
Theorem escape_unowned ls (s : state) (tr : list event) : correct init ls -> run init ls = Some (s, tr) -> forall a c e b, tr = a ++ EEscape c e :: b ->
  forall h, own (view_of a) h <> Some c.
Proof. intros C H a c e b T. exact (run_P _ _ _ _ _ _ C H T). Qed.

(** Handles that stand for nothing. *)
Theorem inert_handle ls (s : state) (tr : list event) : correct init ls -> run init ls = Some (s, tr) -> forall h, own (view_of tr) h = None ->
  forall l s' ev, (exists t, l = LCancel h t) \/ l = LDestroy1 h \/ l = LDestroy2 h ->
  ok s l = true -> step l s = Some (s', ev) -> (forall c t, ~ In (ESignal c t) ev) /\ forall c, co s' c = co s c.
Proof.
  intros C H h O l s' ev Hl K S. destruct (run_INV _ _ _ C H) as [I _].
  destruct Hl as [(t & ->)|[->| ->]]; cbn -[cancel upd unlink kill_w] in S, K.
  - destruct (is_live (life_of (hs s h))) eqn:L; [|discriminate]. apply is_live_live in L.
    destruct (cancel_ok s tr h t I L K) as (ev1 & Cc & _ & _ & X & _). rewrite Cc in S. injection S as <- <-. split; auto.
    destruct X as [->|(c' & -> & O' & _)]; [intros ? ? []|congruence].
  - destruct (is_live (life_of (hs s h))) eqn:L; [|discriminate]. apply is_live_live in L.
    destruct (att (hs s h)).
    + destruct (cancel_ok s tr h ct_all I L K) as (ev1 & Cc & _ & _ & X & _). rewrite Cc in S. injection S as <- <-. split; auto.
      destruct X as [->|(c' & -> & O' & _)]; [intros ? ? []|congruence].
    + injection S as <- <-. split; auto.
  - destruct (is_dying (life_of (hs s h))) eqn:L; [|discriminate].
    assert (L' : live s h = true) by (unfold live; destruct (life_of (hs s h)); auto; discriminate).
    rewrite !andb_true_iff, !negb_true_iff in K. destruct K as ((K1 & K2) & K3).
    assert (Aw : aw (hs s h) = None) by (unfold awaited in K1; destruct (aw (hs s h)); auto; discriminate).
    assert (N : forall c, rec (co s c) <> Some h) by (intros c R; apply (rec_live _ _ _ _ I) in R; destruct R as (_ & R & _); congruence).
    assert (X : exists s1, (if done (hs s h) then Some s else unlink h s) = Some s1 /\ forall c, co s1 c = co s c).
    { destruct (done (hs s h)) eqn:D; [eauto|].
      destruct (unlink_dropped s _ h I L' K3) as (s1 & U & _ & _ & Dc). exists s1. split; auto. intros c. rewrite Dc.
      specialize (N c). destruct (rec (co s c)) as [k|]; auto. destruct (Nat.eqb_spec k h); congruence. }
    destruct X as (s1 & X & Ec). rewrite X, Aw in S. cbn -[upd] in S. injection S as <- <-. split; [|exact Ec].
    intros c t [|[]]. discriminate.
Qed.

(** Moved from by construction. *)
Definition MF (s : state) (v : view V E) h := exc (hs s h) = Some XMoved /\ done (hs s h) = true /\ own v h = None /\ live s h = true.
Lemma get_result_other (s : state) k h : k <> h -> hs (fst (get_result k s)) h = hs s h.
Proof.
  intros n. unfold get_result. destruct (exc (hs s k)); [destruct (done (hs s k))|destruct (res (hs s k))]; cbn -[upd]; apply upd_ne; auto.
Qed.
Lemma own_keep (ev : list event) v h : own v h = None -> (forall e, In e ev -> ~ leaves e h) -> (forall c, ~ In (EStart c h) ev) -> own (fold_left observe ev v) h = None.
Proof.
  revert v. induction ev as [|e ev IH]; intros v O N S; cbn; auto. apply IH.
  - assert (N' := N e (or_introl eq_refl)). assert (S' : forall c, e <> EStart c h) by (intros c ->; apply (S c); cbn; auto).
    destruct e; cbn -[upd] in *; auto; try (rewrite ?upd_ne by (intros ->; auto); auto; fail).
    + rewrite upd_ne; auto. intros ->. now apply (S' c).
    + unfold v_give. destruct r as [[]|]; auto. destruct (own v h0) eqn:?; auto.
    + unfold v_give. destruct r as [[]|]; auto. destruct (own v h0) eqn:?; auto.
  - intros x Hx. apply N. cbn. auto.
  - intros c Hc. apply (S c). cbn. auto.
Qed.

Definition same (x y : handle V E) : Prop := exc x = exc y /\ done x = done y /\ (life_of x = Gone -> life_of y = Gone) /\ (life_of y <> Absent -> life_of x <> Absent).
Lemma upd_case {A} (f : nat -> A) i (a : A) j : j = i /\ upd f i a j = a \/ j <> i /\ upd f i a j = f j.
Proof. unfold upd. destruct (Nat.eqb_spec j i); auto. Qed.
Lemma MF_step (s : state) a l s' ev h : INV s (view_of a) -> ok s l = true -> MF s (view_of a) h -> step l s = Some (s', ev) ->
  (forall e, In e ev -> ~ leaves e h) -> MF s' (view_of (a ++ ev)) h.
Proof.
  intros I K (M1 & M2 & M3 & M4) S N.
  destruct (step_ok _ _ _ _ _ I K S) as [I' P'].
  assert (Ah : aw (hs s h) = None).
  { pose proof (ih _ _ I h) as Q. unfold HI in Q. rewrite M4, M3 in Q. destruct Q as (_ & Q & _). auto. }
  assert (NR : forall c, rec (co s c) <> Some h) by (intros c R; apply (rec_live _ _ _ _ I) in R; destruct R as (_ & R & _); congruence).
  assert (X : (forall c, ~ In (EStart c h) ev) /\ exc (hs s' h) = Some XMoved /\ done (hs s' h) = true /\ live s' h = true).
  { destruct l; cbn -[upd cancel transfer get_result] in S.
    all: unfold get_result, final, resume, cancel, transfer, unlink, kill_w, live in *; cbn -[upd] in S.
    all: repeat (match type of S with
      | context [match ?x with _ => _ end] =>
          match x with context [match _ with _ => _ end] => fail 1 | _ => destruct x eqn:? end
      end; cbn -[upd] in S; try discriminate S).
    all: try (injection S as <- <-); cbn -[upd] in N |- *.
    all: try (exfalso; match goal with
      | _ : context [EMove ?g ?k] |- _ => apply (N (EMove g k)); cbn; tauto
      | _ : context [EAssign ?g ?k] |- _ => apply (N (EAssign g k)); cbn; tauto
      | _ : context [EDestroy ?k] |- _ => apply (N (EDestroy k)); cbn; tauto end).
    all: split; [intros c' Hc; cbn in Hc; intuition (try discriminate)|].
    all: unfold upd in *.
    all: repeat match goal with
      | |- context [if ?j =? ?i then _ else _] => destruct (Nat.eqb_spec j i); try subst
      | K : context [if ?j =? ?i then _ else _] |- _ => destruct (Nat.eqb_spec j i); try subst
      end; cbn in *; try tauto; try congruence.
    all: repeat match goal with K : (_, _) = (_, _) |- _ => injection K as <- <- end; cbn in *; unfold upd in *.
    all: repeat match goal with
      | |- context [if ?j =? ?i then _ else _] => destruct (Nat.eqb_spec j i); try subst
      | K : context [if ?j =? ?i then _ else _] |- _ => destruct (Nat.eqb_spec j i); try subst
      end; cbn in *; try tauto; try congruence.
    all: try match goal with K : EStart _ _ = EStart _ _ |- _ => injection K as <- <- end.
    all: try (exfalso; match goal with K : is_absent (life_of ?x) = true |- _ => destruct (life_of x) eqn:?; discriminate end).
    all: try match goal with I0 : INV ?z _, A : aw (hs ?z ?k) = Some ?w, W : ws ?z ?w = WSusp ?k2 _ |- _ =>
        destruct (ia _ _ I0 _ _ A) as (? & ?); assert (k2 = k) by congruence; try subst; try congruence end.
    all: try match goal with K : get_result ?k ?S = (?s0, _) |- context [hs ?s0 ?h] =>
        let n := fresh in assert (n : k <> h) by (intros ->; eapply NR; eassumption);
        let X := fresh in pose proof (get_result_other S k h n) as X; rewrite K in X; cbn in X; unfold upd in X; rewrite X;
        destruct (Nat.eqb_spec h k); [congruence|] end.
    all: try tauto; try (exfalso; congruence); try (repeat split; congruence); try (exfalso; eapply NR; eassumption).
    all: try (exfalso; eapply N; [left; reflexivity|cbn; solve [auto]]).
  }
  destruct X as (X1 & X2 & X3 & X4). repeat split; auto.
  rewrite view_app. apply own_keep; auto.
Qed.
Lemma MF_tells (s : state) a l s' ev h r e : INV s (view_of a) -> MF s (view_of a) h -> step l s = Some (s', ev) ->
  In e ev -> tells e h r -> r = RExc XMoved.
Proof.
  intros I (M1 & M2 & M3 & M4) S Hin T.
  assert (Ah : aw (hs s h) = None).
  { pose proof (ih _ _ I h) as Q. unfold HI in Q. rewrite M4, M3 in Q. destruct Q as (_ & Q & _). auto. }
  assert (NR : forall c, rec (co s c) <> Some h) by (intros c R; apply (rec_live _ _ _ _ I) in R; destruct R as (_ & R & _); congruence).
  destruct l; cbn -[upd cancel transfer get_result] in S.
  all: unfold final, resume, cancel, transfer, unlink, kill_w, live in *; cbn -[upd get_result] in S.
  all: repeat (match type of S with
      | context [match ?x with _ => _ end] =>
          match x with context [match _ with _ => _ end] => fail 1 | _ => destruct x eqn:? end
      end; cbn -[upd get_result] in S; try discriminate S).
  all: try (injection S as <- <-); cbn -[upd] in Hin.
  all: repeat match goal with K : (_, _) = (_, _) |- _ => injection K as <- <- end; cbn in Hin.
  all: repeat match goal with K : _ \/ _ |- _ => destruct K | K : False |- _ => destruct K end; subst; cbn in T; try contradiction.
  all: destruct T as [T1 T2]; subst; cbn in *; try congruence.
  all: try (exfalso; eapply NR; eassumption).
  all: try match goal with K : get_result _ _ = _ |- _ => unfold get_result in K; cbn -[upd] in K; rewrite ?M1, ?M2 in K; injection K; intros; congruence end.
  all: try match goal with W : ws _ ?w = WSusp _ _ |- _ => pose proof (iw _ _ I w) as Q; unfold WI in Q; rewrite W in Q; destruct Q; congruence end.
Qed.
Lemma MF_run ls : forall (s : state) a s' tr h x e y r, INV s (view_of a) -> correct s ls -> MF s (view_of a) h -> run s ls = Some (s', tr) ->
  tr = x ++ e :: y -> (forall e', In e' x -> ~ leaves e' h) -> tells e h r -> r = RExc XMoved.
Proof.
  induction ls as [|l ls IH]; intros s a s' tr h x e y r I C M R T N Te; cbn in R.
  - injection R as <- <-. destruct x; discriminate.
  - destruct C as [C1 C2]. destruct (step l s) as [[s1 e1]|] eqn:S; [|discriminate].
    destruct (run s1 ls) as [[s2 e2]|] eqn:R2; [|discriminate]. injection R as <- <-.
    destruct (step_ok _ _ _ _ _ I C1 S) as [I1 _].
    apply app_eq_app in T as (m & [[Hx Hy]|[Hx Hy]]).
    + destruct m as [|e0 m].
      * rewrite app_nil_r in Hx. cbn in Hy. subst.
        apply (IH s1 (a ++ x) s2 (e :: y) h [] e y r); auto.
        eapply MF_step; eauto.
      * cbn in Hy. injection Hy as <- _. apply (MF_tells s a l s1 e1 h r e); auto. rewrite Hx. apply in_or_app. cbn. auto.
    + subst. eapply (IH s1 (a ++ e1) s2 _ h m e y r); eauto.
      * eapply MF_step; eauto. intros e' He. apply N. apply in_or_app. auto.
      * intros e' He. apply N. apply in_or_app. auto.
Qed.
Lemma move_MF (s : state) a l s' ev g h c : INV s (view_of a) -> ok s l = true -> step l s = Some (s', ev) -> In (EMove g h) ev ->
  own (view_of a) h = Some c -> running (view_of a) c -> ev = [EMove g h] /\ MF s' (view_of (a ++ ev)) h.
Proof.
  intros I K S Hin O R. destruct (step_ok _ _ _ _ _ I K S) as [I' P'].
  assert (X : l = LMove g h).
  { destruct l; cbn -[upd cancel transfer get_result] in S.
    all: unfold final, resume, cancel, transfer, unlink, kill_w, live in *; cbn -[upd get_result] in S.
    all: repeat (match type of S with
      | context [match ?x with _ => _ end] =>
          match x with context [match _ with _ => _ end] => fail 1 | _ => destruct x eqn:? end
      end; cbn -[upd get_result] in S; try discriminate S).
    all: try (injection S as <- <-); cbn -[upd] in Hin.
    all: repeat match goal with K : (_, _) = (_, _) |- _ => injection K as <- <- end; cbn in Hin.
    all: repeat match goal with K : _ \/ _ |- _ => destruct K | K : False |- _ => destruct K end; congruence. }
  subst l. clear Hin. cbn -[transfer] in S.
  destruct (is_absent (life_of (hs s g)) && is_live (life_of (hs s h))) eqn:G; [|discriminate].
  apply andb_true_iff in G as [G1 G2]. pose proof (is_live_live _ _ G2) as L.
  assert (n : h <> g) by (intros ->; rewrite (live_life _ G2) in G1; discriminate).
  pose proof (ih _ _ I h) as Q. unfold HI in Q. rewrite L, O in Q. destruct Q as [_ [Q|(_ & Q & _)]]; [|destruct R as [_ R]; rewrite R in Q; destruct Q].
  destruct Q as (D & X & _ & Cs & Re & _).
  destruct (rec_live _ _ _ _ I Re) as (_ & _ & Rf).
  unfold transfer in S. rewrite D, X, Rf in S. unfold frame in S. rewrite Cs in S. injection S as <- <-. split; auto.
  unfold MF, live. cbn -[upd]. rewrite !upd_ne, upd_eq by auto. cbn. rewrite (live_life _ G2). repeat split.
  rewrite view_app. cbn -[upd]. apply upd_eq.
Qed.
Theorem moved_from_says ls (s : state) (tr : list event) : correct init ls -> run init ls = Some (s, tr) ->
  forall a g h b e d c r, tr = a ++ EMove g h :: b ++ e :: d -> own (view_of a) h = Some c -> running (view_of a) c ->
  (forall e', In e' b -> ~ leaves e' h) -> tells e h r -> r = RExc XMoved.
Proof.
  intros C H. 
  assert (G : forall ls (s0 : state) a0 s' tr, INV s0 (view_of a0) -> correct s0 ls -> run s0 ls = Some (s', tr) ->
    forall a g h b e d c r, tr = a ++ EMove g h :: b ++ e :: d -> own (view_of (a0 ++ a)) h = Some c -> running (view_of (a0 ++ a)) c ->
    (forall e', In e' b -> ~ leaves e' h) -> tells e h r -> r = RExc XMoved).
  { clear. induction ls as [|l ls IH]; intros s0 a0 s' tr I C H a g h b e d c r T O R N Te; cbn in H.
    - injection H as <- <-. destruct a; discriminate.
    - destruct C as [C1 C2]. destruct (step l s0) as [[s1 e1]|] eqn:S; [|discriminate].
      destruct (run s1 ls) as [[s2 e2]|] eqn:R2; [|discriminate]. injection H as <- <-.
      destruct (step_ok _ _ _ _ _ I C1 S) as [I1 _].
      apply app_eq_app in T as (m & [[Hx Hy]|[Hx Hy]]).
      + destruct m as [|e0 m].
        * rewrite app_nil_r in Hx. cbn in Hy. subst.
          apply (IH s1 (a0 ++ a) s2 _ I1 C2 R2 [] g h b e d c r); auto; rewrite app_nil_r; auto.
        * cbn in Hy. injection Hy as <- Hy.
          assert (Z : a = [] /\ m = []).
          { assert (Hin : In (EMove g h) e1) by (rewrite Hx; apply in_or_app; cbn; auto).
            assert (X : exists x, e1 = EMove g h :: x /\ forall k j, ~ In (EMove k j) x).
            { clear - S Hin. destruct l; cbn -[upd cancel transfer get_result] in S.
              all: unfold final, resume, cancel, transfer, unlink, kill_w, live in *; cbn -[upd get_result] in S.
              all: repeat (match type of S with
              | context [match ?x with _ => _ end] =>
                 match x with context [match _ with _ => _ end] => fail 1 | _ => destruct x eqn:? end
              end; cbn -[upd get_result] in S; try discriminate S).
              all: try (injection S as <- <-); cbn -[upd] in Hin.
              all: repeat match goal with K : (_, _) = (_, _) |- _ => injection K as <- <- end; cbn in Hin.
              all: repeat match goal with K : _ \/ _ |- _ => destruct K | K : False |- _ => destruct K end; try congruence.
              all: match goal with K : EMove _ _ = EMove _ _ |- _ => injection K as -> -> end.
              all: eexists; split; [reflexivity|]; intros k j Hk; cbn in Hk; intuition congruence. }
            destruct X as (x & X1 & X2).
            assert (Ea : a = []).
            { destruct a as [|e0 a]; auto. exfalso. rewrite X1 in Hx. cbn in Hx. injection Hx as _ Hx.
              apply (X2 g h). rewrite Hx. apply in_or_app. cbn. auto. }
            subst a. split; auto. rewrite app_nil_r in O, R.
            destruct (move_MF _ _ _ _ _ _ _ _ I C1 S Hin O R) as [E1 _]. rewrite E1 in Hx. cbn in Hx. congruence. }
          destruct Z as [-> ->]. cbn in Hx, Hy. rewrite app_nil_r in O, R.
          destruct (move_MF _ _ _ _ _ g h c I C1 S) as [_ M]; auto. { rewrite Hx. cbn. auto. }
          eapply (MF_run ls s1); eauto.
      + subst. eapply (IH s1 (a0 ++ e1)); eauto; rewrite <- app_assoc; eauto. }
  intros a g h b e d c r. exact (G ls init [] s tr init_INV C H a g h b e d c r).
Qed.
End Final.
