(** * C67, C68: timers and sleep *)
From Coq Require Import List Bool Arith ZArith Lia.
From Verif Require Import Tim_Model Tim_Spec Tim_Proofs.
Import ListNotations.
Open Scope Z_scope.

Lemma happens_inv c0 tr : happens c0 tr -> exists s, Inv c0 tr s.
Proof. intros (ls & s & R). exists s. eapply reach_inv; eauto. Qed.

Ltac peel E y :=
  match type of E with
  | _ = y ++ _ :: _ =>
      destruct y as [|? y]; cbn [app] in E; try discriminate E;
      injection E; clear E; intros; subst; try discriminate;
      try match goal with H : _ = y ++ _ :: _ |- _ => peel H y end
  end.

(** A wait that ends with success: between its beginning and its end there was
    a moment when the clock showed the expiry the timer had when the wait
    began, or later, and nothing had ended the wait before. *)
Theorem C67_not_early c0 tr a w k b c :
  happens c0 tr -> tr = a ++ EWait w k :: b ++ EDone w Ok :: c ->
  exists e b1 b2, expires c0 a k e /\ b = b1 ++ b2 /\ (forall ev, In ev b1 -> ~ ends w k ev) /\
    e <= now c0 (a ++ EWait w k :: b1).
Proof.
  intros H E. apply happens_inv in H as (s & I).
  assert (E' : tr = (a ++ EWait w k :: b) ++ EDone w Ok :: c) by (rewrite <- app_assoc; exact E).
  destruct (iv_done _ _ _ I _ _ _ _ E') as (a' & k' & e & b1 & b2 & J & X & N & L).
  assert (U : a = a' /\ k = k' /\ b ++ EDone w Ok :: c = (b1 ++ b2) ++ EDone w Ok :: c).
  { apply (wait_unique tr (iv_nodup _ _ _ I) w a k (b ++ EDone w Ok :: c)); [exact E|].
    rewrite E', J. rewrite <- app_assoc. reflexivity. }
  destruct U as (-> & -> & U). apply app_inv_tail in U. eauto 8.
Qed.

(** On a clock that does not go back, a wait does not end with success before
    its expiry. *)
Lemma now_mono c0 tr : steady c0 tr -> forall a b, tr = a ++ b -> now c0 a <= now c0 tr.
Proof.
  revert c0. induction tr as [|x tr IH]; intros c0 St a b E.
  - destruct a; [cbn; lia|discriminate].
  - assert (St' : steady (now c0 [x]) tr).
    { intros p t q Eq. pose proof (St (x :: p) t q) as H. cbn in H. rewrite Eq in H. specialize (H eq_refl).
      destruct x; exact H. }
    destruct a as [|y a].
    + cbn [app] in E. pose proof (IH _ St' [] tr eq_refl) as H. cbn [now] in H.
      destruct x; cbn in *; try exact H. pose proof (St [] t tr eq_refl) as H1. cbn in H1. lia.
    + injection E as -> E. pose proof (IH _ St' a b E) as H. destruct y; exact H.
Qed.

Lemma steady_app c0 a b : steady c0 (a ++ b) -> steady c0 a.
Proof. intros H p t q E. apply (H p t (q ++ b)). rewrite E, <- app_assoc. reflexivity. Qed.

Theorem C67_not_early_steady c0 tr a w k b c :
  happens c0 tr -> steady c0 tr -> tr = a ++ EWait w k :: b ++ EDone w Ok :: c ->
  exists e, expires c0 a k e /\ e <= now c0 (a ++ EWait w k :: b).
Proof.
  intros H St E. destruct (C67_not_early c0 tr a w k b c H E) as (e & b1 & b2 & X & -> & _ & L).
  exists e. split; [exact X|]. rewrite E in St.
  replace (a ++ EWait w k :: (b1 ++ b2) ++ EDone w Ok :: c)
    with ((a ++ EWait w k :: b1 ++ b2) ++ EDone w Ok :: c) in St by (rewrite <- app_assoc; reflexivity).
  apply steady_app in St.
  pose proof (now_mono c0 _ St (a ++ EWait w k :: b1) b2) as M.
  rewrite <- app_assoc in M. specialize (M eq_refl). lia.
Qed.

(** A wait that ends with operation_aborted was ended by something. *)
Theorem C67_aborted c0 tr a w k b c :
  happens c0 tr -> tr = a ++ EWait w k :: b ++ EDone w Aborted :: c ->
  exists ev, In ev b /\ ends w k ev.
Proof.
  intros H E. apply happens_inv in H as (s & I).
  assert (E' : tr = (a ++ EWait w k :: b) ++ EDone w Aborted :: c) by (rewrite <- app_assoc; exact E).
  destruct (iv_done _ _ _ I _ _ _ _ E') as (a' & k' & b' & ev & J & X & N).
  assert (U : a = a' /\ k = k' /\ b ++ EDone w Aborted :: c = b' ++ EDone w Aborted :: c).
  { apply (wait_unique tr (iv_nodup _ _ _ I) w a k (b ++ EDone w Aborted :: c)); [exact E|].
    rewrite E', J. rewrite <- app_assoc. reflexivity. }
  destruct U as (-> & -> & U). apply app_inv_tail in U. subst b'. eauto.
Qed.

(** A wait ends once, after it began. *)
Theorem C67_once c0 tr w : happens c0 tr -> (ndone w tr <= 1)%nat /\
  (forall r, In (EDone w r) tr -> exists k, In (EWait w k) tr).
Proof.
  intros H. apply happens_inv in H as (s & I). split.
  - pose proof (iv_cnt _ _ _ I w) as C. pose proof (proj1 (NoDup_count_occ Nat.eq_dec _) (iv_nodup _ _ _ I) w) as N.
    fold (cnt w (waits tr)) in N. lia.
  - intros r Hi. apply in_split in Hi as (a & b & E). pose proof (iv_done _ _ _ I _ _ _ _ E) as J.
    destruct r; [destruct J as (a' & k & e & b1 & b2 & -> & _)|destruct J as (a' & k & b1 & ev & -> & _)];
      exists k; rewrite E; apply in_or_app; left; apply in_elt.
Qed.

(** When the scheduler has nothing left to do, the waits that have not ended
    are those that nothing has ended and whose expiry is still to come. *)
Theorem C67_idle c0 ls s tr a w k b :
  run (init c0) ls = Some (s, tr) -> ~ In EUB tr -> idle s ->
  tr = a ++ EWait w k :: b -> (forall r, ~ In (EDone w r) b) ->
  exists e, expires c0 a k e /\ now c0 tr < e /\ (forall ev, In ev b -> ~ ends w k ev).
Proof.
  intros R NU Id E ND. pose proof (reach_inv _ _ _ _ R) as I.
  assert (U : ub s = false).
  { destruct (ub s) eqn:U; [|reflexivity]. exfalso. apply NU. eapply ub_event; eauto. }
  destruct (idle_not_due s Id U) as (Q & D); [intros p H; apply (iv_pend _ _ _ I p H)|].
  assert (Z0 : ndone w tr = O).
  { assert (A0 : forall l, (forall r, ~ In (EDone w r) l) -> ndone w l = O).
    { induction l as [|x l IH]; cbn; intro N; [reflexivity|].
      assert (ndone w l = O) by (apply IH; intros r Hr; apply (N r); auto).
      destruct x; auto. destruct (Nat.eqb w0 w) eqn:Q'; [|auto]. apply Nat.eqb_eq in Q' as ->. exfalso. apply (N r); auto. }
    rewrite E, ndone_app. cbn. rewrite (A0 b ND), (A0 a); [reflexivity|].
    intros r Hr. apply in_split in Hr as (a1 & a2 & Ea).
    assert (E1 : tr = a1 ++ EDone w r :: (a2 ++ EWait w k :: b)) by (rewrite E, Ea, <- app_assoc; reflexivity).
    pose proof (iv_done _ _ _ I _ _ _ _ E1) as J.
    assert (exists k' p q, a1 = p ++ EWait w k' :: q) as (k' & p & q & ->).
    { destruct r; [destruct J as (p & k' & e & b1 & b2 & -> & _)|destruct J as (p & k' & b1 & ev & -> & _)]; eauto. }
    assert (E2 : tr = p ++ EWait w k' :: (q ++ EDone w r :: a2 ++ EWait w k :: b)) by (rewrite E1, <- app_assoc; reflexivity).
    destruct (wait_unique tr (iv_nodup _ _ _ I) w _ _ _ _ _ _ E E2) as (Ep & _ & Eb).
    apply (f_equal (@length event)) in Eb. rewrite !app_length in Eb. cbn in Eb. rewrite app_length in Eb. cbn in Eb. lia. }
  pose proof (iv_cnt _ _ _ I w) as C. rewrite Z0, Q in C. cbn [map] in C.
  assert (Cw : (0 < cnt w (waits tr))%nat).
  { apply count_occ_In. rewrite E, waits_app. apply in_or_app. right. left. reflexivity. }
  assert (In w (map p_w (pend s))) as Hw by (apply (count_occ_In Nat.eq_dec); unfold cnt in *; cbn in C; lia).
  apply in_map_iff in Hw as (p & Ew & Hp). destruct (iv_pend _ _ _ I p Hp) as (_ & a' & b' & E' & X & N).
  rewrite Ew in *.
  destruct (wait_unique tr (iv_nodup _ _ _ I) w _ _ _ _ _ _ E E') as (-> & -> & ->).
  exists (p_e p). split; [exact X|]. split; [rewrite <- (iv_clk _ _ _ I); apply D; exact Hp|exact N].
Qed.

(** The scheduler gets there by itself, without the clock being moved. *)
Theorem C67_scheduler c0 ls s tr :
  run (init c0) ls = Some (s, tr) -> ~ In EUB tr ->
  exists ls' s' ev, Forall is_sched ls' /\ run s ls' = Some (s', ev) /\ idle s' /\ now c0 (tr ++ ev) = now c0 tr.
Proof.
  intros R NU. pose proof (reach_inv _ _ _ _ R) as I.
  assert (U : ub s = false).
  { destruct (ub s) eqn:U; [|reflexivity]. exfalso. apply NU. eapply ub_event; eauto. }
  destruct (drain _ c0 tr s I U (Nat.le_refl _)) as (ls' & s' & ev & F & R' & Id & _ & C).
  exists ls', s', ev. split; [exact F|]. split; [exact R'|]. split; [exact Id|].
  pose proof (run_inv c0 ls' tr s s' ev I R') as I'.
  rewrite <- (iv_clk _ _ _ I'), <- (iv_clk _ _ _ I). exact C.
Qed.

(** co_await does not suspend exactly if the expiry has passed. *)
Theorem C67_no_suspend c0 tr a w k x b :
  happens c0 tr -> tr = a ++ EWait w k :: x :: b ->
  exists e, expires c0 a k e /\ x = (if e <? now c0 a then EDone w Ok else ESuspend w k).
Proof.
  intros (ls & s & R) E.
  destruct (step_of c0 ls s tr a (EWait w k) (x :: b) R E)
    as (ls1 & l & ls2 & s1 & e1 & s2 & e2 & y & -> & R1 & St & -> & z & z' & E2 & Eb & s3 & R3).
  pose proof (reach_inv _ _ _ _ R1) as I.
  unfold step in St. destruct (ub s1); [discriminate|].
  destruct l as [t|k0 a0|i a0|i|k0|i|i|w0 k0|w0|k0|];
    repeat match type of St with
    | context [match ?x with _ => _ end] => destruct x eqn:?; try discriminate
    end; injection St as <- <-;
    peel E2 y.
  all: cbn in Eb; injection Eb as -> ->; rewrite app_nil_r;
    exists e; (split; [apply (iv_live _ _ _ I); assumption|]);
    rewrite <- (iv_clk _ _ _ I); unfold is_ready in *;
    match goal with H : (_ <? _) = _ |- _ => rewrite H end; reflexivity.
Qed.

(** expired() tells whether the expiry has passed, expiry() gives it. *)
Theorem C67_queries c0 tr a i b :
  happens c0 tr ->
  (forall r, tr = a ++ EExpired i r :: b -> exists e, expires c0 a (Tm i) e /\ r = (e <? now c0 a)) /\
  (forall e, tr = a ++ EExpiry i e :: b -> expires c0 a (Tm i) e).
Proof.
  intros (ls & s & R). split.
  - intros r E.
    destruct (step_of c0 ls s tr a (EExpired i r) b R E)
      as (ls1 & l & ls2 & s1 & e1 & s2 & e2 & y & -> & R1 & St & -> & z & z' & E2 & Eb & s3 & R3).
    pose proof (reach_inv _ _ _ _ R1) as I.
    unfold step in St. destruct (ub s1); [discriminate|].
    destruct l as [t|k0 a0|i0 a0|i0|k0|i0|i0|w0 k0|w0|k0|];
    repeat match type of St with
    | context [match ?x with _ => _ end] => destruct x eqn:?; try discriminate
    end; injection St as <- <-;
    peel E2 y.
    rewrite app_nil_r. exists e. split; [apply (iv_live _ _ _ I); assumption|].
    rewrite <- (iv_clk _ _ _ I). reflexivity.
  - intros e E.
    destruct (step_of c0 ls s tr a (EExpiry i e) b R E)
      as (ls1 & l & ls2 & s1 & e1 & s2 & e2 & y & -> & R1 & St & -> & z & z' & E2 & Eb & s3 & R3).
    pose proof (reach_inv _ _ _ _ R1) as I.
    unfold step in St. destruct (ub s1); [discriminate|].
    destruct l as [t|k0 a0|i0 a0|i0|k0|i0|i0|w0 k0|w0|k0|];
    repeat match type of St with
    | context [match ?x with _ => _ end] => destruct x eqn:?; try discriminate
    end; injection St as <- <-;
    peel E2 y.
    rewrite app_nil_r. apply (iv_live _ _ _ I); assumption.
Qed.

(** False: a timer whose wait has just ended with success has expired.  For
    every expiry and timer there is such a history, the clock not moving
    between the two. *)
Theorem C67_expired_after_wait_refuted c0 i w :
  happens c0 [ENew (Tm i) (At c0); EWait w (Tm i); ESuspend w (Tm i); EDone w Ok; EExpired i false].
Proof.
  exists [LNew (Tm i) (At c0); LWait w (Tm i); LFire (Tm i); LRun; LExpired i].
  eexists. unfold init, upd, is_ready, of_key.
  repeat (unfold upd, is_ready, of_key; cbn -[Z.ltb Z.leb]; rewrite ?Nat.eqb_refl, ?Z.ltb_irrefl, ?Z.leb_refl).
  reflexivity.
Qed.

(** Three waits on a timer: the first ends because of a reset, the second is
    cancelled, the third succeeds. *)
Example C67_nonvacuous :
  option_map snd (run (init 100)
    [LNew (Tm 0) (For 50); LWait 0 (Tm 0); LTick 120; LReset 0 (For 30); LWait 1 (Tm 0); LWait 2 (Tm 0);
     LRun; LSignal 1; LTick 150; LFire (Tm 0); LRun; LCancel 0; LRun; LTick 151; LExpired 0; LWait 3 (Tm 0)]) =
  Some [ENew (Tm 0) (For 50); EWait 0 (Tm 0); ESuspend 0 (Tm 0); ENow 120; EReset 0 (For 30);
        EWait 1 (Tm 0); ESuspend 1 (Tm 0); EWait 2 (Tm 0); ESuspend 2 (Tm 0); EDone 0 Aborted; ESignal 1;
        ENow 150; EDone 1 Aborted; ECancel 0; EDone 2 Ok; ENow 151; EExpired 0 true; EWait 3 (Tm 0); EDone 3 Ok].
Proof. reflexivity. Qed.

(** A clock that goes back: the wait has ended with success, and the clock
    shows less than the expiry.  C67_not_early speaks of the moment before. *)
Example C67_clock_back :
  option_map snd (run (init 100)
    [LNew (Tm 0) (At 110); LWait 0 (Tm 0); LTick 110; LFire (Tm 0); LTick 90; LRun]) =
  Some [ENew (Tm 0) (At 110); EWait 0 (Tm 0); ESuspend 0 (Tm 0); ENow 110; ENow 90; EDone 0 Ok].
Proof. reflexivity. Qed.

(** ** C68: sleep *)

Lemma new_once c0 ls : forall s tr, run (init c0) ls = Some (s, tr) ->
  forall k a, In (ENew k a) tr -> obj s k <> None_ \/ ub s = true.
Proof.
  induction ls as [|l ls IH] using rev_ind; intros s tr R k a H.
  - injection R as <- <-. destruct H.
  - rewrite run_app in R. destruct (run (init c0) ls) as [[s1 e1]|] eqn:R1; [|discriminate].
    cbn in R. destruct (step s1 l) as [[s2 e2]|] eqn:St; [|discriminate].
    injection R as <- <-. rewrite app_nil_r in H.
    assert (M : forall k', obj s1 k' <> None_ -> obj s2 k' <> None_).
    { intros k' Hk. unfold step in St. destruct (ub s1); [discriminate|].
      destruct l as [t|k0 a0|i0 a0|i0|k0|i0|i0|w0 k0|w0|k0|];
        repeat match type of St with
        | context [match ?x with _ => _ end] => destruct x eqn:?; try discriminate
        end; injection St as <- <-; cbn; unfold upd; auto;
        try (destruct (key_eqb k' _); [discriminate|auto]; fail).
      destruct k0; cbn; auto. }
    apply in_app_or in H as [H|H].
    + destruct (IH _ _ eq_refl _ _ H) as [N|U]; [left; auto|].
      unfold step in St. rewrite U in St. discriminate.
    + unfold step in St. destruct (ub s1); [discriminate|].
      destruct l as [t|k0 a0|i0 a0|i0|k0|i0|i0|w0 k0|w0|k0|];
        repeat match type of St with
        | context [match ?x with _ => _ end] => destruct x eqn:?; try discriminate
        end; injection St as <- <-; cbn in H; try (exfalso; intuition discriminate).
      * destruct H as [H|[]]. injection H as -> ->. left. cbn. unfold upd. rewrite key_eqb_refl. discriminate.
      * right. reflexivity.
Qed.

Lemma new_unique c0 tr p k a q : happens c0 tr -> tr = p ++ ENew k a :: q -> forall a', ~ In (ENew k a') q.
Proof.
  intros (ls & s & R) E a' H. apply in_split in H as (q1 & q2 & ->).
  assert (E' : tr = (p ++ ENew k a :: q1) ++ ENew k a' :: q2) by (rewrite <- app_assoc; exact E).
  destruct (step_of c0 ls s tr _ _ _ R E')
    as (ls1 & l & ls2 & s1 & e1 & s2 & e2 & y & -> & R1 & St & Ea & z & z' & E2 & Eb & s3 & R3).
  pose proof (new_once _ _ _ _ R1 k a) as N.
  unfold step in St. destruct (ub s1) eqn:U; [discriminate|].
  destruct l as [t|k0 a0|i0 a0|i0|k0|i0|i0|w0 k0|w0|k0|];
    repeat match type of St with
    | context [match ?x with _ => _ end] => destruct x eqn:?; try discriminate
    end; injection St as <- <-;
    peel E2 y.
  all: rewrite app_nil_r in Ea; subst e1; destruct N as [N|N]; [apply in_elt|congruence|congruence].
Qed.

Lemma expiry_keep c0 k acc tr i : k = Sl i -> (forall a, ~ In (ENew k a) tr) -> expiry c0 k acc tr = acc.
Proof.
  intros ->. revert c0 acc. induction tr as [|x tr IH]; intros c0 acc N; cbn; [reflexivity|].
  assert (N' : forall a, ~ In (ENew (Sl i) a) tr) by (intros a H; apply (N a); right; exact H).
  destruct x; auto; cbn.
  destruct (key_eqb k (Sl i)) eqn:Q; [|auto]. apply key_eqb_eq in Q as ->. exfalso. apply (N a). left. reflexivity.
Qed.

(** A sleep that ends with success takes at least as long as was asked for,
    counted from the call of sleep(); with a time point, it ends after it. *)
Theorem C68_sleep c0 tr a i arg b w c d :
  happens c0 tr -> steady c0 tr ->
  tr = a ++ ENew (Sl i) arg :: b ++ EWait w (Sl i) :: c ++ EDone w Ok :: d ->
  meant (now c0 a) arg <= now c0 (a ++ ENew (Sl i) arg :: b ++ EWait w (Sl i) :: c).
Proof.
  intros H St E.
  assert (E1 : tr = (a ++ ENew (Sl i) arg :: b) ++ EWait w (Sl i) :: c ++ EDone w Ok :: d)
    by (rewrite <- app_assoc; exact E).
  destruct (C67_not_early_steady c0 tr _ w (Sl i) c d H St E1) as (e & X & L).
  unfold expires in X. rewrite expiry_app in X. cbn [expiry] in X. rewrite key_eqb_refl in X.
  rewrite (expiry_keep _ _ _ b i eq_refl) in X.
  - rewrite <- app_assoc in L. cbn [app] in L. injection X as X. destruct arg; cbn in *; rewrite <- X in L; exact L.
  - intros a' Hi. apply (new_unique c0 tr a (Sl i) arg _ H E a'). apply in_or_app. left. exact Hi.
Qed.

(** Behaviour is undefined only if sleep() is given a duration that reaches
    beyond the last time the clock has. *)
Theorem C68_defined_partial c0 tr a b :
  happens c0 tr -> tr = a ++ EUB :: b ->
  exists a' i du, a = a' ++ [ENew (Sl i) (For du)] /\ ~ (first_time <= now c0 a' + du <= last_time).
Proof.
  intros (ls & s & R) E.
  destruct (step_of c0 ls s tr a EUB b R E)
    as (ls1 & l & ls2 & s1 & e1 & s2 & e2 & y & -> & R1 & St & -> & z & z' & E2 & Eb & s3 & R3).
  pose proof (reach_inv _ _ _ _ R1) as I.
  destruct (ub_step s1 l s2 e2 St) as (i & du & -> & N); [rewrite E2; apply in_elt|].
  destruct y as [|y1 y]; [discriminate|]. injection E2 as <- E2. destruct y as [|y2 y]; [|injection E2 as <- E2; destruct y; discriminate].
  exists e1, i, du. split; [reflexivity|]. rewrite <- (iv_clk _ _ _ I). intros (A & B).
  unfold in64 in N. change MINT with first_time in N. change MAXT with last_time in N.
  apply andb_false_iff in N as [N|N]; apply Z.leb_gt in N; lia.
Qed.

(** False: sleep() accepts every duration.  Whenever the clock shows more than
    zero, the longest one overflows; the same duration is accepted by a timer. *)
Theorem C68_longest_refuted c0 i :
  0 < c0 <= last_time ->
  happens c0 [ENew (Sl i) (For last_time); EUB] /\
  happens c0 [ENew (Tm i) (For last_time); EExpiry i last_time].
Proof.
  change last_time with MAXT.
  intros Hc. split.
  - exists [LNew (Sl i) (For MAXT)]. eexists. cbn -[MAXT Z.add in64].
    replace (in64 (c0 + MAXT)) with false; [reflexivity|].
    symmetry. unfold in64. apply andb_false_iff. right. apply Z.leb_gt. lia.
  - exists [LNew (Tm i) (For MAXT); LExpiry i]. eexists. cbn -[MAXT Z.add sat]. unfold upd. cbn -[MAXT Z.add sat].
    rewrite Nat.eqb_refl. replace (sat (c0 + MAXT)) with MAXT; [reflexivity|]. unfold sat, MINT, MAXT in *. lia.
Qed.

(** Durations and time points in other units, as c units of num/den
    nanoseconds, are converted: exactly if that is a whole number of
    nanoseconds, *)
Theorem C68_convert_partial num den c d :
  0 < den -> cast num den c = Some d -> (exists q, c * num = q * den) -> d * den = c * num.
Proof.
  intros Hd E (q & Q). unfold cast in E. destruct (in64 (c * num)); [|discriminate]. injection E as <-.
  rewrite Q, Z.quot_mul by lia. reflexivity.
Qed.

(** otherwise to less: the sleep may be shorter than asked for, by less than
    one nanosecond. *)
Theorem C68_convert_bound num den c d :
  0 < den -> 0 <= c * num -> cast num den c = Some d -> d * den <= c * num < d * den + den.
Proof.
  intros Hd Hn E. unfold cast in E. destruct (in64 (c * num)); [|discriminate]. injection E as <-.
  pose proof (Z.quot_rem' (c * num) den). pose proof (Z.rem_bound_pos (c * num) den Hn Hd). lia.
Qed.

(** False: a sleep is never shorter than asked for.  Every duration that is
    not a whole number of nanoseconds is cut off. *)
Theorem C68_convert_refuted num den c d :
  0 < den -> 0 <= c * num -> cast num den c = Some d -> Z.rem (c * num) den <> 0 -> d * den < c * num.
Proof.
  intros Hd Hn E N. unfold cast in E. destruct (in64 (c * num)); [|discriminate]. injection E as <-.
  pose proof (Z.quot_rem' (c * num) den). pose proof (Z.rem_bound_pos (c * num) den Hn Hd). lia.
Qed.

(** 1500 picoseconds are one nanosecond; the largest number of hours has no
    value in nanoseconds. *)
Example C68_convert_examples :
  cast 1 1000 1500 = Some 1 /\ cast 3600000000000 1 2562048 = None /\ cast 1000000 1 250 = Some 250000000.
Proof. split; [|split]; reflexivity. Qed.

(** A sleep of 50, awaited twice: the second await finds it passed. *)
Example C68_nonvacuous :
  option_map snd (run (init 100)
    [LNew (Sl 0) (For 50); LTick 110; LWait 0 (Sl 0); LTick 150; LFire (Sl 0); LRun; LTick 151; LWait 1 (Sl 0)]) =
  Some [ENew (Sl 0) (For 50); ENow 110; EWait 0 (Sl 0); ESuspend 0 (Sl 0); ENow 150; EDone 0 Ok; ENow 151;
        EWait 1 (Sl 0); EDone 1 Ok].
Proof. reflexivity. Qed.

Print Assumptions C67_not_early.
Print Assumptions C67_not_early_steady.
Print Assumptions C67_aborted.
Print Assumptions C67_once.
Print Assumptions C67_idle.
Print Assumptions C67_scheduler.
Print Assumptions C67_no_suspend.
Print Assumptions C67_queries.
Print Assumptions C67_expired_after_wait_refuted.
Print Assumptions C68_sleep.
Print Assumptions C68_defined_partial.
Print Assumptions C68_longest_refuted.
Print Assumptions C68_convert_partial.
Print Assumptions C68_convert_bound.
Print Assumptions C68_convert_refuted.
