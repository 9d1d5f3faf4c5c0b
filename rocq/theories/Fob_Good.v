(** The invariant of C88 holds in every history *)
From Coq Require Import List Bool Arith Lia Permutation.
From Verif Require Import Fob_Model Fob_Spec Fob_Inv.
Import ListNotations.

Lemma mem_in : forall x l, mem x l = true <-> In x l.
Proof. intros x l. unfold mem. rewrite existsb_exists. split; [intros (y & A & B); apply Nat.eqb_eq in B; now subst|intro H; exists x; split; [auto|apply Nat.eqb_refl]]. Qed.
Lemma mem_out : forall x l, mem x l = false <-> ~ In x l.
Proof. intros x l. rewrite <- mem_in. destruct (mem x l); split; congruence. Qed.

Lemma cnt_remove : forall d l, cnt d l = 1 -> forall e, cnt e l = cnt e [d] + cnt e (remove_fd d l).
Proof.
  intros d l H e. rewrite cnt_one. destruct (Nat.eqb_spec d e) as [<-|N].
  - rewrite H. enough (cnt d (remove_fd d l) = 0) by lia. destruct (cnt d (remove_fd d l)) eqn:E; [reflexivity|].
    assert (In d (remove_fd d l)) as K by (apply cnt_in; lia). apply filter_In in K as [_ K]. rewrite Nat.eqb_refl in K. discriminate.
  - clear H. induction l as [|x l IH]; [reflexivity|]. rewrite (cnt_cons e x l), cnt_one. unfold remove_fd in *. cbn [filter]. destruct (Nat.eqb_spec x d) as [->|M]; cbn.
    + destruct (Nat.eqb_spec d e); [congruence|exact IH].
    + rewrite (cnt_cons e x (filter _ l)), cnt_one. lia.
Qed.

Ltac shape := cbn [born closed lost started ended flat_map app opt own ref objs used outs fresh pend nops next_fd set_outs add].
Ltac nums := intros; shape; rewrite ?cnt_nil, ?cnt_one;
  repeat match goal with |- context [?a =? ?b] => destruct (Nat.eqb_spec a b) | |- context [?a <=? ?b] => destruct (Nat.leb_spec a b) | |- context [?a <? ?b] => destruct (Nat.ltb_spec a b) end; cbn; lia.
Ltac nomove := cbn; intuition discriminate.
Ltac fin := match goal with
  | |- fine [] => apply fine_nil
  | |- fine [?a] => apply (fine_last []); discriminate
  | |- fine [?a; ?b] => apply (fine_last [a]); discriminate
  | |- fine [?a; ?b; ?c] => apply (fine_last [a; b]); discriminate end.
Ltac quieter := repeat split; try reflexivity; [fin|nomove].

Section good.
Variable c : config.

Lemma outs_one : forall s es d, good c s es -> In d (outs s) -> cnt d (outs s) = 1.
Proof.
  intros s es d G K. apply cnt_in in K. pose proof (g_sum _ _ _ G d). pose proof (g_born _ _ _ G d). destruct (d <? fresh s); lia.
Qed.

Lemma good_ruin : forall s es s' e, good c s es -> ruin s = (s', e) -> good c s' (es ++ e).
Proof.
  intros s es s' e G H. injection H as <- <-. apply good_note; [|quieter]. apply (good_ext c s es (objs s) G). reflexivity.
Qed.

Lemma good_open : forall s es x t o sys att s' e, good c s es -> objs s t = Some o -> open c x t sys att s = (s', e) -> good c s' (es ++ e).
Proof.
  intros s es x t o sys att s' e G O H. unfold open in H. rewrite O in H.
  assert (own o = None -> good c (set_own t (Some (fresh s)) (next_fd s)) (es ++ [ECreate (fresh s); EOk x])) as NEW.
  { intro N. rewrite (set_own_objs (next_fd s) t o) by exact O. cbn [objs used outs fresh pend nops ub next_fd].
    apply (good_change _ s es); auto; try reflexivity; try fin; try nomove.
    - apply (free_closed c s es t G). intros d (r & E). rewrite O in E. injection E as ->. discriminate N.
    - nums.
    - rewrite N. nums. }
  destruct c.
  - destruct (own o) as [d|] eqn:OW; [injection H as <- <-; apply good_note; [exact G|quieter]|].
    destruct sys; [|injection H as <- <-; apply good_note; [exact G|quieter]].
    destruct att; injection H as <- <-; [auto|].
    apply (good_fds _ s es); auto; try reflexivity; try fin; try nomove; nums.
  - destruct sys; [|injection H as <- <-; apply good_note; [exact G|quieter]].
    destruct (own o) as [d|] eqn:OW; [|destruct att]; injection H as <- <-; [|auto|];
    (apply (good_fds _ s es); auto; try reflexivity; try fin; try nomove; nums).
Qed.

Lemma good_shut : forall s es t s' e, good c s es -> shut t s = (s', e) ->
  good c s' (es ++ e) /\ (forall d, ~ has s' t d) /\ used s' = used s /\ (forall x, (objs s' x = None <-> objs s x = None)) /\ ub s' = ub s.
Proof.
  intros s es t s' e G H. unfold shut in H. destruct (objs s t) as [[[d|] r]|] eqn:O.
  - destruct (abort t s) as [s1 e1] eqn:A. injection H as <- <-.
    destruct (good_abort c s es t s1 e1 G A) as (G1 & FR & A1 & A2 & A3 & A4 & A5).
    assert (objs s1 t = Some (mko (Some d) r)) as O1 by congruence. rewrite (set_own_objs s1 t _ None O1). cbn [ref].
    split; [|split; [|split; [|split]]]; cbn [objs used ub]; auto.
    + rewrite app_assoc. apply (good_change _ s1 _ t (mko (Some d) r) None (outs s1) (fresh s1) [EClose d]); auto; try reflexivity; try fin; try nomove.
      * intro d'. destruct (Nat.leb_spec (fresh s1) d'), (Nat.ltb_spec d' (fresh s1)); cbn; rewrite ?cnt_nil; lia.
      * nums.
    + intros d' (r' & E). cbn in E. rewrite upd_same in E. discriminate.
    + intro x. destruct (Nat.eq_dec x t) as [->|N]; [rewrite upd_same, O; split; discriminate|rewrite upd_other, A1 by auto; reflexivity].
  - injection H as <- <-. rewrite app_nil_r. split; [exact G|]. split; [|split; [|split]]; auto; try reflexivity.
    intros d (r' & E). rewrite O in E. discriminate.
  - injection H as <- <-. rewrite app_nil_r. split; [exact G|]. split; [|split; [|split]]; auto; try reflexivity.
    intros d (r' & E). rewrite O in E. discriminate.
Qed.

Lemma good_step : forall l s es s' e, good c s es -> step c l s = Some (s', e) -> good c s' (es ++ e).
Proof.
  intros l s es s' e G H. unfold step in H. destruct (ub s); [discriminate|].
  assert (forall d x, cnt d (born [EOk x]) = (if (fresh s <=? d) && (d <? fresh s) then 1 else 0)) as B0.
  { intros d x. destruct (Nat.leb_spec (fresh s) d), (Nat.ltb_spec d (fresh s)); cbn; rewrite ?cnt_nil; lia. }
  destruct l; cbn [exec] in H.
  - injection H as <- <-. apply (good_fds _ s es); auto; try reflexivity; try fin; try nomove; [cbn; lia|nums|].
    intro d. shape. rewrite (cnt_cons d (fresh s) (outs s)), ?cnt_nil. lia.
  - destruct (mem d (outs s)) eqn:M; [|discriminate]. injection H as <- <-. apply mem_in in M.
    apply (good_fds _ s es); auto; try reflexivity; try fin; try nomove.
    + intro d'. exact (B0 d' 0).
    + intro d'. shape. rewrite (cnt_remove d (outs s) (outs_one s es d G M) d'), ?cnt_nil. lia.
  - destruct (mem x (used s)) eqn:M; [discriminate|]. injection H as <- <-. apply mem_out in M.
    apply (good_add _ s es); auto; try reflexivity; try fin; try nomove.
    all: nums.
  - destruct (mem x (used s)) eqn:M; [discriminate|]. apply mem_out in M.
    assert (good c s (es ++ [EThrow x])) as TH by (apply good_note; [exact G|quieter]).
    assert (good c (add x (mko (Some (fresh s)) x) (next_fd s)) (es ++ [ECreate (fresh s); EOk x])) as OK.
    { apply (good_add _ s es x (Some (fresh s)) (outs s) (S (fresh s))); auto; try reflexivity; try fin; try nomove; nums. }
    destruct c, sys, att; injection H as <- <-; auto;
    (apply (good_fds _ s es); auto; try reflexivity; try fin; try nomove; nums).
  - destruct (mem x (used s)) eqn:M; [discriminate|]. destruct (mem d (outs s)) eqn:MD; [|discriminate]. cbn in H. apply mem_out in M. apply mem_in in MD.
    destruct att; injection H as <- <-; [|apply good_note; [exact G|quieter]].
    apply (good_add _ s es x (Some d) (remove_fd d (outs s)) (fresh s)); auto; try reflexivity; try fin; try nomove.
    + intro d'. exact (B0 d' 0).
    + intro d'. shape. rewrite (cnt_remove d (outs s) (outs_one s es d G MD) d'), ?cnt_nil. lia.
  - destruct (objs s x) as [o|] eqn:O; [|discriminate]. injection H as H. destruct (objs s (target c x o)) as [o'|] eqn:T.
    + eapply good_open; eauto.
    + unfold open in H. rewrite T in H. eapply good_ruin; eauto.
  - destruct (objs s x) as [o|] eqn:O; [|discriminate]. destruct (mem d (outs s)) eqn:MD; [|discriminate]. injection H as H. apply mem_in in MD.
    unfold assign in H. destruct (objs s (target c x o)) as [o'|] eqn:T; [|eapply good_ruin; eauto].
    destruct (own o') as [d'|] eqn:OW; [injection H as <- <-; apply good_note; [exact G|quieter]|].
    destruct att; injection H as <- <-; [|apply good_note; [exact G|quieter]].
    rewrite (set_own_objs _ (target c x o) o') by exact T. cbn [objs used outs fresh pend nops ub set_outs].
    apply (good_change _ s es); auto; try reflexivity; try fin; try nomove.
    + apply (free_closed c s es _ G). intros d' (r & E). rewrite T in E. injection E as ->. discriminate OW.
    + intro d'. exact (B0 d' 0).
    + intro d'. rewrite OW. shape. cbn [opt]. rewrite (cnt_remove d (outs s) (outs_one s es d G MD) d'), ?cnt_nil. lia.
  - destruct (objs s x) as [o|] eqn:O; [|discriminate]. injection H as H.
    unfold release in H. destruct (objs s (target c x o)) as [o'|] eqn:T; [|eapply good_ruin; eauto].
    destruct (own o') as [d|] eqn:OW; [|injection H as <- <-; apply good_note; [exact G|quieter]].
    destruct (abort (target c x o) s) as [s1 e1] eqn:A. injection H as <- <-.
    destruct (good_abort c s es _ s1 e1 G A) as (G1 & FR & A1 & A2 & A3 & A4 & A5).
    assert (objs s1 (target c x o) = Some o') as O1 by congruence. rewrite (set_own_objs s1 _ _ None O1). cbn [objs used outs fresh pend nops ub set_outs].
    rewrite app_assoc. apply (good_change _ s1 (es ++ e1)); auto; try reflexivity; try fin; try nomove.
    + intro d'. shape. rewrite cnt_nil. destruct (Nat.leb_spec (fresh s1) d'), (Nat.ltb_spec d' (fresh s1)); cbn; lia.
    + intro d'. rewrite OW. shape. cbn [opt]. rewrite (cnt_cons d' d (outs s1)), ?cnt_nil. lia.
  - destruct (objs s x) as [o|] eqn:O; [|discriminate]. destruct (objs s (target c x o)) as [o'|] eqn:T; [|injection H as <- <-; exact (good_ruin s es _ _ G eq_refl)].
    destruct (shut (target c x o) s) as [s1 e1] eqn:A. injection H as <- <-. rewrite app_assoc. apply good_note; [|quieter].
    exact (proj1 (good_shut s es _ s1 e1 G A)).
  - destruct (objs s x) as [o|] eqn:O; [|discriminate]. destruct (objs s (target c x o)) as [o'|] eqn:T; [|injection H as <- <-; exact (good_ruin s es _ _ G eq_refl)].
    destruct c; [|injection H as <- <-; apply good_note; [exact G|quieter]].
    destruct (abort (target HasFile x o) s) as [s1 e1] eqn:A. injection H as <- <-. rewrite app_assoc. apply good_note; [|quieter].
    exact (proj1 (good_abort HasFile s es _ s1 e1 G A)).
  - destruct (objs s x) as [o|] eqn:O; [|discriminate]. destruct (objs s (target c x o)) as [o'|] eqn:T; [|injection H as <- <-; exact (good_ruin s es _ _ G eq_refl)].
    injection H as <- <-. apply good_note; [exact G|quieter].
  - destruct (mem y (used s)) eqn:M; [discriminate|]. destruct (objs s x) as [o|] eqn:O; [|discriminate]. injection H as <- <-. apply mem_out in M.
    assert (In x (used s)) as IX by (apply (g_used _ _ _ G); congruence). assert (x <> y) as XY by (intros ->; contradiction).
    destruct G. constructor; cbn [objs used outs fresh pend nops].
    + constructor; auto.
    + intros z Z. destruct (Nat.eq_dec z y) as [->|N]; [now left|]. rewrite upd_other in Z by auto. right. destruct (Nat.eq_dec z x) as [->|N']; [exact IX|]. rewrite upd_other in Z by auto. auto.
    + intros z o' Z. destruct (Nat.eq_dec z y) as [->|N].
      * rewrite upd_same in Z. injection Z as <-. destruct (g_ref x o O) as [P Q]. destruct c; cbn [ref].
        -- split; [now right|]. split; [intros E; rewrite E in P; contradiction|]. intros [E|E]; [discriminate|]. exfalso. apply E. exists x. apply in_or_app. right. now left.
        -- split; [now left|]. split; auto.
      * rewrite upd_other in Z by auto.
        assert (forall z, z <> y -> (moved (es ++ [EMove x y]) z <-> moved es z)) as MV.
        { intros w W. unfold moved. split; intros (q & K); exists q; [apply in_app_or in K; destruct K as [K|[K|[]]]; [exact K|congruence]|apply in_or_app; auto]. }
        rewrite (MV z N). destruct (Nat.eq_dec z x) as [->|N'].
        -- rewrite upd_same in Z. injection Z as <-. cbn [ref]. destruct (g_ref x o O) as [P Q]. split; [now right|exact Q].
        -- rewrite upd_other in Z by auto. destruct (g_ref z o' Z) as [P Q]. split; [now right|exact Q].
    + intros a b K. apply in_app_or in K. destruct K as [K|[K|[]]]; [right; eauto|injection K as <- <-; now left].
    + intro d. rewrite born_app. shape. rewrite app_nil_r. auto.
    + intro d. rewrite born_app, closed_app, lost_app by auto. shape. rewrite !app_nil_r. rewrite g_sum. f_equal.
      match goal with |- _ = cnt d (owned ?f (y :: used s)) => change (owned f (y :: used s)) with (at_ f y ++ owned f (used s)); set (F := f) end.
      rewrite cnt_app. assert (at_ F y = opt (own o)) as -> by (unfold at_, F; now rewrite upd_same).
      rewrite (owned_ext F (upd (objs s) x (Some (mko None (ref o))))) by (intros z Z; unfold F; apply upd_other; intros ->; contradiction).
      pose proof (owned_upd d (objs s) (used s) x (Some (mko None (ref o))) g_nd IX) as Q. cbn [own opt] in Q.
      assert (at_ (objs s) x = opt (own o)) as AT by (unfold at_; now rewrite O). rewrite AT, cnt_nil in Q. lia.
    + apply fine_app; [auto|fin].
    + intro i. rewrite started_app. shape. rewrite app_nil_r. auto.
    + intro i. rewrite started_app, ended_app. shape. rewrite !app_nil_r, g_end. f_equal. rewrite map_map. f_equal. apply map_ext. intros [a b]. cbn. destruct (b =? x); reflexivity.
    + intros i z K. apply in_map_iff in K as ([a b] & E & K). cbn in E. destruct (g_pend a b K) as (w & d & P & (r & Q)).
      exists w, d. assert (i = a) as -> by (destruct (b =? x); injection E as <- <-; reflexivity). split; [apply in_or_app; auto|].
      destruct (Nat.eqb_spec b x) as [EB|N]; [subst b|]; injection E as <-.
      * rewrite O in Q. injection Q as Q. exists (match c with HasFile => ref o | Fallback => y end). cbn. rewrite upd_same, Q. reflexivity.
      * exists r. cbn. rewrite !upd_other; auto. intros ->. apply M. apply g_used. congruence.
  - destruct (objs s x) as [o|] eqn:O; [|discriminate]. destruct (shut x s) as [s1 e1] eqn:A. injection H as <- <-.
    destruct (good_shut s es x s1 e1 G A) as (G1 & NH & A1 & A2 & A3).
    assert (free_of x s1) as FR by (eapply free_closed; eauto).
    destruct G1. constructor; cbn [objs used outs fresh pend nops]; auto.
    + intros y Y. destruct (Nat.eq_dec y x) as [->|N]; [rewrite upd_same in Y; congruence|rewrite upd_other in Y by auto; auto].
    + intros y o' Y. destruct (Nat.eq_dec y x) as [->|N]; [rewrite upd_same in Y; discriminate|rewrite upd_other in Y by auto; auto].
    + intro d. assert (In x (used s1)) as IX by (apply g_used; rewrite A2; congruence).
      pose proof (owned_upd d (objs s1) (used s1) x None g_nd IX) as Q.
      assert (at_ (objs s1) x = []) as AT.
      { unfold at_. destruct (objs s1 x) as [[[d'|] r]|] eqn:X; try reflexivity. exfalso. apply (NH d'). exists r. exact X. }
      rewrite AT, cnt_nil in Q. rewrite g_sum. lia.
    + intros i y K. destruct (g_pend i y K) as (z & d & P & (r & Q)). exists z, d. split; [auto|]. exists r. cbn. rewrite upd_other; [exact Q|]. intros ->. exact (FR i K).
  - destruct (objs s x) as [[[d|] r]|] eqn:O; [| |discriminate]; injection H as <- <-.
    + destruct G. constructor; cbn [objs used outs fresh pend nops]; auto.
      * intros y o' Y. rewrite moved_app by nomove. auto.
      * intros a b K. apply in_app_or in K. destruct K as [K|[K|[]]]; [eauto|discriminate K].
      * intro d'. rewrite born_app. shape. rewrite app_nil_r. auto.
      * intro d'. rewrite born_app, closed_app, lost_app by auto. shape. rewrite !app_nil_r. auto.
      * apply fine_app; [auto|fin].
      * intro i. rewrite started_app, cnt_app, g_ops. shape. rewrite cnt_one. destruct (Nat.ltb_spec i (nops s)), (Nat.ltb_spec i (S (nops s))), (Nat.eqb_spec (nops s) i); lia.
      * intro i. rewrite started_app, ended_app, map_app, !cnt_app, g_end. shape. cbn [map fst]. rewrite cnt_nil. lia.
      * intros i y K. apply in_app_or in K. destruct K as [K|[K|[]]].
        -- destruct (g_pend i y K) as (z & d' & P & Q). exists z, d'. split; [apply in_or_app; auto|auto].
        -- injection K as <- <-. exists x, d. split; [apply in_or_app; right; now left|]. exists r. exact O.
    + destruct G. constructor; cbn [objs used outs fresh pend nops]; auto.
      * intros y o' Y. rewrite moved_app by nomove. auto.
      * intros a b K. apply in_app_or in K. destruct K as [K|[K|[]]]; [eauto|discriminate K].
      * intro d'. rewrite born_app. shape. rewrite app_nil_r. auto.
      * intro d'. rewrite born_app, closed_app, lost_app by auto. shape. rewrite !app_nil_r. auto.
      * apply fine_app; [auto|fin].
      * intro i. rewrite started_app, cnt_app, g_ops. shape. rewrite cnt_one. destruct (Nat.ltb_spec i (nops s)), (Nat.ltb_spec i (S (nops s))), (Nat.eqb_spec (nops s) i); lia.
      * intro i. rewrite started_app, ended_app, !cnt_app, g_end. shape. lia.
      * intros i y K. destruct (g_pend i y K) as (z & d' & P & Q). exists z, d'. split; [apply in_or_app; auto|auto].
  - destruct (existsb (fun p => fst p =? i) (pend s)) eqn:EX; [|discriminate]. injection H as <- <-.
    apply existsb_exists in EX as ([a b] & K & E). cbn in E. apply Nat.eqb_eq in E as ->.
    destruct G. constructor; cbn [objs used outs fresh pend nops]; auto.
    + intros y o' Y. rewrite moved_app by nomove. auto.
    + intros a' b' K'. apply in_app_or in K'. destruct K' as [K'|[K'|[]]]; [eauto|discriminate K'].
    + intro d'. rewrite born_app. shape. rewrite app_nil_r. auto.
    + intro d'. rewrite born_app, closed_app, lost_app by auto. shape. rewrite !app_nil_r. auto.
    + apply fine_app; [auto|fin].
    + intro j. rewrite started_app. shape. rewrite app_nil_r. auto.
    + intro j. rewrite started_app, ended_app, !cnt_app. shape. rewrite cnt_one, cnt_nil.
      pose proof (split_cnt (fun p => fst p =? i) (pend s) j) as SP. pose proof (g_end j) as EJ. pose proof (g_ops j) as OJ.
      assert (In i (map fst (filter (fun p => fst p =? i) (pend s)))) as II.
      { apply in_map_iff. exists (i, b). split; [reflexivity|]. apply filter_In. split; [exact K|cbn; apply Nat.eqb_refl]. }
      apply cnt_in in II. destruct (Nat.eqb_spec i j) as [->|N].
      * destruct (j <? nops s); lia.
      * assert (cnt j (map fst (filter (fun p => fst p =? i) (pend s))) = 0) as Z; [|lia].
        destruct (cnt j (map fst (filter (fun p => fst p =? i) (pend s)))) eqn:Z; [reflexivity|].
        assert (In j (map fst (filter (fun p => fst p =? i) (pend s)))) as J by (apply cnt_in; lia).
        apply in_map_iff in J as ([u v] & E & J). apply filter_In in J as [_ J]. cbn in *. apply Nat.eqb_eq in J. congruence.
    + intros j y K'. apply filter_In in K' as [K' _]. destruct (g_pend j y K') as (z & d' & P & Q). exists z, d'. split; [apply in_or_app; auto|auto].
Qed.

Theorem good_run : forall ls s es, run c ls init = Some (s, es) -> good c s es.
Proof. apply hist_ind; [apply good_init|]. intros. eapply good_step; eauto. Qed.
End good.
