(** C88: file objects and their descriptors *)
From Coq Require Import List Bool Arith Lia Permutation.
From Verif Require Import Fob_Model Fob_Spec Fob_Inv Fob_Good.
Import ListNotations.

Definition live (s : state) (x : nat) : Prop := objs s x <> None.
Definition waiting (s : state) (x i : nat) : Prop := In (i, x) (pend s).

Lemma has_cnt : forall c s es x d, good c s es -> has s x d -> cnt d (owned (objs s) (used s)) >= 1.
Proof.
  intros c s es x d G H. apply cnt_in. apply owned_has. exists x. split; [|exact H]. destruct H as (r & H). apply (g_used _ _ _ G). congruence.
Qed.
Lemma has_one : forall c s es x y d, good c s es -> has s x d -> has s y d -> x = y.
Proof.
  intros c s es x y d G X Y. destruct (Nat.eq_dec x y) as [E|N]; [exact E|]. exfalso.
  assert (forall z, has s z d -> In z (used s) /\ In d (at_ (objs s) z)) as K.
  { intros z (r & Z). split; [apply (g_used _ _ _ G); congruence|unfold at_; rewrite Z; now left]. }
  destruct (K x X), (K y Y). pose proof (owned_two (objs s) (used s) x y d N H H1 H0 H2).
  pose proof (g_sum _ _ _ G d). pose proof (g_born _ _ _ G d). destruct (d <? fresh s); lia.
Qed.

(** every descriptor that came into being is in exactly one place: closed once, lost, with the program, or in exactly one object *)
Theorem C88_descriptors : forall c ls s es, run c ls init = Some (s, es) ->
  NoDup (closed es) /\
  (forall d, In d (born es) <-> (In d (closed es) \/ In d (lost es) \/ In d (outs s) \/ exists x, has s x d)) /\
  (forall d, In d (closed es) -> ~ In d (lost es) /\ ~ In d (outs s) /\ forall x, ~ has s x d) /\
  (forall d, In d (lost es) -> ~ In d (outs s) /\ forall x, ~ has s x d) /\
  (forall d, In d (outs s) -> forall x, ~ has s x d) /\
  (forall x y d, has s x d -> has s y d -> x = y).
Proof.
  intros c ls s es H. apply good_run in H.
  assert (forall d, cnt d (closed es) + cnt d (lost es) + cnt d (outs s) + cnt d (owned (objs s) (used s)) <= 1) as LE.
  { intro d. pose proof (g_sum _ _ _ H d). pose proof (g_born _ _ _ H d). destruct (d <? fresh s); lia. }
  split; [apply cnt_nodup; intro d; specialize (LE d); lia|]. split.
  - intro d. split.
    + intro K. apply cnt_in in K. rewrite (g_sum _ _ _ H d) in K.
      destruct (cnt d (closed es)) eqn:A; [|left; apply cnt_in; lia]. right.
      destruct (cnt d (lost es)) eqn:B; [|left; apply cnt_in; lia]. right.
      destruct (cnt d (outs s)) eqn:C; [|left; apply cnt_in; lia]. right.
      assert (In d (owned (objs s) (used s))) as O by (apply cnt_in; lia). apply owned_has in O as (x & _ & O). eauto.
    + intro K. apply cnt_in. rewrite (g_sum _ _ _ H d). destruct K as [K|[K|[K|(x & K)]]]; [apply cnt_in in K; lia..|].
      pose proof (has_cnt _ _ _ _ _ H K). lia.
  - repeat split; intros.
    + intro K. apply cnt_in in K. apply cnt_in in H0. specialize (LE d). lia.
    + intro K. apply cnt_in in K. apply cnt_in in H0. specialize (LE d). lia.
    + intro K. apply (has_cnt _ _ _ _ _ H) in K. apply cnt_in in H0. specialize (LE d). lia.
    + intro K. apply cnt_in in K. apply cnt_in in H0. specialize (LE d). lia.
    + intro K. apply (has_cnt _ _ _ _ _ H) in K. apply cnt_in in H0. specialize (LE d). lia.
    + intro K. apply (has_cnt _ _ _ _ _ H) in K. apply cnt_in in H0. specialize (LE d). lia.
    + eapply has_one; eauto.
Qed.
Print Assumptions C88_descriptors.

(** with BOOST_ASIO_HAS_FILE nothing is lost; without objects and without descriptors of the program all are closed *)
Lemma abort_lost : forall t s s' e, abort t s = (s', e) -> lost e = [] /\ fine e.
Proof. intros t s s' e H. injection H as <- <-. destruct (ends_shape (filter (fun p => snd p =? t) (pend s))) as (_ & _ & A & _ & _ & F & _). auto. Qed.
Lemma shut_lost : forall t s s' e, shut t s = (s', e) -> lost e = [] /\ fine e.
Proof.
  intros t s s' e H. unfold shut in H. destruct (objs s t) as [[[d|] r]|]; [|injection H as <- <-; split; [reflexivity|apply fine_nil]..].
  destruct (abort t s) as [s1 e1] eqn:A. injection H as <- <-. destruct (abort_lost _ _ _ _ A) as [B F]. split; [rewrite lost_app, B by exact F; reflexivity|apply fine_app; [exact F|fin]].
Qed.
Lemma step_lost : forall l s s' e, step HasFile l s = Some (s', e) -> lost e = [].
Proof.
  intros l s s' e H. unfold step in H. destruct (ub s); [discriminate|].
  destruct l; cbn [exec] in H; unfold open, assign, release, ruin in H;
  repeat match type of H with
    | Some (let '(_, _) := shut ?t ?u in _) = _ => destruct (shut t u) eqn:?
    | (let '(_, _) := shut ?t ?u in _) = _ => destruct (shut t u) eqn:?
    | (let '(_, _) := abort ?t ?u in _) = _ => destruct (abort t u) eqn:?
    | Some (let '(_, _) := abort ?t ?u in _) = _ => destruct (abort t u) eqn:?
    | context [match ?x with _ => _ end] => destruct x eqn:?
    end; try discriminate; try (injection H as <- <-); try reflexivity;
  repeat match goal with
    | A : abort _ _ = (_, ?e) |- _ => apply abort_lost in A as [? ?]
    | A : shut _ _ = (_, ?e) |- _ => apply shut_lost in A as [? ?]
    end; rewrite ?lost_app by assumption; cbn; rewrite ?app_nil_r; auto.
Qed.

Lemma nothing_lost : forall ls s es, run HasFile ls init = Some (s, es) -> lost es = [].
Proof.
  intros ls s es H. assert (good HasFile s es /\ lost es = []) as [_ A]; [|exact A]. revert ls s es H. apply hist_ind.
  - split; [apply good_init|reflexivity].
  - intros l s es s' e [G L] St. split; [eapply good_step; eauto|]. rewrite lost_app by exact (g_fine _ _ _ G). rewrite L, (step_lost l s s' e St). reflexivity.
Qed.

Theorem C88_no_leak_partial : forall ls s es, run HasFile ls init = Some (s, es) ->
  lost es = [] /\ ((forall x, ~ live s x) -> outs s = [] -> forall d, In d (born es) -> In d (closed es)).
Proof.
  intros ls s es H. split; [eapply nothing_lost; eauto|]. intros N O d B.
  destruct (C88_descriptors _ _ _ _ H) as (_ & P & _). apply P in B as [B|[B|[B|(x & r & B)]]]; [exact B| | |].
  - rewrite (nothing_lost _ _ _ H) in B. destruct B.
  - rewrite O in B. destruct B.
  - exfalso. apply (N x). unfold live. congruence.
Qed.
Print Assumptions C88_no_leak_partial.

(** without BOOST_ASIO_HAS_FILE open() of an open file leaves a descriptor that nobody can ever close *)
Theorem C88_leak_refuted : forall ls s es x d att, run Fallback ls init = Some (s, es) -> ub s = false -> has s x d ->
  exists s' d', step Fallback (LOpen x true att) s = Some (s', [ECreate d'; EErr x]) /\ ~ In d' (born es) /\
  forall ls' s'' es', run Fallback ls' s' = Some (s'', es') ->
    ~ In d' (closed (es ++ [ECreate d'; EErr x] ++ es')) /\ ~ In d' (outs s'') /\ forall y, ~ has s'' y d'.
Proof.
  intros ls s es x d att H U (r & O). exists (next_fd s), (fresh s).
  assert (step Fallback (LOpen x true att) s = Some (next_fd s, [ECreate (fresh s); EErr x])) as St.
  { unfold step. rewrite U. cbn [exec]. rewrite O. unfold open. cbn [target]. rewrite O. reflexivity. }
  pose proof (good_run _ _ _ _ H) as G. split; [exact St|]. split.
  - intro K. apply cnt_in in K. rewrite (g_born _ _ _ G), Nat.ltb_irrefl in K. lia.
  - intros ls' s'' es' R. assert (run Fallback (ls ++ LOpen x true att :: ls') init = Some (s'', es ++ [ECreate (fresh s); EErr x] ++ es')) as RR.
    { rewrite run_app, H. cbn [run]. rewrite St, R. reflexivity. }
    destruct (C88_descriptors _ _ _ _ RR) as (_ & _ & CL & P & _).
    assert (In (fresh s) (lost (es ++ [ECreate (fresh s); EErr x] ++ es'))) as L.
    { rewrite lost_app by exact (g_fine _ _ _ G). apply in_or_app. right. cbn. now left. }
    destruct (P _ L) as [A B]. split; [|split; auto]. intro K. destruct (CL _ K). contradiction.
Qed.
Print Assumptions C88_leak_refuted.

Lemma own_target : forall c s es x o, good c s es -> (c = Fallback \/ ~ moved es x) -> objs s x = Some o -> target c x o = x.
Proof. intros c s es x o G M O. unfold target. destruct c; [|reflexivity]. apply (g_ref _ _ _ G x o O). exact M. Qed.

Lemma shut_spec : forall c s es t s' e, good c s es -> shut t s = (s', e) ->
  (forall d, has s t d -> closed e = [d]) /\ ((forall d, ~ has s t d) -> s' = s /\ e = []) /\
  (forall d, ~ has s' t d) /\ (forall y d, y <> t -> (has s' y d <-> has s y d)) /\
  (forall i, ~ waiting s' t i) /\ (forall i, waiting s t i -> In (EEnd i Aborted) e) /\
  (forall y i, y <> t -> (waiting s' y i <-> waiting s y i)) /\ outs s' = outs s /\ (forall y, live s' y <-> live s y).
Proof.
  intros c s es t s' e G H. pose proof (good_shut c s es t s' e G H) as (G' & N & U & L & B).
  unfold shut in H. destruct (objs s t) as [[[d|] r]|] eqn:O.
  - destruct (abort t s) as [s1 e1] eqn:A. injection H as <- <-. pose proof A as A'. injection A' as A1 A2.
    assert (objs s1 t = Some (mko (Some d) r)) as O1 by (rewrite <- A1; exact O). rewrite (set_own_objs s1 t _ None O1) in *. cbn [ref].
    assert (closed e1 = []) as C1 by (rewrite <- A2; apply (ends_shape (filter (fun p => snd p =? t) (pend s)))).
    split; [|split; [|split; [|split; [|split; [|split; [|split; [|split]]]]]]].
    + intros d' (r' & E). rewrite O in E. injection E as -> ->. rewrite closed_app, C1. reflexivity.
    + intro K. exfalso. apply (K d). exists r. exact O.
    + intros d' (r' & E). cbn in E. rewrite upd_same in E. discriminate.
    + intros y d' Y. unfold has. cbn [objs]. rewrite upd_other by auto. rewrite <- A1. reflexivity.
    + intros i K. unfold waiting in K. cbn [pend] in K. rewrite <- A1 in K. cbn [pend] in K. apply filter_In in K as [_ K]. cbn in K. rewrite Nat.eqb_refl in K. discriminate.
    + intros i K. apply in_or_app. left. rewrite <- A2. apply in_map_iff. exists (i, t). split; [reflexivity|]. apply filter_In. split; [exact K|apply Nat.eqb_refl].
    + intros y i Y. unfold waiting. cbn [pend]. rewrite <- A1. cbn [pend]. rewrite filter_In. cbn. destruct (Nat.eqb_spec y t); [contradiction|]. intuition.
    + cbn [outs]. rewrite <- A1. reflexivity.
    + intro y. unfold live. rewrite (L y). reflexivity.
  - injection H as <- <-. repeat split; auto; intros.
    + destruct H as (r' & E). rewrite O in E. discriminate.
    + intro K. apply (g_pend _ _ _ G) in K as (? & d & _ & K). exact (N d K).
    + apply (g_pend _ _ _ G) in H as (? & d & _ & K). destruct (N d K).
  - injection H as <- <-. repeat split; auto; intros.
    + destruct H as (r' & E). rewrite O in E. discriminate.
    + intro K. apply (g_pend _ _ _ G) in K as (? & d & _ & K). exact (N d K).
    + apply (g_pend _ _ _ G) in H as (? & d & _ & K). destruct (N d K).
Qed.

(** functions of an object that was not made by moving act on its own file *)
Theorem C88_acts_partial : forall c ls s es x, run c ls init = Some (s, es) -> ub s = false -> live s x -> (c = Fallback \/ ~ moved es x) ->
  (forall d, has s x d -> step c (LQuery x) s = Some (s, [EAct x (Some d)])) /\
  ((forall d, ~ has s x d) -> step c (LQuery x) s = Some (s, [EAct x None])) /\
  exists s' e, step c (LClose x) s = Some (s', e ++ [EOk x]) /\
    (forall d, has s x d -> closed e = [d]) /\ ((forall d, ~ has s x d) -> s' = s /\ e = []) /\ (forall d, ~ has s' x d) /\
    (forall y d, y <> x -> (has s' y d <-> has s y d)) /\
    (forall i, ~ waiting s' x i) /\ (forall i, waiting s x i -> In (EEnd i Aborted) e) /\
    (forall y i, y <> x -> (waiting s' y i <-> waiting s y i)) /\ outs s' = outs s /\ (forall y, live s' y <-> live s y).
Proof.
  intros c ls s es x H U L M. apply good_run in H. destruct (objs s x) as [o|] eqn:O; [|contradiction (L O)].
  pose proof (own_target c s es x o H M O) as T. split; [|split].
  - intros d (r & E). rewrite O in E. injection E as ->. unfold step. rewrite U. cbn [exec]. rewrite O, T, O. reflexivity.
  - intros N. unfold step. rewrite U. cbn [exec]. rewrite O, T, O. destruct o as [[d|] r]; [exfalso; apply (N d); exists r; exact O|reflexivity].
  - destruct (shut x s) as [s' e] eqn:A. exists s', e. split; [unfold step; rewrite U; cbn [exec]; rewrite O, T, O, A; reflexivity|].
    eapply shut_spec; eauto.
Qed.
Print Assumptions C88_acts_partial.

(** release hands the descriptor to the program and leaves the file closed *)
Theorem C88_release_partial : forall c ls s es x d, run c ls init = Some (s, es) -> ub s = false -> (c = Fallback \/ ~ moved es x) -> has s x d ->
  exists s' e, step c (LRelease x) s = Some (s', e ++ [EGet x (Some d)]) /\ closed e = [] /\ outs s' = d :: outs s /\ (forall d', ~ has s' x d') /\
    (forall i, ~ waiting s' x i) /\ (forall i, waiting s x i -> In (EEnd i Aborted) e) /\ live s' x /\
    (forall y d', y <> x -> (has s' y d' <-> has s y d')).
Proof.
  intros c ls s es x d H U M (r & O). apply good_run in H. pose proof (own_target c s es x _ H M O) as T.
  destruct (abort x s) as [s1 e1] eqn:A. pose proof A as A'. injection A' as A1 A2.
  assert (objs s1 x = Some (mko (Some d) r)) as O1 by (rewrite <- A1; exact O).
  exists (set_outs (d :: outs s1) (set_own x None s1)), e1. rewrite (set_own_objs s1 x _ None O1). cbn [ref].
  split; [unfold step; rewrite U; cbn [exec]; rewrite O, T; unfold release; rewrite O; cbn [own]; rewrite A, (set_own_objs s1 x _ None O1); reflexivity|].
  split; [rewrite <- A2; apply (ends_shape (filter (fun p => snd p =? x) (pend s)))|].
  split; [rewrite <- A1; reflexivity|]. split; [intros d' (r' & E); cbn in E; rewrite upd_same in E; discriminate|].
  split; [|split; [|split]].
  - intros i K. unfold waiting in K. rewrite <- A1 in K. cbn [pend set_outs] in K. apply filter_In in K as [_ K]. cbn in K. rewrite Nat.eqb_refl in K. discriminate.
  - intros i K. rewrite <- A2. apply in_map_iff. exists (i, x). split; [reflexivity|]. apply filter_In. split; [exact K|apply Nat.eqb_refl].
  - unfold live. cbn. rewrite upd_same. discriminate.
  - intros y d' Y. unfold has. cbn. rewrite upd_other by auto. rewrite <- A1. reflexivity.
Qed.
Print Assumptions C88_release_partial.

(** assign takes the descriptor when it succeeds and leaves it to the program when it fails *)
Theorem C88_assign_partial : forall c ls s es x d att, run c ls init = Some (s, es) -> ub s = false -> live s x -> (c = Fallback \/ ~ moved es x) -> In d (outs s) ->
  exists s' e, step c (LAssign x d att) s = Some (s', e) /\
    ((e = [EErr x] /\ s' = s /\ (att = false \/ exists d', has s x d')) \/
     (e = [EGive x d; EOk x] /\ att = true /\ (forall d', ~ has s x d') /\ has s' x d /\ ~ In d (outs s') /\
      (forall d', d' <> d -> (In d' (outs s') <-> In d' (outs s))) /\ (forall y d', y <> x -> (has s' y d' <-> has s y d')))).
Proof.
  intros c ls s es x d att H U L M I. apply good_run in H. destruct (objs s x) as [o|] eqn:O; [|contradiction (L O)].
  pose proof (own_target c s es x o H M O) as T. unfold step. rewrite U. cbn [exec]. rewrite O, T. assert (mem d (outs s) = true) as -> by now apply mem_in.
  unfold assign. rewrite O. destruct o as [[d'|] r]; cbn [own].
  - exists s, [EErr x]. split; [reflexivity|]. left. repeat split; auto. right. exists d', r. exact O.
  - destruct att; [|exists s, [EErr x]; split; [reflexivity|]; left; auto].
    eexists _, _. split; [reflexivity|]. right. rewrite (set_own_objs (set_outs (remove_fd d (outs s)) s) x _ (Some d) O). cbn [outs set_outs ref].
    split; [reflexivity|]. split; [reflexivity|]. split; [intros d' (r' & E); rewrite O in E; discriminate|].
    split; [exists r; cbn; apply upd_same|]. split; [|split].
    + intro K. apply filter_In in K as [_ K]. rewrite Nat.eqb_refl in K. discriminate.
    + intros d' N. unfold remove_fd. rewrite filter_In. destruct (Nat.eqb_spec d' d); [contradiction|]. cbn. intuition.
    + intros y d' Y. unfold has. cbn. rewrite upd_other by auto. reflexivity.
Qed.
Print Assumptions C88_assign_partial.

(** with BOOST_ASIO_HAS_FILE open() of such an object opens a new descriptor or leaves everything closed *)
Theorem C88_open_partial : forall ls s es x sys att, run HasFile ls init = Some (s, es) -> ub s = false -> live s x -> ~ moved es x ->
  exists s' e, step HasFile (LOpen x sys att) s = Some (s', e) /\
    ((exists d, e = [ECreate d; EOk x] /\ ~ In d (born es) /\ has s' x d /\ sys = true /\ att = true /\ (forall d', ~ has s x d') /\
        forall y d', y <> x -> (has s' y d' <-> has s y d')) \/
     ((forall y d, has s' y d <-> has s y d) /\ outs s' = outs s /\ In (EErr x) e /\ ~ In (EOk x) e /\ (forall d, In d (born e) -> In d (closed e)))).
Proof.
  intros ls s es x sys att H U L M. apply good_run in H. destruct (objs s x) as [o|] eqn:O; [|contradiction (L O)].
  pose proof (own_target HasFile s es x o H (or_intror M) O) as T. unfold step. rewrite U. cbn [exec]. rewrite O, T. unfold open. rewrite O.
  destruct o as [[d'|] r]; cbn [own].
  - eexists _, _. split; [reflexivity|]. right. split; [reflexivity|]. split; [reflexivity|]. split; [now left|]. split; [intros [K|[]]; discriminate K|intros d []].
  - destruct sys; [|eexists _, _; split; [reflexivity|]; right; split; [reflexivity|]; split; [reflexivity|]; split; [now left|]; split; [intros [K|[]]; discriminate K|intros d []]].
    destruct att.
    + eexists _, _. split; [reflexivity|]. left. exists (fresh s). rewrite (set_own_objs (next_fd s) x _ (Some (fresh s)) O). cbn [ref].
      split; [reflexivity|]. split; [intro K; apply cnt_in in K; rewrite (g_born _ _ _ H), Nat.ltb_irrefl in K; lia|].
      split; [exists r; cbn; apply upd_same|]. split; [reflexivity|]. split; [reflexivity|]. split; [intros d' (r' & E); rewrite O in E; discriminate|].
      intros y d' Y. unfold has. cbn. rewrite upd_other by auto. reflexivity.
    + eexists _, _. split; [reflexivity|]. right. split; [reflexivity|]. split; [reflexivity|]. split; [cbn; auto|]. split; [intros [K|[K|[K|[]]]]; discriminate K|intros d K; exact K].
Qed.
Print Assumptions C88_open_partial.

(** in both configurations open() reports what it did, and one that fails changes neither objects nor the program's descriptors *)
Theorem C88_open_result_partial : forall c ls s es x sys att, run c ls init = Some (s, es) -> ub s = false -> live s x -> (c = Fallback \/ ~ moved es x) ->
  exists s' e, step c (LOpen x sys att) s = Some (s', e) /\ outs s' = outs s /\ (forall y d, y <> x -> (has s' y d <-> has s y d)) /\
    ((sys = true /\ att = true /\ (forall d, ~ has s x d) /\ exists d, e = [ECreate d; EOk x] /\ ~ In d (born es) /\ has s' x d) \/
     ((sys = false \/ att = false \/ exists d, has s x d) /\ In (EErr x) e /\ ~ In (EOk x) e /\ forall d, has s' x d <-> has s x d)).
Proof.
  intros c ls s es x sys att H U L M. apply good_run in H. destruct (objs s x) as [o|] eqn:O; [|contradiction (L O)].
  pose proof (own_target c s es x o H M O) as T. unfold step. rewrite U. cbn [exec]. rewrite O, T. unfold open. rewrite O.
  assert (own o = None -> forall d, ~ has s x d) as NO by (intros N d (r & E); rewrite O in E; injection E as ->; discriminate N).
  assert (own o = None -> exists s' e, Some (set_own x (Some (fresh s)) (next_fd s), [ECreate (fresh s); EOk x]) = Some (s', e) /\ outs s' = outs s /\ (forall y d, y <> x -> (has s' y d <-> has s y d)) /\
    ((true = true /\ true = true /\ (forall d, ~ has s x d) /\ exists d, e = [ECreate d; EOk x] /\ ~ In d (born es) /\ has s' x d) \/
     ((true = false \/ true = false \/ exists d, has s x d) /\ In (EErr x) e /\ ~ In (EOk x) e /\ forall d, has s' x d <-> has s x d))) as YES.
  { intro N. rewrite (set_own_objs (next_fd s) x o) by exact O. eexists _, _. split; [reflexivity|]. split; [reflexivity|].
    split; [intros y d Y; unfold has; cbn; rewrite upd_other by auto; reflexivity|]. left. split; [reflexivity|]. split; [reflexivity|]. split; [auto|]. exists (fresh s).
    split; [reflexivity|]. split; [intro K; apply cnt_in in K; rewrite (g_born _ _ _ H), Nat.ltb_irrefl in K; lia|]. exists (ref o). cbn. apply upd_same. }
  assert (forall s' e, (sys = false \/ att = false \/ exists d, has s x d) -> objs s' = objs s -> outs s' = outs s -> In (EErr x) e -> ~ In (EOk x) e ->
    exists s'' e', Some (s', e) = Some (s'', e') /\ outs s'' = outs s /\ (forall y d, y <> x -> (has s'' y d <-> has s y d)) /\
    ((sys = true /\ att = true /\ (forall d, ~ has s x d) /\ exists d, e' = [ECreate d; EOk x] /\ ~ In d (born es) /\ has s'' x d) \/
     ((sys = false \/ att = false \/ exists d, has s x d) /\ In (EErr x) e' /\ ~ In (EOk x) e' /\ forall d, has s'' x d <-> has s x d))) as FAIL.
  { intros s' e W EO OU I N. exists s', e. split; [reflexivity|]. split; [exact OU|]. split; [intros; unfold has; rewrite EO; reflexivity|]. right. split; [exact W|]. split; [exact I|]. split; [exact N|]. intro d. unfold has. rewrite EO. reflexivity. }
  assert (forall d, own o = Some d -> exists d, has s x d) as HAS by (intros d OW; exists d, (ref o); rewrite O; destruct o; cbn in *; now subst).
  destruct c, (own o) as [d|] eqn:OW, sys, att; try (now apply YES);
  (apply FAIL; [eauto|reflexivity|reflexivity|cbn; auto|cbn; intuition discriminate]).
Qed.
Print Assumptions C88_open_result_partial.

(** a constructor makes an object with the descriptor, or throws and makes none; one given to it then stays with the program *)
Theorem C88_construct : forall c ls s es x, run c ls init = Some (s, es) -> ub s = false -> ~ In x (used s) ->
  (exists s', step c (LNew x) s = Some (s', [EOk x]) /\ live s' x /\ (forall d, ~ has s' x d) /\ outs s' = outs s /\ forall y d, y <> x -> (has s' y d <-> has s y d)) /\
  (forall sys att, exists s' e, step c (LNewPath x sys att) s = Some (s', e) /\ outs s' = outs s /\ (forall y d, y <> x -> (has s' y d <-> has s y d)) /\
    ((sys && att = true /\ exists d, e = [ECreate d; EOk x] /\ ~ In d (born es) /\ has s' x d) \/
     (sys && att = false /\ In (EThrow x) e /\ ~ live s' x))) /\
  (forall d att, In d (outs s) -> exists s' e, step c (LNewFd x d att) s = Some (s', e) /\ (forall y d', y <> x -> (has s' y d' <-> has s y d')) /\
    ((att = true /\ e = [EGive x d; EOk x] /\ has s' x d /\ ~ In d (outs s') /\ forall d', d' <> d -> (In d' (outs s') <-> In d' (outs s))) \/
     (att = false /\ e = [EThrow x] /\ s' = s /\ ~ live s' x))).
Proof.
  intros c ls s es x H U N. apply good_run in H. assert (mem x (used s) = false) as M by now apply mem_out.
  assert (~ live s x) as NL by (intro L; apply N; apply (g_used _ _ _ H); exact L).
  assert (~ In (fresh s) (born es)) as NB by (intro K; apply cnt_in in K; rewrite (g_born _ _ _ H), Nat.ltb_irrefl in K; lia).
  assert (forall o s0 y d, y <> x -> objs s0 = objs s -> (has (add x o s0) y d <-> has s y d)) as OT by (intros o s0 y d Y E; unfold has; cbn; rewrite upd_other by auto; rewrite E; reflexivity).
  split; [|split].
  - eexists. split; [unfold step; rewrite U; cbn [exec]; rewrite M; reflexivity|]. split; [unfold live; cbn; rewrite upd_same; discriminate|].
    split; [intros d (r & E); cbn in E; rewrite upd_same in E; discriminate|]. split; [reflexivity|]. intros; apply OT; auto.
  - intros sys att. unfold step. rewrite U. cbn [exec]. rewrite M. destruct sys, att; cbn [andb].
    + exists (add x (mko (Some (fresh s)) x) (next_fd s)), [ECreate (fresh s); EOk x]. split; [destruct c; reflexivity|]. split; [reflexivity|]. split; [intros; apply OT; auto|].
      left. split; [reflexivity|]. exists (fresh s). split; [reflexivity|]. split; [exact NB|]. exists x. cbn. apply upd_same.
    + destruct c; (eexists _, _; split; [reflexivity|]; split; [reflexivity|]; split; [intros; reflexivity|]; right; split; [reflexivity|]; split; [cbn; auto|exact NL]).
    + exists s, [EThrow x]. split; [destruct c; reflexivity|]. split; [reflexivity|]. split; [intros; reflexivity|]. right. split; [reflexivity|]. split; [now left|exact NL].
    + exists s, [EThrow x]. split; [destruct c; reflexivity|]. split; [reflexivity|]. split; [intros; reflexivity|]. right. split; [reflexivity|]. split; [now left|exact NL].
  - intros d att I. unfold step. rewrite U. cbn [exec]. assert (mem d (outs s) = true) as MD by now apply mem_in. rewrite M, MD. cbn [orb negb].
    destruct att; eexists _, _; (split; [reflexivity|]); (split; [intros; try (apply OT; auto); reflexivity|]).
    + left. split; [reflexivity|]. split; [reflexivity|]. split; [exists x; cbn; apply upd_same|]. cbn [outs add set_outs]. split.
      * intro K. apply filter_In in K as [_ K]. rewrite Nat.eqb_refl in K. discriminate.
      * intros d' D. unfold remove_fd. rewrite filter_In. destruct (Nat.eqb_spec d' d); [contradiction|]. cbn. intuition.
    + right. auto.
Qed.
Print Assumptions C88_construct.

(** without BOOST_ASIO_HAS_FILE a constructor that throws as asio does not accept the descriptor leaks it *)
Theorem C88_construct_refuted : forall ls s es x, run Fallback ls init = Some (s, es) -> ub s = false -> ~ In x (used s) ->
  exists s' d', step Fallback (LNewPath x true false) s = Some (s', [ECreate d'; EThrow x]) /\
  forall ls' s'' es', run Fallback ls' s' = Some (s'', es') ->
    ~ In d' (closed (es ++ [ECreate d'; EThrow x] ++ es')) /\ ~ In d' (outs s'') /\ forall y, ~ has s'' y d'.
Proof.
  intros ls s es x H U N. exists (next_fd s), (fresh s). apply mem_out in N.
  assert (step Fallback (LNewPath x true false) s = Some (next_fd s, [ECreate (fresh s); EThrow x])) as St by (unfold step; rewrite U; cbn [exec]; rewrite N; reflexivity).
  pose proof (good_run _ _ _ _ H) as G. split; [exact St|].
  intros ls' s'' es' R. assert (run Fallback (ls ++ LNewPath x true false :: ls') init = Some (s'', es ++ [ECreate (fresh s); EThrow x] ++ es')) as RR.
  { rewrite run_app, H. cbn [run]. rewrite St, R. reflexivity. }
  destruct (C88_descriptors _ _ _ _ RR) as (_ & _ & CL & P & _).
  assert (In (fresh s) (lost (es ++ [ECreate (fresh s); EThrow x] ++ es'))) as L.
  { rewrite lost_app by exact (g_fine _ _ _ G). apply in_or_app. right. cbn. now left. }
  destruct (P _ L) as [A B]. split; [|split; auto]. intro K. destruct (CL _ K). contradiction.
Qed.
Print Assumptions C88_construct_refuted.

(** destruction closes what the object has, whether or not it was made by moving *)
Theorem C88_destroy : forall c ls s es x, run c ls init = Some (s, es) -> ub s = false -> live s x ->
  exists s' e, step c (LDestroy x) s = Some (s', e) /\ ~ live s' x /\
    (forall d, has s x d -> closed e = [d]) /\ ((forall d, ~ has s x d) -> e = []) /\
    (forall y d, y <> x -> (has s' y d <-> has s y d)) /\
    (forall i, ~ waiting s' x i) /\ (forall i, waiting s x i -> In (EEnd i Aborted) e) /\
    (forall y i, y <> x -> (waiting s' y i <-> waiting s y i)) /\ outs s' = outs s /\ (forall y, y <> x -> (live s' y <-> live s y)).
Proof.
  intros c ls s es x H U L. apply good_run in H. destruct (objs s x) as [o|] eqn:O; [|contradiction (L O)].
  destruct (shut x s) as [s1 e1] eqn:A. destruct (shut_spec c s es x s1 e1 H A) as (P1 & P2 & P3 & P4 & P5 & P6 & P7 & P8 & P9).
  eexists _, _. split; [unfold step; rewrite U; cbn [exec]; rewrite O, A; reflexivity|].
  split; [unfold live; cbn; rewrite upd_same; congruence|]. split; [exact P1|]. split; [intro K; now apply P2|].
  split; [intros y d Y; rewrite <- (P4 y d Y); unfold has; cbn; rewrite upd_other by auto; reflexivity|].
  split; [exact P5|]. split; [exact P6|]. split; [exact P7|]. split; [exact P8|].
  intros y Y. rewrite <- (P9 y). unfold live. cbn. rewrite upd_other by auto. reflexivity.
Qed.
Print Assumptions C88_destroy.

(** moving hands over the descriptor and the pending operations *)
Theorem C88_move : forall c ls s es x y s' e, run c ls init = Some (s, es) -> step c (LMove x y) s = Some (s', e) ->
  closed e = [] /\ born e = [] /\ ended e = [] /\ live s' x /\ live s' y /\
  (forall d, has s' y d <-> has s x d) /\ (forall d, ~ has s' x d) /\ (forall z d, z <> x -> z <> y -> (has s' z d <-> has s z d)) /\
  (forall i, waiting s' y i <-> waiting s x i) /\ outs s' = outs s.
Proof.
  intros c ls s es x y s' e H St. apply good_run in H. unfold step in St. destruct (ub s); [discriminate|]. cbn [exec] in St.
  destruct (mem y (used s)) eqn:M; [discriminate|]. destruct (objs s x) as [o|] eqn:O; [|discriminate]. injection St as <- <-. apply mem_out in M.
  assert (In x (used s)) as IX by (apply (g_used _ _ _ H); congruence). assert (x <> y) as XY by (intros ->; contradiction).
  repeat split; try reflexivity.
  - unfold live. cbn. rewrite upd_other, upd_same by auto. discriminate.
  - unfold live. cbn. rewrite upd_same. discriminate.
  - intros (r & E). cbn in E. rewrite upd_same in E. injection E as E _. exists (ref o). rewrite O. destruct o as [w r0]. cbn in *. now subst.
  - intros (r & E). rewrite O in E. injection E as ->. eexists. cbn. rewrite upd_same. reflexivity.
  - intros d (r & E). cbn in E. rewrite upd_other, upd_same in E by auto. discriminate.
  - intros (r & E). exists r. cbn in E. rewrite !upd_other in E by auto. exact E.
  - intros (r & E). exists r. cbn. rewrite !upd_other by auto. exact E.
  - intro K. unfold waiting in *. cbn [pend] in K. apply in_map_iff in K as ([a b] & E & K). cbn in E. destruct (Nat.eqb_spec b x) as [EB|NB].
    + injection E as ->. now subst.
    + injection E as -> ->. exfalso. destruct (g_pend _ _ _ H _ _ K) as (_ & d & _ & (r & Q)). apply M. apply (g_used _ _ _ H). congruence.
  - intro K. unfold waiting in *. cbn [pend]. apply in_map_iff. exists (i, x). split; [cbn; now rewrite Nat.eqb_refl|exact K].
Qed.
Print Assumptions C88_move.

(** with BOOST_ASIO_HAS_FILE, the functions of an object made by moving do not act on its file *)
Theorem C88_moved_close_refuted : forall ls s es y d, run HasFile ls init = Some (s, es) -> moved es y -> has s y d ->
  (forall s' e, step HasFile (LClose y) s = Some (s', e) -> has s' y d /\ ~ In d (closed e)) /\
  (forall s' e, step HasFile (LRelease y) s = Some (s', e) -> has s' y d /\ ~ In (EGet y (Some d)) e) /\
  (forall s' e, step HasFile (LQuery y) s = Some (s', e) -> ~ In (EAct y (Some d)) e) /\
  (forall s' e i, step HasFile (LCancel y) s = Some (s', e) -> waiting s y i -> waiting s' y i).
Proof.
  intros ls s es y d H MV HD. apply good_run in H. destruct HD as (r & O). pose proof (g_ref _ _ _ H y _ O) as [_ Q]. cbn [ref] in Q.
  assert (r <> y) as N by (intro E; apply Q in E as [E|E]; [discriminate|contradiction]). clear Q.
  assert (has s y d) as HD by (exists r; exact O).
  repeat match goal with |- _ /\ _ => split end; intros s' e; [| | |intros i]; intro St; unfold step in St; destruct (ub s); try discriminate; cbn [exec] in St; rewrite O in St; cbn [target ref] in St; unfold release in St.
  - destruct (objs s r) as [o|] eqn:R; [|injection St as <- <-; split; [exact HD|intros []]].
    destruct (shut r s) as [s1 e1] eqn:A. injection St as <- <-. destruct (shut_spec _ s es r s1 e1 H A) as (P1 & P2 & P3 & P4 & _).
    split; [apply P4; auto|]. rewrite closed_app. cbn. rewrite app_nil_r. destruct (has_dec s r) as [(d' & K)|K].
    + rewrite (P1 d' K). intros [->|[]]. apply N. exact (has_one _ _ _ _ _ _ H K HD).
    + destruct (P2 K) as [_ ->]. intros [].
  - destruct (objs s r) as [o|] eqn:R; [|injection St as <- <-; split; [exact HD|intros [K|[]]; discriminate K]].
    destruct (own o) as [d'|] eqn:OW; [|injection St as <- <-; split; [exact HD|intros [K|[]]; discriminate K]].
    destruct (abort r s) as [s1 e1] eqn:A. injection St as <- <-. pose proof A as A'. injection A' as A1 A2.
    assert (objs s1 r = Some o) as R1 by (rewrite <- A1; exact R). rewrite (set_own_objs s1 r _ None R1).
    split; [exists r; cbn; rewrite upd_other by auto; rewrite <- A1; exact O|]. intro K. apply in_app_or in K. destruct K as [K|[K|[]]].
    + rewrite <- A2 in K. apply in_map_iff in K as (p & K & _). discriminate K.
    + injection K as ->. apply N. apply (has_one _ _ _ r y d H); [|exact HD]. exists (ref o). rewrite R. destruct o; cbn in *; now subst.
  - destruct (objs s r) as [o|] eqn:R; injection St as <- <-; intros [K|[]]; [|discriminate K]. injection K as K.
    apply N. apply (has_one _ _ _ r y d H); [|exact HD]. exists (ref o). rewrite R. destruct o; cbn in *; now subst.
  - intro W. destruct (objs s r) as [o|] eqn:R; [|injection St as <- <-; exact W].
    unfold abort in St. injection St as <- <-. unfold waiting. cbn [pend]. apply filter_In. split; [exact W|]. cbn. destruct (Nat.eqb_spec y r); [congruence|reflexivity].
Qed.
Print Assumptions C88_moved_close_refuted.

(** ... and once the object moved from is destroyed, any of them uses it after its destruction *)
Theorem C88_dangling_refuted : forall ls s es x y s1 e1 s2 e2 l, run HasFile ls init = Some (s, es) -> ~ moved es x ->
  step HasFile (LMove x y) s = Some (s1, e1) -> step HasFile (LDestroy x) s1 = Some (s2, e2) ->
  In l [LQuery y; LClose y; LCancel y; LRelease y; LOpen y true true] ->
  exists s3, step HasFile l s2 = Some (s3, [EUb]).
Proof.
  intros ls s es x y s1 e1 s2 e2 l H NM S1 S2 I. apply good_run in H. unfold step in S1. destruct (ub s) eqn:U; [discriminate|]. cbn [exec] in S1.
  destruct (mem y (used s)) eqn:M; [discriminate|]. destruct (objs s x) as [o|] eqn:O; [|discriminate]. apply mem_out in M.
  assert (In x (used s)) as IX by (apply (g_used _ _ _ H); congruence). assert (x <> y) as XY by (intros ->; contradiction).
  assert (ref o = x) as RX by (apply (g_ref _ _ _ H x o O); auto). rewrite RX in S1. injection S1 as <- <-.
  unfold step in S2. cbn [ub] in S2. rewrite U in S2. cbn [exec objs] in S2. rewrite upd_other, upd_same in S2 by auto. unfold shut in S2. cbn [objs] in S2.
  rewrite upd_other, upd_same in S2 by auto. injection S2 as <- <-. cbn [objs used outs fresh pend nops ub].
  exists (mk (upd (upd (upd (objs s) x (Some (mko None x))) y (Some (mko (own o) x))) x None) (y :: used s) (outs s) (fresh s) (map (fun p => if snd p =? x then (fst p, y) else p) (pend s)) (nops s) true).
  unfold step. cbn [ub]. try rewrite U. 
  destruct I as [<-|[<-|[<-|[<-|[<-|[]]]]]]; cbn [exec objs]; rewrite upd_other, upd_same by auto; cbn [target ref]; unfold release, open; cbn [objs]; rewrite upd_same; reflexivity.
Qed.
Print Assumptions C88_dangling_refuted.

(** ... and before that they act on whatever file the object moved from has opened again *)
Theorem C88_other_refuted : exists ls s es s' e, run HasFile ls init = Some (s, es) /\ has s 0 1 /\ has s 1 0 /\
  step HasFile (LClose 1) s = Some (s', e) /\ closed e = [1] /\ has s' 1 0 /\ forall d, ~ has s' 0 d.
Proof.
  exists [LNewPath 0 true true; LMove 0 1; LOpen 0 true true]. eexists _, _, _, _. split; [reflexivity|].
  split; [eexists; reflexivity|]. split; [eexists; reflexivity|]. split; [reflexivity|]. split; [reflexivity|]. split; [eexists; reflexivity|].
  intros d (r & E). discriminate E.
Qed.
Print Assumptions C88_other_refuted.

(** cancel ends what is pending, and leaves the file open; without BOOST_ASIO_HAS_FILE it does nothing *)
Theorem C88_cancel_partial : forall ls s es x, run HasFile ls init = Some (s, es) -> ub s = false -> live s x -> ~ moved es x ->
  exists s' e, step HasFile (LCancel x) s = Some (s', e ++ [EOk x]) /\ (forall i, ~ waiting s' x i) /\ (forall i, waiting s x i -> In (EEnd i Aborted) e) /\
    (forall i o, In (EEnd i o) e -> waiting s x i) /\
    (forall y i, y <> x -> (waiting s' y i <-> waiting s y i)) /\ (forall y d, has s' y d <-> has s y d) /\ outs s' = outs s.
Proof.
  intros ls s es x H U L M. apply good_run in H. destruct (objs s x) as [o|] eqn:O; [|contradiction (L O)].
  pose proof (own_target HasFile s es x o H (or_intror M) O) as T. eexists _, _. split; [unfold step; rewrite U; cbn [exec]; rewrite O, T, O; reflexivity|].
  split; [|split; [|split; [|split; [|split]]]].
  - intros i K. unfold waiting in K. cbn [pend] in K. apply filter_In in K as [_ K]. cbn in K. rewrite Nat.eqb_refl in K. discriminate.
  - intros i K. apply in_map_iff. exists (i, x). split; [reflexivity|]. apply filter_In. split; [exact K|apply Nat.eqb_refl].
  - intros i w K. apply in_map_iff in K as ([a b] & E & K). injection E as <- _. apply filter_In in K as [K B]. cbn in B. apply Nat.eqb_eq in B as ->. exact K.
  - intros y i Y. unfold waiting. cbn [pend]. rewrite filter_In. cbn. destruct (Nat.eqb_spec y x); [contradiction|]. intuition.
  - intros y d. reflexivity.
  - reflexivity.
Qed.
Print Assumptions C88_cancel_partial.

Theorem C88_cancel_refuted : forall ls s es x, run Fallback ls init = Some (s, es) -> ub s = false -> live s x -> step Fallback (LCancel x) s = Some (s, [EOk x]).
Proof.
  intros ls s es x H U L. unfold step. rewrite U. cbn [exec]. destruct (objs s x) as [o|] eqn:O; [|contradiction (L O)]. cbn [target]. rewrite O. reflexivity.
Qed.
Print Assumptions C88_cancel_refuted.

(** an operation ends at most once, and while it has not ended an object has the descriptor it began with *)
Lemma start_one : forall es i y d y' d', cnt i (started es) <= 1 -> In (EStart i y d) es -> In (EStart i y' d') es -> y = y' /\ d = d'.
Proof.
  induction es as [|e es IH]; intros i y d y' d' C A B; [destruct A|].
  change (started (e :: es)) with (match e with EStart i _ _ => [i] | EEnd i Closed => [i] | _ => [] end ++ started es) in C. rewrite cnt_app in C.
  assert (forall u v, In (EStart i u v) es -> cnt i (started es) >= 1) as ONE.
  { intros u v K. apply cnt_in. unfold started. apply in_flat_map. exists (EStart i u v). split; [exact K|now left]. }
  destruct A as [->|A], B as [B|B].
  - injection B as -> ->. auto.
  - specialize (ONE _ _ B). rewrite cnt_one, Nat.eqb_refl in C. lia.
  - subst e. specialize (ONE _ _ A). rewrite cnt_one, Nat.eqb_refl in C. lia.
  - apply (IH i y d y' d'); auto. lia.
Qed.

Theorem C88_ops : forall c ls s es, run c ls init = Some (s, es) ->
  NoDup (started es) /\ NoDup (ended es) /\ (forall i, In i (ended es) -> In i (started es)) /\
  (forall i y d, In (EStart i y d) es -> ~ In i (ended es) -> exists x, waiting s x i /\ has s x d /\ ~ In d (closed es)).
Proof.
  intros c ls s es H. pose proof (C88_descriptors _ _ _ _ H) as (_ & _ & CL & _). apply good_run in H.
  assert (forall i, cnt i (started es) <= 1) as ONE by (intro i; rewrite (g_ops _ _ _ H); destruct (i <? nops s); lia).
  split; [apply cnt_nodup; exact ONE|]. split; [apply cnt_nodup; intro i; specialize (ONE i); pose proof (g_end _ _ _ H i); lia|].
  split; [intros i K; apply cnt_in in K; apply cnt_in; pose proof (g_end _ _ _ H i); lia|].
  intros i y d K N. assert (In i (started es)) as SI by (unfold started; apply in_flat_map; exists (EStart i y d); split; [exact K|now left]).
  apply cnt_in in SI. pose proof (g_end _ _ _ H i). assert (cnt i (ended es) = 0) as Z.
  { destruct (cnt i (ended es)) eqn:Z; [reflexivity|]. exfalso. apply N. apply cnt_in. lia. }
  assert (In i (map fst (pend s))) as P by (apply cnt_in; lia). apply in_map_iff in P as ([a x] & E & P). cbn in E. subst a.
  destruct (g_pend _ _ _ H i x P) as (y' & d' & A & B). destruct (start_one es i y d y' d' (ONE i) K A) as [_ <-].
  exists x. split; [exact P|]. split; [exact B|]. intro C. apply CL in C as (_ & _ & C). exact (C x B).
Qed.
Print Assumptions C88_ops.

(** a destroyed object is used only with BOOST_ASIO_HAS_FILE and through an object made by moving *)
Definition plain (p : state * list event) : Prop := ub (fst p) = false /\ ~ In EUb (snd p).

Lemma abort_plain : forall t s, ub s = false -> plain (abort t s).
Proof. intros t s U. split; [exact U|]. cbn. intro Z. apply in_map_iff in Z as (? & Z & _). discriminate Z. Qed.
Lemma set_own_ub : forall t v s, ub (set_own t v s) = ub s.
Proof. intros. unfold set_own. destruct (objs s t); reflexivity. Qed.
Lemma shut_plain : forall t s, ub s = false -> plain (shut t s).
Proof.
  intros t s U. unfold shut. destruct (objs s t) as [[[d|] r]|]; [|split; cbn; auto..].
  pose proof (abort_plain t s U) as [A B]. destruct (abort t s) as [s1 e1]. cbn in A, B. split; cbn [fst snd]; [now rewrite set_own_ub|].
  intro Z. apply in_app_or in Z. destruct Z as [Z|[Z|[]]]; [auto|discriminate Z].
Qed.
Lemma exec_plain : forall c l s p, ub s = false -> exec c l s = Some p -> plain p \/ exists x o, objs s x = Some o /\ objs s (target c x o) = None.
Proof.
  intros c l s p U H.
  assert (forall (q : state * list event), Some q = Some p -> plain q -> plain p \/ exists x o, objs s x = Some o /\ objs s (target c x o) = None) as YES by (intros q E Q; injection E as <-; auto).
  assert (forall x o, objs s x = Some o -> objs s (target c x o) = None -> plain p \/ exists x o, objs s x = Some o /\ objs s (target c x o) = None) as NO by eauto.
  assert (forall s' e, ub s' = false -> ~ In EUb e -> plain (s', e)) as MK by (intros; split; auto).
  assert (forall e, forallb (fun e => match e with EUb => false | _ => true end) e = true -> ~ In EUb e) as LIT.
  { intros e B K. rewrite forallb_forall in B. specialize (B _ K). discriminate B. }
  destruct l; cbn [exec] in H; unfold open, assign, release in H.
  - apply YES in H; auto.
  - destruct (mem d (outs s)); [|discriminate]. apply YES in H; auto.
  - destruct (mem x (used s)); [discriminate|]. apply YES in H; auto.
  - destruct (mem x (used s)); [discriminate|]. destruct c, sys, att; apply YES in H; auto.
  - destruct (mem x (used s) || negb (mem d (outs s))); [discriminate|]. destruct att; apply YES in H; auto.
  - destruct (objs s x) as [o|] eqn:O; [|discriminate]. destruct (objs s (target c x o)) as [o'|] eqn:T; [|eauto].
    destruct c, (own o'), sys, att; apply YES in H; auto; apply MK; auto; rewrite set_own_ub; exact U.
  - destruct (objs s x) as [o|] eqn:O; [|discriminate]. destruct (mem d (outs s)); [|discriminate]. destruct (objs s (target c x o)) as [o'|] eqn:T; [|eauto].
    destruct (own o'), att; apply YES in H; auto; apply MK; auto; rewrite set_own_ub; exact U.
  - destruct (objs s x) as [o|] eqn:O; [|discriminate]. destruct (objs s (target c x o)) as [o'|] eqn:T; [|eauto].
    destruct (own o'); [|apply YES in H; auto]. pose proof (abort_plain (target c x o) s U) as [A B]. destruct (abort (target c x o) s) as [s1 e1]. cbn in A, B.
    apply YES in H; auto. apply MK; [cbn [set_outs ub]; now rewrite set_own_ub|]. intro Z. apply in_app_or in Z. destruct Z as [Z|[Z|[]]]; [auto|discriminate Z].
  - destruct (objs s x) as [o|] eqn:O; [|discriminate]. destruct (objs s (target c x o)) as [o'|] eqn:T; [|eauto].
    pose proof (shut_plain (target c x o) s U) as [A B]. destruct (shut (target c x o) s) as [s1 e1]. cbn in A, B.
    apply YES in H; auto. apply MK; [exact A|]. intro Z. apply in_app_or in Z. destruct Z as [Z|[Z|[]]]; [auto|discriminate Z].
  - destruct (objs s x) as [o|] eqn:O; [|discriminate]. destruct (objs s (target c x o)) as [o'|] eqn:T; [|eauto].
    destruct c; [|apply YES in H; auto]. pose proof (abort_plain (target HasFile x o) s U) as [A B]. destruct (abort (target HasFile x o) s) as [s1 e1]. cbn in A, B.
    apply YES in H; auto. apply MK; [exact A|]. intro Z. apply in_app_or in Z. destruct Z as [Z|[Z|[]]]; [auto|discriminate Z].
  - destruct (objs s x) as [o|] eqn:O; [|discriminate]. destruct (objs s (target c x o)) as [o'|] eqn:T; [|eauto]. apply YES in H; auto.
  - destruct (mem y (used s)); [discriminate|]. destruct (objs s x) as [o|] eqn:O; [|discriminate]. apply YES in H; auto.
  - destruct (objs s x) as [o|] eqn:O; [|discriminate]. pose proof (shut_plain x s U) as [A B]. destruct (shut x s) as [s1 e1]. cbn in A, B. apply YES in H; auto.
  - destruct (objs s x) as [[[d|] r]|] eqn:O; [| |discriminate]; apply YES in H; auto.
  - destruct (existsb (fun p => fst p =? i) (pend s)); [|discriminate]. apply YES in H; auto.
Qed.

Theorem C88_defined : forall c ls s es, run c ls init = Some (s, es) -> ub s = true \/ In EUb es -> c = HasFile /\ exists y, moved es y.
Proof.
  intros c ls s es H. assert (good c s es /\ (ub s = true \/ In EUb es -> c = HasFile /\ exists y, moved es y)) as [_ A]; [|exact A]. revert ls s es H. apply hist_ind.
  - split; [apply good_init|]. intros [K|[]]. discriminate K.
  - intros l s es s' e [G IH] St. split; [eapply good_step; eauto|]. intro K.
    assert (forall y, moved es y -> moved (es ++ e) y) as UP by (intros y (z & Z); exists z; apply in_or_app; auto).
    unfold step in St. destruct (ub s) eqn:U; [discriminate|]. destruct (exec_plain c l s (s', e) U St) as [[A B]|(x & o & X & T)].
    + cbn in A, B. destruct IH as (C & y & Y); [|split; [exact C|exists y; auto]]. right. destruct K as [K|K]; [congruence|].
      apply in_app_or in K. destruct K as [K|K]; [exact K|contradiction].
    + destruct c; [|cbn [target] in T; congruence]. split; [reflexivity|]. cbn [target] in T. exists x. apply UP.
      destruct (existsb (fun e => match e with EMove _ y => y =? x | _ => false end) es) eqn:EX.
      * apply existsb_exists in EX as (w & W1 & W2). destruct w; try discriminate W2. apply Nat.eqb_eq in W2. subst. eexists. exact W1.
      * exfalso. assert (ref o = x) as R; [|congruence]. apply (g_ref _ _ _ G x o X). right. intros (z & Z).
        assert (existsb (fun e => match e with EMove _ y => y =? x | _ => false end) es = true); [|congruence].
        apply existsb_exists. exists (EMove z x). split; [exact Z|apply Nat.eqb_refl].
Qed.
Print Assumptions C88_defined.

(** a history that meets the hypotheses: a file is opened, read, moved; another one takes over a descriptor and gives it back *)
Lemma obs_run : forall c ls (Q : state -> list event -> Prop), match run c ls init with Some (s, es) => Q s es | None => False end -> exists s es, run c ls init = Some (s, es) /\ Q s es.
Proof. intros c ls Q H. destruct (run c ls init) as [[s es]|]; [eauto|destruct H]. Qed.

Example C88_nonvacuous : exists s es,
  run HasFile [LNewPath 0 true true; LRead 0; LMove 0 1; LMake; LNew 2; LAssign 2 1 true; LRead 2; LRelease 2; LDone 0; LShut 1] init = Some (s, es) /\
  ub s = false /\ has s 1 0 /\ moved es 1 /\ live s 2 /\ ~ moved es 2 /\ closed es = [1] /\ ended es = [1; 0] /\ born es = [0; 1].
Proof.
  apply obs_run. vm_compute. split; [reflexivity|]. split; [eexists; reflexivity|]. split; [exists 0; auto 10|].
  split; [discriminate|]. split; [intros (z & K); repeat destruct K as [K|K]; try discriminate K; destruct K|]. repeat split; reflexivity.
Qed.

Example C88_nonvacuous_fallback : exists s es,
  run Fallback [LNewPath 0 true true; LOpen 0 true true; LMove 0 1; LRead 1; LCancel 1; LClose 1; LOpen 1 true false; LNewPath 2 true false] init = Some (s, es) /\
  lost es = [1; 2; 3] /\ closed es = [0] /\ ended es = [0] /\ ub s = false /\ live s 1.
Proof. apply obs_run. vm_compute. repeat split; try reflexivity. discriminate. Qed.
