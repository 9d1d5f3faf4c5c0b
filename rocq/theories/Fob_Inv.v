(** Invariants for C88 *)
From Coq Require Import List Bool Arith Lia Permutation.
From Verif Require Import Fob_Model Fob_Spec.
Import ListNotations.

Definition cnt (d : nat) (l : list nat) : nat := count_occ Nat.eq_dec l d.
Lemma cnt_app : forall d a b, cnt d (a ++ b) = cnt d a + cnt d b.
Proof. intros. apply count_occ_app. Qed.
Lemma cnt_cons : forall d e l, cnt d (e :: l) = cnt d [e] + cnt d l.
Proof. intros. unfold cnt. cbn. destruct (Nat.eq_dec e d); reflexivity. Qed.
Lemma cnt_one : forall d e, cnt d [e] = if e =? d then 1 else 0.
Proof. intros. unfold cnt. cbn. destruct (Nat.eq_dec e d), (Nat.eqb_spec e d); congruence. Qed.
Lemma cnt_in : forall d l, In d l <-> cnt d l > 0.
Proof. intros. apply count_occ_In. Qed.
Lemma cnt_nodup : forall l, (forall d, cnt d l <= 1) -> NoDup l.
Proof. intros. now apply (NoDup_count_occ Nat.eq_dec). Qed.

Lemma cnt_nil : forall d, cnt d [] = 0. Proof. reflexivity. Qed.
Arguments cnt : simpl never.

Definition opt (o : option fd) : list fd := match o with Some d => [d] | None => [] end.
Definition at_ (f : nat -> option obj) (x : nat) : list fd := match f x with Some o => opt (own o) | None => [] end.
Definition owned (f : nat -> option obj) (l : list nat) : list fd := flat_map (at_ f) l.

Lemma owned_ext : forall f g l, (forall x, In x l -> f x = g x) -> owned f l = owned g l.
Proof. intros f g l H. unfold owned. induction l as [|y l IH]; cbn; [reflexivity|]. unfold at_ at 1 3. rewrite (H y) by now left. rewrite IH; [reflexivity|intros; apply H; now right]. Qed.

Lemma owned_upd : forall d f l x v, NoDup l -> In x l -> cnt d (owned (upd f x v) l) + cnt d (at_ f x) = cnt d (owned f l) + cnt d (match v with Some o => opt (own o) | None => [] end).
Proof.
  intros d f l x v N I. induction l as [|y l IH]; [destruct I|]. inversion N; subst.
  change (owned (upd f x v) (y :: l)) with (at_ (upd f x v) y ++ owned (upd f x v) l). change (owned f (y :: l)) with (at_ f y ++ owned f l).
  rewrite !cnt_app. destruct I as [->|I].
  - replace (owned (upd f x v) l) with (owned f l).
    + assert (at_ (upd f x v) x = match v with Some o => opt (own o) | None => [] end) as -> by (unfold at_, upd; now rewrite Nat.eqb_refl). lia.
    + apply owned_ext. intros z Z. unfold upd. destruct (Nat.eqb_spec z x); [subst; contradiction|reflexivity].
  - specialize (IH H2 I). assert (at_ (upd f x v) y = at_ f y) as ->; [|lia].
    unfold at_, upd. destruct (Nat.eqb_spec y x); [subst; contradiction|reflexivity].
Qed.

Lemma owned_has : forall s d, In d (owned (objs s) (used s)) <-> exists x, In x (used s) /\ has s x d.
Proof.
  intros s d. unfold owned. rewrite in_flat_map. split; intros (x & A & B); exists x; (split; [exact A|]).
  - unfold at_ in B. unfold has. destruct (objs s x) as [[[e|] r]|]; cbn in B; try destruct B as [->|[]]; [eauto|destruct B|destruct B].
  - destruct B as (r & B). unfold at_. rewrite B. now left.
Qed.

Lemma owned_two : forall f l x y d, x <> y -> In x l -> In y l -> In d (at_ f x) -> In d (at_ f y) -> cnt d (owned f l) >= 2.
Proof.
  intros f l x y d N X Y A B. assert (forall z m, In z m -> In d (at_ f z) -> cnt d (owned f m) >= 1) as ONE.
  { intros z m Z D. apply cnt_in. unfold owned. apply in_flat_map. eauto. }
  induction l as [|z l IH]; [destruct X|]. change (owned f (z :: l)) with (at_ f z ++ owned f l). rewrite cnt_app. apply cnt_in in A as A'. apply cnt_in in B as B'.
  destruct X as [->|X], Y as [->|Y]; [congruence| | |].
  - pose proof (ONE y l Y B). lia.
  - pose proof (ONE x l X A). lia.
  - specialize (IH X Y). lia.
Qed.

Lemma born_app : forall a b, born (a ++ b) = born a ++ born b. Proof. intros. apply flat_map_app. Qed.
Lemma closed_app : forall a b, closed (a ++ b) = closed a ++ closed b. Proof. intros. apply flat_map_app. Qed.
Lemma started_app : forall a b, started (a ++ b) = started a ++ started b. Proof. intros. apply flat_map_app. Qed.
Lemma ended_app : forall a b, ended (a ++ b) = ended a ++ ended b. Proof. intros. apply flat_map_app. Qed.

(** the events of a step do not end with the creation of a descriptor *)
Definition fine (es : list event) : Prop := forall a d, es <> a ++ [ECreate d].
Lemma lost_app : forall a b, fine a -> lost (a ++ b) = lost a ++ lost b.
Proof.
  induction a as [|e a IH]; intros b F; [reflexivity|].
  assert (fine a) as F' by (intros x d E; apply (F (e :: x) d); now rewrite E).
  cbn. rewrite (IH b F'). destruct e; try reflexivity. rewrite app_assoc. f_equal. f_equal.
  destruct a as [|e' a]; [|reflexivity]. exfalso. apply (F [] d). reflexivity.
Qed.
Lemma fine_app : forall a b, fine a -> fine b -> fine (a ++ b).
Proof.
  intros a b A B x d E. destruct b as [|e b] using rev_ind; [rewrite app_nil_r in E; exact (A x d E)|].
  rewrite app_assoc in E. apply app_inj_tail in E as [_ ->]. exact (B b d eq_refl).
Qed.
Lemma fine_last : forall a e, (forall d, e <> ECreate d) -> fine (a ++ [e]).
Proof. intros a e H x d E. apply app_inj_tail in E as [_ ->]. now apply (H d). Qed.
Lemma fine_nil : fine []. Proof. intros a d E. destruct a; discriminate. Qed.

Section inv.
Variable c : config.

Lemma run_app : forall a b s, run c (a ++ b) s = match run c a s with Some (s1, e1) => match run c b s1 with Some (s2, e2) => Some (s2, e1 ++ e2) | None => None end | None => None end.
Proof.
  induction a as [|l a IH]; intros b s; cbn.
  - destruct (run c b s) as [[]|]; reflexivity.
  - destruct (step c l s) as [[s1 e1]|]; [|reflexivity]. rewrite IH. destruct (run c a s1) as [[s2 e2]|]; [|reflexivity].
    destruct (run c b s2) as [[s3 e3]|]; [|reflexivity]. now rewrite app_assoc.
Qed.

Lemma hist_ind : forall (Q : state -> list event -> Prop), Q init [] ->
  (forall l s es s' e, Q s es -> step c l s = Some (s', e) -> Q s' (es ++ e)) ->
  forall ls s es, run c ls init = Some (s, es) -> Q s es.
Proof.
  intros Q B St ls. induction ls as [|l ls IH] using rev_ind; intros s es H; cbn in H.
  - injection H as <- <-. exact B.
  - rewrite run_app in H. destruct (run c ls init) as [[s1 e1]|]; [|discriminate]. cbn in H.
    destruct (step c l s1) as [[s2 e2]|] eqn:E; [|discriminate]. injection H as <- <-. rewrite app_nil_r. eauto.
Qed.

Record good (s : state) (es : list event) : Prop := mkg
  { g_nd : NoDup (used s);
    g_used : forall x, objs s x <> None -> In x (used s);
    g_ref : forall x o, objs s x = Some o -> In (ref o) (used s) /\ (ref o = x <-> (c = Fallback \/ ~ moved es x));
    g_mv : forall x y, In (EMove x y) es -> In y (used s);
    g_born : forall d, cnt d (born es) = if d <? fresh s then 1 else 0;
    g_sum : forall d, cnt d (born es) = cnt d (closed es) + cnt d (lost es) + cnt d (outs s) + cnt d (owned (objs s) (used s));
    g_fine : fine es;
    g_ops : forall i, cnt i (started es) = if i <? nops s then 1 else 0;
    g_end : forall i, cnt i (started es) = cnt i (ended es) + cnt i (map fst (pend s));
    g_pend : forall i x, In (i, x) (pend s) -> exists y d, In (EStart i y d) es /\ has s x d }.

Lemma good_init : good init [].
Proof.
  constructor; cbn.
  - constructor.
  - intros x H. congruence.
  - discriminate.
  - intros x y [].
  - reflexivity.
  - reflexivity.
  - apply fine_nil.
  - reflexivity.
  - reflexivity.
  - intros i x [].
Qed.

(** ** Pieces of steps *)
Definition quiet (e : list event) : Prop := born e = [] /\ closed e = [] /\ lost e = [] /\ started e = [] /\ ended e = [] /\ fine e /\ (forall x y, ~ In (EMove x y) e).

Lemma moved_app : forall es e, (forall x y, ~ In (EMove x y) e) -> forall y, moved (es ++ e) y <-> moved es y.
Proof. intros es e H y. unfold moved. split; intros (x & K); exists x; [apply in_app_or in K; destruct K as [K|K]; [exact K|destruct (H _ _ K)]|apply in_or_app; auto]. Qed.

Lemma good_ext : forall s es f, good s es -> (forall x, f x = objs s x) -> forall b, good (mk f (used s) (outs s) (fresh s) (pend s) (nops s) b) es.
Proof.
  intros s es f G H b. destruct G. constructor; cbn [objs used outs fresh pend nops]; auto.
  - intros x. rewrite H. auto.
  - intros x o. rewrite H. auto.
  - intro d. rewrite (owned_ext f (objs s)); auto.
  - intros i x K. destruct (g_pend0 i x K) as (y & d & A & (r & B)). exists y, d. split; [auto|]. exists r. cbn. now rewrite H.
Qed.

Lemma good_note : forall s es e, good s es -> quiet e -> good s (es ++ e).
Proof.
  intros s es e G (A & B & C & D & E & F & M). destruct G. constructor; auto.
  - intros x o H. rewrite (moved_app es e M). auto.
  - intros x y H. apply in_app_or in H. destruct H as [H|H]; [eauto|destruct (M _ _ H)].
  - intro d. rewrite born_app, A, app_nil_r. auto.
  - intro d. rewrite born_app, closed_app, lost_app, A, B, C, !app_nil_r by auto. auto.
  - apply fine_app; auto.
  - intro i. rewrite started_app, D, app_nil_r. auto.
  - intro i. rewrite started_app, ended_app, D, E, !app_nil_r. auto.
  - intros i x H. destruct (g_pend0 i x H) as (y & d & P & Q). exists y, d. split; [apply in_or_app; auto|auto].
Qed.

Lemma ends_shape : forall (l : list (nat * nat)), let e := map (fun p => EEnd (fst p) Aborted) l in
  born e = [] /\ closed e = [] /\ lost e = [] /\ started e = [] /\ ended e = map fst l /\ fine e /\ (forall x y, ~ In (EMove x y) e).
Proof.
  intros l e. subst e. induction l as [|p l (A & B & C & D & E & F & M)]; cbn.
  - repeat split; auto. apply fine_nil.
  - unfold ended in *. repeat split; auto.
    + cbn. now rewrite E.
    + apply (fine_app [_]); [apply (fine_last []); discriminate|exact F].
    + intros x y [K|K]; [discriminate K|exact (M _ _ K)].
Qed.

Lemma split_cnt : forall (f : nat * nat -> bool) l i, cnt i (map fst l) = cnt i (map fst (filter f l)) + cnt i (map fst (filter (fun p => negb (f p)) l)).
Proof.
  intros f l i. induction l as [|p l IH]; [reflexivity|]. cbn. rewrite cnt_cons, IH. destruct (f p); cbn; rewrite (cnt_cons _ (fst p) (map fst (filter _ l))); lia.
Qed.

Definition free_of (t : nat) (s : state) : Prop := forall i, ~ In (i, t) (pend s).

Lemma good_abort : forall s es t s' e, good s es -> abort t s = (s', e) -> good s' (es ++ e) /\ free_of t s' /\ objs s' = objs s /\ used s' = used s /\ outs s' = outs s /\ fresh s' = fresh s /\ ub s' = ub s.
Proof.
  intros s es t s' e G H. injection H as <- <-. destruct (ends_shape (filter (fun p => snd p =? t) (pend s))) as (A & B & C & D & E & F & M).
  destruct G. split; [constructor; cbn [objs used outs fresh pend nops]; auto|].
  - intros x o H. rewrite (moved_app _ _ M). auto.
  - intros x y H. apply in_app_or in H. destruct H as [H|H]; [eauto|destruct (M _ _ H)].
  - intro d. rewrite born_app, A, app_nil_r. auto.
  - intro d. rewrite born_app, closed_app, lost_app, A, B, C, !app_nil_r by auto. auto.
  - apply fine_app; auto.
  - intro i. rewrite started_app, D, app_nil_r. auto.
  - intro i. rewrite started_app, ended_app, D, E, app_nil_r, cnt_app, g_end0. rewrite (split_cnt (fun p => snd p =? t) (pend s)). lia.
  - intros i x H. apply filter_In in H as [H _]. destruct (g_pend0 i x H) as (y & d & P & Q). exists y, d. split; [apply in_or_app; auto|auto].
  - split; [|cbn; auto 10]. intros i H. cbn in H. apply filter_In in H as [_ H]. cbn in H. rewrite Nat.eqb_refl in H. discriminate.
Qed.

Lemma has_dec : forall s x, (exists d, has s x d) \/ forall d, ~ has s x d.
Proof. intros s x. unfold has. destruct (objs s x) as [[[d|] r]|]; [left; eauto|right; intros d (r' & E); discriminate|right; intros d (r' & E); discriminate]. Qed.

Lemma free_closed : forall s es t, good s es -> (forall d, ~ has s t d) -> free_of t s.
Proof. intros s es t G H i K. destruct (g_pend _ _ G i t K) as (y & d & _ & Q). exact (H d Q). Qed.

(** changing what object [t] has *)
Lemma set_own_objs : forall s t o v, objs s t = Some o -> set_own t v s = mk (upd (objs s) t (Some (mko v (ref o)))) (used s) (outs s) (fresh s) (pend s) (nops s) (ub s).
Proof. intros s t o v H. unfold set_own. now rewrite H. Qed.

Lemma upd_same : forall A (f : nat -> A) x v, upd f x v x = v. Proof. intros. unfold upd. now rewrite Nat.eqb_refl. Qed.
Lemma upd_other : forall A (f : nat -> A) x v y, y <> x -> upd f x v y = f y. Proof. intros. unfold upd. destruct (Nat.eqb_spec y x); congruence. Qed.

(** the general change of one object and of the program's descriptors *)
Lemma good_change : forall s es t o v ou n e,
  good s es -> objs s t = Some o -> free_of t s -> fresh s <= n ->
  started e = [] -> ended e = [] -> fine e -> (forall x y, ~ In (EMove x y) e) ->
  (forall d, cnt d (born e) = if (fresh s <=? d) && (d <? n) then 1 else 0) ->
  (forall d, cnt d (born e) + cnt d (outs s) + cnt d (opt (own o)) = cnt d (closed e) + cnt d (lost e) + cnt d ou + cnt d (opt v)) ->
  good (mk (upd (objs s) t (Some (mko v (ref o)))) (used s) ou n (pend s) (nops s) (ub s)) (es ++ e).
Proof.
  intros s es t o v ou n e G O FR LE ST EN FI M BO SU. destruct G. assert (In t (used s)) as IT by (apply g_used0; congruence).
  constructor; cbn [objs used outs fresh pend nops]; auto.
  - intros x H. destruct (Nat.eq_dec x t) as [->|N]; [exact IT|]. rewrite upd_other in H by auto. auto.
  - intros x o' H. rewrite (moved_app _ _ M). destruct (Nat.eq_dec x t) as [->|N]; [rewrite upd_same in H; injection H as <-; cbn; exact (g_ref0 t o O)|rewrite upd_other in H by auto; auto].
  - intros x y H. apply in_app_or in H. destruct H as [H|H]; [eauto|destruct (M _ _ H)].
  - intro d. rewrite born_app, cnt_app, g_born0, BO. destruct (Nat.ltb_spec d (fresh s)), (Nat.ltb_spec d n), (Nat.leb_spec (fresh s) d); cbn; lia.
  - intro d. rewrite born_app, closed_app, lost_app, !cnt_app by auto. pose proof (owned_upd d (objs s) (used s) t (Some (mko v (ref o))) g_nd0 IT) as Q. cbn in Q.
    assert (at_ (objs s) t = opt (own o)) as AT by (unfold at_; now rewrite O). rewrite AT in Q.
    specialize (SU d). pose proof (g_sum0 d). lia.
  - apply fine_app; auto.
  - intro i. rewrite started_app, ST, app_nil_r. auto.
  - intro i. rewrite started_app, ended_app, ST, EN, !app_nil_r. auto.
  - intros i x H. destruct (g_pend0 i x H) as (y & d & P & (r & Q)). exists y, d. split; [apply in_or_app; auto|]. exists r. cbn.
    rewrite upd_other; [exact Q|]. intros ->. exact (FR i H).
Qed.

(** a new object *)
Lemma good_add : forall s es x v ou n e,
  good s es -> ~ In x (used s) -> fresh s <= n ->
  started e = [] -> ended e = [] -> fine e -> (forall x y, ~ In (EMove x y) e) ->
  (forall d, cnt d (born e) = if (fresh s <=? d) && (d <? n) then 1 else 0) ->
  (forall d, cnt d (born e) + cnt d (outs s) = cnt d (closed e) + cnt d (lost e) + cnt d ou + cnt d (opt v)) ->
  good (mk (upd (objs s) x (Some (mko v x))) (x :: used s) ou n (pend s) (nops s) (ub s)) (es ++ e).
Proof.
  intros s es x v ou n e G NX LE ST EN FI M BO SU. destruct G.
  constructor; cbn [objs used outs fresh pend nops]; auto.
  - constructor; auto.
  - intros y H. destruct (Nat.eq_dec y x) as [->|N]; [now left|]. rewrite upd_other in H by auto. right. auto.
  - intros y o' H. rewrite (moved_app _ _ M). destruct (Nat.eq_dec y x) as [->|N].
    + rewrite upd_same in H. injection H as <-. cbn. split; [now left|]. split; [|auto]. intros _. right. intros (z & Z). exact (NX (g_mv0 _ _ Z)).
    + rewrite upd_other in H by auto. destruct (g_ref0 y o' H) as [P Q]. split; [now right|exact Q].
  - intros y z H. apply in_app_or in H. destruct H as [H|H]; [right; eauto|destruct (M _ _ H)].
  - intro d. rewrite born_app, cnt_app, g_born0, BO. destruct (Nat.ltb_spec d (fresh s)), (Nat.ltb_spec d n), (Nat.leb_spec (fresh s) d); cbn; lia.
  - intro d. rewrite born_app, closed_app, lost_app, !cnt_app by auto.
    change (owned (upd (objs s) x (Some (mko v x))) (x :: used s)) with (at_ (upd (objs s) x (Some (mko v x))) x ++ owned (upd (objs s) x (Some (mko v x))) (used s)).
    rewrite cnt_app. assert (at_ (upd (objs s) x (Some (mko v x))) x = opt v) as -> by (unfold at_; now rewrite upd_same).
    rewrite (owned_ext (upd (objs s) x (Some (mko v x))) (objs s)) by (intros z Z; apply upd_other; intros ->; contradiction).
    specialize (SU d). pose proof (g_sum0 d). lia.
  - apply fine_app; auto.
  - intro i. rewrite started_app, ST, app_nil_r. auto.
  - intro i. rewrite started_app, ended_app, ST, EN, !app_nil_r. auto.
  - intros i y H. destruct (g_pend0 i y H) as (z & d & P & (r & Q)). exists z, d. split; [apply in_or_app; auto|]. exists r. cbn.
    rewrite upd_other; [exact Q|]. intros ->. apply NX. apply g_used0. congruence.
Qed.

(** only descriptors of the program *)
Lemma good_fds : forall s es ou n e b,
  good s es -> fresh s <= n ->
  started e = [] -> ended e = [] -> fine e -> (forall x y, ~ In (EMove x y) e) ->
  (forall d, cnt d (born e) = if (fresh s <=? d) && (d <? n) then 1 else 0) ->
  (forall d, cnt d (born e) + cnt d (outs s) = cnt d (closed e) + cnt d (lost e) + cnt d ou) ->
  good (mk (objs s) (used s) ou n (pend s) (nops s) b) (es ++ e).
Proof.
  intros s es ou n e b G LE ST EN FI M BO SU. destruct G. constructor; cbn [objs used outs fresh pend nops]; auto.
  - intros x o H. rewrite (moved_app _ _ M). auto.
  - intros x y H. apply in_app_or in H. destruct H as [H|H]; [eauto|destruct (M _ _ H)].
  - intro d. rewrite born_app, cnt_app, g_born0, BO. destruct (Nat.ltb_spec d (fresh s)), (Nat.ltb_spec d n), (Nat.leb_spec (fresh s) d); cbn; lia.
  - intro d. rewrite born_app, closed_app, lost_app, !cnt_app by auto. specialize (SU d). pose proof (g_sum0 d). lia.
  - apply fine_app; auto.
  - intro i. rewrite started_app, ST, app_nil_r. auto.
  - intro i. rewrite started_app, ended_app, ST, EN, !app_nil_r. auto.
  - intros i x H. destruct (g_pend0 i x H) as (y & d & P & Q). exists y, d. split; [apply in_or_app; auto|auto].
Qed.
End inv.
