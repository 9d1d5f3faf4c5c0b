(** C85: memory outlives what is in it. *)
From Coq Require Import List Bool Arith Lia.
From Verif Require Import Mrs_Model Mrs_Spec Mrs_Inv Mrs_Own Mrs_Safe Mrs_Trace.
Import ListNotations.

(** The default resource of a thread that runs, and the one above it, are alive and the thread's own: allocating a frame
    there is always safe, in every history. *)
Theorem C85_default : forall ls s es t o s' es',
  run init ls = Some (s, es) -> step s (Alloc t o) = Some (s', es') -> ub s' = ub s /\ foreign s' = foreign s.
Proof.
  intros ls s es t o s' es' H K. destruct (reach_W _ _ _ H) as (W & Q). cbn in K. destruct (running s t && negb (o_used (obj s o))) eqn:R; [|discriminate]. injection K as <- <-.
  apply andb_true_iff in R as (R & _). pose proof (def_mine s t W R) as M. destruct (mine_ok s t _ W M) as (A & B). destruct (up_ok s t _ W M) as (A' & B').
  cbn. rewrite A, B, A', B'. cbn. now rewrite !orb_false_r.
Qed.
Print Assumptions C85_default.

(** run leaves the default resource of its thread as it was, whatever happens meanwhile. *)
Definition under (t d0 : nat) (l0 : list scope) (s : state) (d : nat) : Prop :=
  exists l, scopes s t = l ++ l0 /\ length l = d /\ (l = [] -> def s t = d0) /\ (forall l' x, l = l' ++ [x] -> s_prev x = d0).

Lemma under_same : forall t d0 l0 s s' d, def s' t = def s t -> scopes s' t = scopes s t -> under t d0 l0 s d -> under t d0 l0 s' d.
Proof. intros t d0 l0 s s' d A B (l & H1 & H2 & H3 & H4). exists l. rewrite A, B. auto. Qed.

Lemma step_other : forall s l s' es t, step s l = Some (s', es) -> (forall t1, l = RunEnter t1 \/ l = RunLeave t1 -> t1 <> t) -> (forall a b, l <> Start a t b) ->
  def s' t = def s t /\ scopes s' t = scopes s t.
Proof.
  intros s l s' es t H N N'. destruct l; cbn -[Nat.ltb Nat.eqb] in H.
  - destruct (running s t0); [|discriminate]. injection H as <- <-. cbn. assert (t0 <> t) by (apply N; auto). rewrite !upd_other by auto. auto.
  - destruct (running s t0); [|discriminate]. destruct (scopes s t0) as [|x l]; [discriminate|]. injection H as H. unfold run_leave in H.
    pose proof (same_drop_ref t0 (s_res x) s) as SM. destruct (drop_ref t0 (s_res x) s) as [s1 e1]. cbn in SM. unfold seq2, destroy_res in H. injection H as <- <-. destruct SM as [R1 R2 R3 R4 R5 R6].
    cbn. assert (t0 <> t) by (apply N; auto). rewrite !upd_other by auto. rewrite R3, R4. auto.
  - destruct (running s t0 && _); [|discriminate]. destruct (ph s t'); try discriminate. injection H as <- <-. cbn. assert (t' <> t) by (intros ->; eapply N'; reflexivity). rewrite !upd_other by auto. auto.
  - destruct (ph s t'); try discriminate. destruct (boot s (tres s t')); [|discriminate]. destruct (stopped s t'); [discriminate|]. injection H as H.
    pose proof (same_drop_ref t' (tres s t') (set_boot (upd (boot s) (tres s t') None) s)) as SM. rewrite H in SM. destruct SM as [R1 R2 R3 R4 R5 R6]. cbn in *. rewrite R3, R4. auto.
  - destruct (running s t0 && held s t'); [|discriminate]. injection H as <- <-. auto.
  - destruct (running s t0 && held s t'); [|discriminate]. injection H as H. pose proof (same_drop_ref t0 (tres s t') (set_held t' false s)) as SM. rewrite H in SM. destruct SM as [R1 R2 R3 R4 R5 R6]. cbn in *. rewrite R3, R4. auto.
  - destruct (ph s t'); try discriminate. destruct (_ && _); [|discriminate]. injection H as <- <-. auto.
  - destruct (ph s t'); try discriminate. injection H as H. pose proof (same_drop_ref t' (tres s t') (set_ph t' Dropped s)) as SM. rewrite H in SM. destruct SM as [R1 R2 R3 R4 R5 R6]. cbn in *. rewrite R3, R4. auto.
  - destruct (ph s t'); try discriminate. injection H as <- <-. auto.
  - destruct (_ && _); [|discriminate]. injection H as <- <-. auto.
  - destruct (_ && _); [|discriminate]. injection H as <- <-. auto.
  - destruct (_ && _); [|discriminate]. injection H as <- <-. auto.
  - destruct (_ && _); [|discriminate]. injection H as <- <-. auto.
  - destruct (_ && _); [|discriminate]. injection H as <- <-. auto.
  - destruct (_ && _); [|discriminate]. injection H as <- <-. auto.
  - destruct (_ && _); [|discriminate]. injection H as <- <-. auto.
Qed.

Lemma under_run : forall t d0 l0 ls s s' es d d', under t d0 l0 s d -> depth t ls d = Some d' -> run s ls = Some (s', es) -> under t d0 l0 s' d'.
Proof.
  intros t d0 l0. induction ls as [|l ls IH]; cbn [depth run]; intros s s' es d d' U D H.
  - injection D as <-. injection H as <- <-. exact U.
  - destruct (step s l) as [[s1 e1]|] eqn:E; [|discriminate]. destruct (run s1 ls) as [[s2 e2]|] eqn:E2; [|discriminate]. injection H as <- <-.
    assert (OT : (forall t1, l = RunEnter t1 \/ l = RunLeave t1 -> t1 <> t) -> (forall a b, l <> Start a t b) -> under t d0 l0 s1 d).
    { intros A B. destruct (step_other s l s1 e1 t E A B). eapply under_same; eauto. }
    destruct l; try (eapply IH; [apply OT; intros; try discriminate; destruct H; discriminate|exact D|exact E2]).
    + destruct (Nat.eqb_spec t0 t) as [->|n]; [|eapply IH; [apply OT; [intros ? [X|X]; congruence|discriminate]|exact D|exact E2]].
      eapply IH; [|exact D|exact E2]. cbn in E. destruct (running s t); [|discriminate]. injection E as <- <-.
      destruct U as (l & H1 & H2 & H3 & H4). exists (mkScope (nres s) (def s t) :: l). cbn. rewrite upd_same, H1, H2. repeat split; auto; [discriminate|].
      intros l' x X. destruct l' as [|y l']; [injection X as <- X; cbn; auto|]. injection X as _ X. apply (H4 l' x X).
    + destruct (Nat.eqb_spec t0 t) as [->|n]; [|eapply IH; [apply OT; [intros ? [X|X]; congruence|discriminate]|exact D|exact E2]].
      destruct d as [|d]; [discriminate|]. eapply IH; [|exact D|exact E2]. cbn in E. destruct (running s t); [|discriminate].
      destruct U as (l & H1 & H2 & H3 & H4). destruct l as [|x l]; [discriminate|]. rewrite H1 in E. cbn [app] in E. injection E as E. unfold run_leave in E.
      destruct (drop_ref t (s_res x) s) as [s3 e3]. unfold seq2, destroy_res in E. injection E as <- <-. exists l. cbn. rewrite !upd_same. repeat split; auto.
      * intros ->. apply (H4 [] x eq_refl).
      * intros l' y ->. apply (H4 (x :: l') y). reflexivity.
    + destruct (Nat.eqb_spec t' t) as [->|n]; [discriminate|]. eapply IH; [apply OT; [intros ? [X|X]; discriminate|congruence]|exact D|exact E2].
Qed.

Theorem C85_restores : forall ls s es t ls' s' es',
  run init ls = Some (s, es) -> balanced t ls' -> run s ls' = Some (s', es') -> def s' t = def s t.
Proof.
  intros ls s es t ls' s' es' _ B H. assert (U : under t (def s t) (scopes s t) s 0) by (exists []; repeat split; auto; intros l' x X; destruct l'; discriminate).
  destruct (under_run _ _ _ _ _ _ _ _ _ U B H) as (l & _ & L & D & _). apply D. now destruct l.
Qed.
Print Assumptions C85_restores.

(** The order in which run cleans up: first what the pending operations of its context own, then its pool; and no
    pool goes twice. *)
Theorem C85_run_order : forall ls s es t s' es',
  run init ls = Some (s, es) -> step s (RunLeave t) = Some (s', es') ->
  exists x l, scopes s t = x :: l /\ es' = map (EFree t) (queued s (s_res x)) ++ [EGone (s_res x)].
Proof.
  intros ls s es t s' es' H K. destruct (reach_W _ _ _ H) as (W & Q). cbn in K. destruct (running s t); [|discriminate]. destruct (scopes s t) as [|x l] eqn:E; [discriminate|].
  exists x, l. split; [reflexivity|]. injection K as K. unfold run_leave in K. rewrite drop_run in K by (auto; rewrite E; now left).
  unfold destroy_ctx in K. cbn [queued set_refs] in K.
  pose proof (frees_spec t (queued s (s_res x)) (set_refs (upd (refs s) (s_res x) 0) s) (q_nd s Q _)) as (_ & _ & _ & _ & _ & _ & F).
  destruct (frees t (queued s (s_res x)) (set_refs (upd (refs s) (s_res x) 0) s)) as [s1 e1]. cbn in F. unfold seq2, destroy_res in K. injection K as _ <-. now rewrite F.
Qed.
Print Assumptions C85_run_order.

Theorem C85_pool_once : forall ls s es es1 r es2,
  run init ls = Some (s, es) -> es = es1 ++ EGone r :: es2 -> ~ gone es2 r.
Proof.
  intros ls s es es1 r es2 H E G. pose proof (t_once _ _ (reach_T _ _ _ H)) as N. rewrite E in N. unfold gones in N. rewrite flat_map_app in N. cbn in N.
  apply NoDup_remove_2 in N. apply N. apply in_or_app. right. now apply gones_In.
Qed.
Print Assumptions C85_pool_once.

(** What the flag means: it is raised exactly when the history touches something too late. *)
Theorem C85_exact : forall ls s es, run init ls = Some (s, es) -> (ub s = true <-> too_late es).
Proof. intros ls s es H. apply (t_ub _ _ (reach_T _ _ _ H)). Qed.
Print Assumptions C85_exact.

(** Users who keep the rule are safe: nested runs, threads, pending operations when run returns or a thread
    ends. *)
Theorem C85_orderly_partial : forall ls s es, run init ls = Some (s, es) -> orderly ls -> ub s = false /\ ~ too_late es /\ foreign s = false.
Proof.
  intros ls s es H O. destruct (orderly_clean ls s es O H) as (_ & A & B). repeat split; auto. rewrite <- (C85_exact _ _ _ H). congruence.
Qed.
Print Assumptions C85_orderly_partial.

(** A result with an allocator outlives run: what is handed over has global memory, safe on every thread until it is destroyed. *)
Theorem C85_result : forall ls s es t o o' s1 es1 ls' s2 es2 t' l s3 es3,
  run init ls = Some (s, es) -> step s (Hand t o o') = Some (s1, es1) -> run s1 ls' = Some (s2, es2) -> ~ freed es2 o' ->
  l = Use t' o' \/ l = Free t' o' -> step s2 l = Some (s3, es3) -> ub s3 = ub s2 /\ foreign s3 = foreign s2.
Proof.
  intros ls s es t o o' s1 es1 ls' s2 es2 t' l s3 es3 H1 H2 H3 NF Hl H4.
  assert (R1 := run_snoc _ _ _ _ _ _ _ H1 H2).
  assert (R2 : run init ((ls ++ [Hand t o o']) ++ ls') = Some (s2, (es ++ es1) ++ es2)).
  { eapply run_cat; eauto. }
  pose proof (reach_T _ _ _ R2) as T2. destruct (reach_W _ _ _ R2) as (W2 & _).
  assert (BN : born ((es ++ es1) ++ es2) o' 0 /\ forall t1, ~ In (EFree t1 o') es1).
  { cbn in H2. destruct (running s t && negb (o_used (obj s o')) && o_used (obj s o) && negb (is_queued s o)) eqn:C; [|discriminate].
    apply andb_true_iff in C as (C & _). apply andb_true_iff in C as (C & U'). apply andb_true_iff in C as (_ & U). apply negb_true_iff in U.
    injection H2 as _ <-. split.
    - exists t. apply in_or_app. left. apply in_or_app. right. now left.
    - intros t1 [X|[X|[X|[]]]]; try discriminate. injection X as _ ->. congruence. }
  destruct BN as (BN & NE1). apply (t_born _ _ T2) in BN as (BU & BR).
  assert (NE0 : ~ freed es o').
  { intro F. apply (t_freed _ _ (reach_T _ _ _ H1)) in F as (F & _). cbn in H2. rewrite F in H2. cbn in H2. rewrite andb_false_r in H2. discriminate. }
  assert (LV : o_live (obj s2 o') = true).
  { destruct (o_live (obj s2 o')) eqn:L; [reflexivity|]. exfalso. destruct (proj2 (t_freed _ _ T2 o') (conj BU L)) as (t1 & F).
    apply in_app_or in F as [F|F]; [apply in_app_or in F as [F|F]|].
    - apply NE0. now exists t1.
    - eapply NE1; eauto.
    - apply NF. now exists t1. }
  destruct Hl as [->| ->]; cbn in H4.
  - destruct (running s2 t' && o_used (obj s2 o')); [|discriminate]. injection H4 as <- <-. cbn. rewrite LV, BR, (w0 s2 W2). cbn. now rewrite !orb_false_r.
  - destruct (running s2 t' && o_used (obj s2 o') && negb (is_queued s2 o')); [|discriminate]. injection H4 as <- <-. unfold strange. cbn. rewrite LV, BR, (w0 s2 W2). cbn. now rewrite !orb_false_r.
Qed.
Print Assumptions C85_result.

(** What a history shows. *)
Definition obs (ls : list label) : option (list event * bool * bool) :=
  match run init ls with None => None | Some (s, es) => Some (es, ub s, foreign s) end.
Lemma obs_run : forall ls es u f, obs ls = Some (es, u, f) -> exists s, run init ls = Some (s, es) /\ ub s = u /\ foreign s = f.
Proof. intros ls es u f H. unfold obs in H. destruct (run init ls) as [[s e]|]; [|discriminate]. injection H as <- <- <-. eauto. Qed.

(** The whole property is false. *)

(** run returns something that has memory from run's own pool and is not assigned to a default value on the way (a
    pointer to a channel, an optional with a vector of results): its memory is gone. *)
Theorem C85_run_result_refuted : ~ memory_outlives.
Proof.
  intro H. specialize (H [RunEnter 0; Alloc 0 5; RunLeave 0; Use 0 5]).
  destruct (obs_run [RunEnter 0; Alloc 0 5; RunLeave 0; Use 0 5] [EAlloc 0 5 1; EGone 1; EUse 0 5] true false ltac:(vm_compute; reflexivity)) as (s & E & U & _). rewrite (H s _ E) in U; [discriminate|].
  intros es1 e es2 o X _ (t & F). assert (In (EFree t o) [EAlloc 0 5 1; EGone 1; EUse 0 5]) as I by (rewrite X; apply in_or_app; now left).
  cbn in I. intuition discriminate.
Qed.
Print Assumptions C85_run_result_refuted.

(** A thread object is destroyed while a coroutine of the thread waits.  The coroutine's frame is touched by nobody but
    the destructor of the context.  If the thread ends before the object gives up the context, the frame is
    destroyed after its pool; in the other order all is well. *)
Definition busy_thread : list label := [Start 0 1 9; Boot 1; Alloc 1 5; Queue 1 5 1; Stop 0 1].
Theorem C85_thread_destroyed_refuted :
  (exists s es, run init (busy_thread ++ [Leave 1 Stopped; DropIn 1; EndT 1; DropObj 0 1]) = Some (s, es) /\ careful es /\ ub s = true /\ foreign s = true) /\
  (exists s es, run init (busy_thread ++ [DropObj 0 1; Leave 1 Stopped; DropIn 1; EndT 1]) = Some (s, es) /\ ub s = false /\ foreign s = false).
Proof.
  split.
  - destruct (obs_run (busy_thread ++ [Leave 1 Stopped; DropIn 1; EndT 1; DropObj 0 1]) [EAlloc 0 9 0; EAlloc 1 5 1; EGone 1; EFree 0 5] true true ltac:(vm_compute; reflexivity)) as (s & E & U & Fo).
    exists s, [EAlloc 0 9 0; EAlloc 1 5 1; EGone 1; EFree 0 5]. split; [exact E|]. split; [|split; [exact U|exact Fo]]. clear.
    intros es1 e es2 o X _ (t & F). destruct es2 as [|y es2] using rev_ind.
    + change [EAlloc 0 9 0; EAlloc 1 5 1; EGone 1; EFree 0 5] with ([EAlloc 0 9 0; EAlloc 1 5 1; EGone 1] ++ [EFree 0 5]) in X.
      apply app_inj_tail in X as (<- & _). cbn in F. intuition discriminate.
    + change [EAlloc 0 9 0; EAlloc 1 5 1; EGone 1; EFree 0 5] with ([EAlloc 0 9 0; EAlloc 1 5 1; EGone 1] ++ [EFree 0 5]) in X.
      rewrite app_comm_cons, app_assoc in X. apply app_inj_tail in X as (X & _).
      assert (In (EFree t o) [EAlloc 0 9 0; EAlloc 1 5 1; EGone 1]) as I by (rewrite X; apply in_or_app; now left). cbn in I. intuition discriminate.
  - destruct (obs_run (busy_thread ++ [DropObj 0 1; Leave 1 Stopped; DropIn 1; EndT 1]) [EAlloc 0 9 0; EAlloc 1 5 1; EFree 1 5; EGone 1] false false ltac:(vm_compute; reflexivity)) as (s & E & U & Fo).
    eauto 6.
Qed.
Print Assumptions C85_thread_destroyed_refuted.

(** A thread is awaited; one of its coroutines throws while another waits: same order, every time (the awaiting coroutine gives
    up the context only after the thread ended). *)
Theorem C85_thread_threw_refuted :
  exists s es, run init [Start 0 1 9; Boot 1; Alloc 1 5; Queue 1 5 1; Leave 1 Threw; DropIn 1; EndT 1; DropObj 0 1] = Some (s, es) /\ too_late es.
Proof.
  destruct (obs_run [Start 0 1 9; Boot 1; Alloc 1 5; Queue 1 5 1; Leave 1 Threw; DropIn 1; EndT 1; DropObj 0 1] [EAlloc 0 9 0; EAlloc 1 5 1; EGone 1; EFree 0 5] true true ltac:(vm_compute; reflexivity)) as (s & E & _).
  exists s, [EAlloc 0 9 0; EAlloc 1 5 1; EGone 1; EFree 0 5]. split; [exact E|]. exists [EAlloc 0 9 0; EAlloc 1 5 1; EGone 1], (EFree 0 5), []. split; [reflexivity|]. left.
  exists 5. split; [exists 0; now left|]. right. exists 1. split; [exists 1; cbn; auto|cbn; unfold gone; cbn; auto].
Qed.
Print Assumptions C85_thread_threw_refuted.

(** A coroutine that is made inside run on one thread and destroyed on another uses the first thread's pool, which
    has no lock. *)
Theorem C85_other_thread_refuted :
  exists s es, run init [RunEnter 0; Alloc 0 5; Start 0 1 9; Boot 1; Queue 0 5 2; Take 1 5 2; Free 1 5] = Some (s, es) /\ ub s = false /\ foreign s = true.
Proof.
  destruct (obs_run [RunEnter 0; Alloc 0 5; Start 0 1 9; Boot 1; Queue 0 5 2; Take 1 5 2; Free 1 5] [EAlloc 0 5 1; EAlloc 0 9 0; EFree 1 5] false true ltac:(vm_compute; reflexivity)) as (s & E & U & F). eauto 6.
Qed.
Print Assumptions C85_other_thread_refuted.

(** [foreign] is set whenever a thread allocates from, or gives back to, a pool that another thread is using. *)
Theorem C85_foreign : forall ls s es t t' o r l s' es',
  run init ls = Some (s, es) -> step s l = Some (s', es') -> In r (pools s t') -> t <> t' ->
  l = AllocAt t o r \/ (l = Free t o /\ o_res (obj s o) = r) -> foreign s' = true.
Proof.
  intros ls s es t t' o r l s' es' H K I N L. destruct (reach_W _ _ _ H) as (W & _). destruct (pools_in s t' r W I) as (_ & _ & _ & _ & O).
  assert (X : strange s t r = true) by (unfold strange; rewrite O; destruct (Nat.eqb_spec t t'); [congruence|reflexivity]).
  destruct L as [->|[-> R]]; cbn [step] in K.
  - destruct (running s t && negb (o_used (obj s o)) && (r <? nres s)); [|discriminate]. injection K as <- _. cbn. rewrite X. now rewrite orb_true_r.
  - destruct (running s t && o_used (obj s o) && negb (is_queued s o)); [|discriminate]. injection K as <- _. cbn. rewrite R, X. now rewrite orb_true_r.
Qed.
Print Assumptions C85_foreign.
Example C85_foreign_nonvacuous : exists s es, run init [RunEnter 0; Start 0 1 9; Boot 1; AllocAt 1 5 1] = Some (s, es) /\ foreign s = true.
Proof.
  destruct (obs_run [RunEnter 0; Start 0 1 9; Boot 1; AllocAt 1 5 1] [EAlloc 0 9 0; EAlloc 1 5 1] false true ltac:(vm_compute; reflexivity)) as (s & E & U & F). eauto.
Qed.

(** A thread that is stopped before its coroutine started: the coroutine's frame is never destroyed, whatever follows. *)
Lemma frees_boot : forall t os s, boot (fst (frees t os s)) = boot s.
Proof.
  induction os as [|a os IH]; intros s; cbn [frees]; [reflexivity|]. destruct (free t a s) as [s1 e1] eqn:E. specialize (IH s1). destruct (frees t os s1) as [s2 e2]. cbn in *. rewrite IH. unfold free in E. now injection E as <- _.
Qed.
Lemma drop_boot : forall t c s, boot (fst (drop_ref t c s)) = boot s.
Proof.
  intros. unfold drop_ref. cbv zeta. destruct (_ =? 0); [|reflexivity]. unfold destroy_ctx. cbn [queued set_refs].
  pose proof (frees_boot t (queued s c) (set_refs (upd (refs s) c (refs s c - 1)) s)) as F. destruct (frees t (queued s c) _) as [s1 e1]. cbn in *. exact F.
Qed.
Definition asleep (t' o : nat) (s : state) : Prop := made (ph s t') = true /\ boot s (tres s t') = Some o.

Lemma asleep_step : forall t' o s l s' es, WR s -> WQ s -> asleep t' o s -> step s l = Some (s', es) -> l <> Boot t' ->
  asleep t' o s' /\ (ph s t' <> Looping -> ph s' t' <> Looping).
Proof.
  intros t' o s l s' es W Q (M & B) H N. destruct (tres_owner s t' W M) as (_ & TN).
  assert (KP : forall s1, ph s1 = ph s -> tres s1 = tres s -> boot s1 = boot s -> asleep t' o s1 /\ (ph s t' <> Looping -> ph s1 t' <> Looping)).
  { intros s1 A1 A2 A3. unfold asleep. rewrite A1, A2, A3. auto. }
  destruct l; cbn -[Nat.ltb Nat.eqb] in H.
  - destruct (running s t); [|discriminate]. injection H as <- <-. unfold asleep. cbn. rewrite upd_other by lia. auto.
  - destruct (running s t); [|discriminate]. destruct (scopes s t) as [|x l]; [discriminate|]. injection H as H. unfold run_leave in H.
    pose proof (same_drop_ref t (s_res x) s) as SM. pose proof (drop_boot t (s_res x) s) as DB. destruct (drop_ref t (s_res x) s) as [s1 e1]. cbn in SM, DB. destruct SM as [R1 R2 R3 R4 R5 R6]. unfold seq2, destroy_res in H. injection H as <- <-. apply KP; auto.
  - destruct (running s t && _); [|discriminate]. destruct (ph s t'0) eqn:P; try discriminate. injection H as <- <-.
    assert (n : t' <> t'0) by (intros ->; rewrite P in M; discriminate). unfold asleep. cbn. rewrite !(upd_other _ _ t'0 _ t') by auto. rewrite upd_other by lia. auto.
  - destruct (ph s t'0) eqn:P; try discriminate. destruct (boot s (tres s t'0)) eqn:B'; [|discriminate]. destruct (stopped s t'0); [discriminate|]. injection H as H.
    assert (n0 : t' <> t'0) by congruence. assert (M' : made (ph s t'0) = true) by now rewrite P.
    assert (D : tres s t' <> tres s t'0) by (intro X; apply n0; eapply (tres_inj s); eauto).
    pose proof (same_drop_ref t'0 (tres s t'0) (set_boot (upd (boot s) (tres s t'0) None) s)) as SM. pose proof (drop_boot t'0 (tres s t'0) (set_boot (upd (boot s) (tres s t'0) None) s)) as DB. rewrite H in *. cbn in *. destruct SM as [R1 R2 R3 R4 R5 R6]. cbn in *.
    unfold asleep. rewrite R5, R6, DB, upd_other by auto. auto.
  - destruct (running s t && held s t'0); [|discriminate]. injection H as <- <-. apply KP; auto.
  - destruct (running s t && held s t'0); [|discriminate]. injection H as H. pose proof (same_drop_ref t (tres s t'0) (set_held t'0 false s)) as SM. pose proof (drop_boot t (tres s t'0) (set_held t'0 false s)) as DB. rewrite H in *. destruct SM as [R1 R2 R3 R4 R5 R6]. apply KP; auto.
  - destruct (ph s t'0) eqn:P; try discriminate. destruct (_ && _); [|discriminate]. injection H as <- <-. unfold asleep. cbn. destruct (Nat.eq_dec t' t'0) as [->|n]; [rewrite upd_same; repeat split; auto; discriminate|rewrite upd_other by auto; auto].
  - destruct (ph s t'0) eqn:P; try discriminate. injection H as H. pose proof (same_drop_ref t'0 (tres s t'0) (set_ph t'0 Dropped s)) as SM. pose proof (drop_boot t'0 (tres s t'0) (set_ph t'0 Dropped s)) as DB. rewrite H in *. cbn in *. destruct SM as [R1 R2 R3 R4 R5 R6]. cbn in *.
    unfold asleep. rewrite R5, R6, DB. destruct (Nat.eq_dec t' t'0) as [->|n]; [rewrite upd_same; repeat split; auto; discriminate|rewrite upd_other by auto; auto].
  - destruct (ph s t'0) eqn:P; try discriminate. injection H as <- <-. unfold asleep. cbn. destruct (Nat.eq_dec t' t'0) as [->|n]; [rewrite upd_same; repeat split; auto; discriminate|rewrite upd_other by auto; auto].
  - destruct (_ && _); [|discriminate]. injection H as <- <-. apply KP; auto.
  - destruct (_ && _); [|discriminate]. injection H as <- <-. apply KP; auto.
  - destruct (_ && _); [|discriminate]. injection H as <- <-. apply KP; auto.
  - destruct (_ && _); [|discriminate]. injection H as <- <-. apply KP; auto.
  - destruct (_ && _); [|discriminate]. injection H as <- <-. apply KP; auto.
  - destruct (_ && _); [|discriminate]. injection H as <- <-. apply KP; auto.
  - destruct (_ && _); [|discriminate]. injection H as <- <-. apply KP; auto.
Qed.

Lemma asleep_run : forall t' o ls s s' es, WR s -> WQ s -> asleep t' o s -> (~ In (Boot t') ls \/ ph s t' <> Looping) -> run s ls = Some (s', es) -> asleep t' o s'.
Proof.
  intros t' o. induction ls as [|l ls IH]; cbn; intros s s' es W Q A N H.
  - injection H as <- <-. exact A.
  - destruct (step s l) as [[s1 e1]|] eqn:E; [|discriminate]. destruct (run s1 ls) as [[s2 e2]|] eqn:E2; [|discriminate]. injection H as <- <-.
    assert (NB : l <> Boot t').
    { destruct N as [N|N]; [intros ->; apply N; now left|]. intros ->. cbn in E. destruct (ph s t'); try discriminate. now apply N. }
    destruct (asleep_step t' o s l s1 e1 W Q A E NB) as (A1 & P1). eapply IH; [eapply WR_step; eauto|eapply WQ_step; eauto|exact A1| |exact E2].
    destruct N as [N|N]; [left; tauto|right; auto].
Qed.

Theorem C85_never_started_refuted : forall ls1 t t' o ls2 ls3 s es,
  run init (ls1 ++ Start t t' o :: ls2 ++ Leave t' Stopped :: ls3) = Some (s, es) -> ~ In (Boot t') ls2 -> ~ freed es o.
Proof.
  intros ls1 t t' o ls2 ls3 s es H N F. destruct (reach_W _ _ _ H) as (W & Q). pose proof (reach_T _ _ _ H) as TT.
  apply (t_freed _ _ TT) in F as (_ & F).
  enough (A : asleep t' o s) by (destruct A as (_ & A); apply (q_boot s Q) in A as (A & _); congruence).
  destruct (run_app _ _ _ _ _ H) as (s1 & e1 & e2 & H1 & H2 & ->). destruct (reach_W _ _ _ H1) as (W1 & Q1).
  cbn [run] in H2. destruct (step s1 (Start t t' o)) as [[s2 e3]|] eqn:E; [|discriminate].
  destruct (run s2 (ls2 ++ Leave t' Stopped :: ls3)) as [[s3 e4]|] eqn:E2; [|discriminate]. injection H2 as <- <-.
  assert (W2 := WR_step _ _ _ _ W1 E). assert (Q2 := WQ_step _ _ _ _ W1 Q1 E).
  assert (A2 : asleep t' o s2).
  { cbn in E. destruct (running s1 t && _); [|discriminate]. destruct (ph s1 t'); try discriminate. injection E as <- <-. unfold asleep. cbn. now rewrite !upd_same. }
  destruct (run_app _ _ _ _ _ E2) as (s4 & e5 & e6 & H4 & H5 & _). destruct (run_W _ _ _ _ W2 Q2 H4) as (W4 & Q4).
  assert (A4 : asleep t' o s4) by (eapply asleep_run; [exact W2|exact Q2|exact A2|left; exact N|exact H4]).
  cbn [run] in H5. destruct (step s4 (Leave t' Stopped)) as [[s5 e7]|] eqn:E5; [|discriminate]. destruct (run s5 ls3) as [[s6 e8]|] eqn:E6; [|discriminate]. injection H5 as <- _.
  assert (W5 := WR_step _ _ _ _ W4 E5). assert (Q5 := WQ_step _ _ _ _ W4 Q4 E5).
  destruct (asleep_step t' o _ _ _ _ W4 Q4 A4 E5 ltac:(discriminate)) as (A5 & _).
  eapply asleep_run; [exact W5|exact Q5|exact A5| |exact E6]. right. cbn in E5. destruct (ph s4 t'); try discriminate. destruct (_ && _); [|discriminate]. injection E5 as <- _. cbn. rewrite upd_same. discriminate.
Qed.
Print Assumptions C85_never_started_refuted.

(** A thread whose loop ended by itself has nothing pending: destroying its object, or ending the await of it, any time later is
    safe, provided nobody starts operations on its context afterwards. *)
Definition idle (t' : nat) (s : state) : Prop := made (ph s t') = true /\ queued s (tres s t') = [].

Lemma nil_sub : forall (l l' : list nat), l = [] -> (forall o, In o l' -> In o l) -> l' = [].
Proof. intros l l' -> H. destruct l' as [|o l']; [reflexivity|]. destruct (H o (or_introl eq_refl)). Qed.

Lemma idle_step : forall t' s l s' es, WR s -> WQ s -> idle t' s -> step s l = Some (s', es) -> (forall t o, l <> Queue t o (tres s t')) ->
  idle t' s' /\ tres s' t' = tres s t'.
Proof.
  intros t' s l s' es W Q (M & E) H N. destruct (tres_owner s t' W M) as (_ & TN).
  assert (KP : forall s1, ph s1 = ph s -> tres s1 = tres s -> queued s1 (tres s t') = [] -> idle t' s1 /\ tres s1 t' = tres s t').
  { intros s1 A1 A2 A3. unfold idle. rewrite A1, A2. auto. }
  destruct l; cbn -[Nat.ltb Nat.eqb] in H.
  - destruct (running s t); [|discriminate]. injection H as <- <-. apply KP; auto. cbn. rewrite upd_other by lia. exact E.
  - destruct (running s t); [|discriminate]. destruct (scopes s t) as [|x l]; [discriminate|]. injection H as H. unfold run_leave in H.
    pose proof (same_drop_ref t (s_res x) s) as SM. pose proof (drop_sub t (s_res x) s (q_nd s Q _)) as (DS & _). destruct (drop_ref t (s_res x) s) as [s1 e1]. cbn in SM, DS. destruct SM as [R1 R2 R3 R4 R5 R6]. unfold seq2, destroy_res in H. injection H as <- <-.
    apply KP; auto. cbn. eapply nil_sub; [exact E|apply DS].
  - destruct (running s t && _); [|discriminate]. destruct (ph s t'0) eqn:P; try discriminate. injection H as <- <-.
    assert (n : t' <> t'0) by (intros ->; rewrite P in M; discriminate). unfold idle. cbn. rewrite !(upd_other _ _ t'0 _ t') by auto. rewrite upd_other by lia. auto.
  - destruct (ph s t'0) eqn:P; try discriminate. destruct (boot s (tres s t'0)) eqn:B'; [|discriminate]. destruct (stopped s t'0); [discriminate|]. injection H as H.
    pose proof (same_drop_ref t'0 (tres s t'0) (set_boot (upd (boot s) (tres s t'0) None) s)) as SM. pose proof (drop_sub t'0 (tres s t'0) (set_boot (upd (boot s) (tres s t'0) None) s) (q_nd s Q _)) as (DS & _). rewrite H in *. cbn in *. destruct SM as [R1 R2 R3 R4 R5 R6]. cbn in *.
    apply KP; auto. eapply nil_sub; [exact E|apply DS].
  - destruct (running s t && held s t'0); [|discriminate]. injection H as <- <-. apply KP; auto.
  - destruct (running s t && held s t'0); [|discriminate]. injection H as H. pose proof (same_drop_ref t (tres s t'0) (set_held t'0 false s)) as SM. pose proof (drop_sub t (tres s t'0) (set_held t'0 false s) (q_nd s Q _)) as (DS & _). rewrite H in *. destruct SM as [R1 R2 R3 R4 R5 R6]. cbn in *.
    apply KP; auto. eapply nil_sub; [exact E|apply DS].
  - destruct (ph s t'0) eqn:P; try discriminate. destruct (_ && _); [|discriminate]. injection H as <- <-. unfold idle. cbn. destruct (Nat.eq_dec t' t'0) as [->|n]; [rewrite upd_same; auto|rewrite upd_other by auto; auto].
  - destruct (ph s t'0) eqn:P; try discriminate. injection H as H. pose proof (same_drop_ref t'0 (tres s t'0) (set_ph t'0 Dropped s)) as SM. pose proof (drop_sub t'0 (tres s t'0) (set_ph t'0 Dropped s) (q_nd s Q _)) as (DS & _). rewrite H in *. cbn in *. destruct SM as [R1 R2 R3 R4 R5 R6]. cbn in *.
    unfold idle. rewrite R5, R6. split; [|reflexivity]. split; [destruct (Nat.eq_dec t' t'0) as [->|n]; [now rewrite upd_same|now rewrite upd_other]|]. eapply nil_sub; [exact E|apply DS].
  - destruct (ph s t'0) eqn:P; try discriminate. injection H as <- <-. unfold idle. cbn. destruct (Nat.eq_dec t' t'0) as [->|n]; [rewrite upd_same; auto|rewrite upd_other by auto; auto].
  - destruct (_ && _); [|discriminate]. injection H as <- <-. apply KP; auto.
  - destruct (_ && _); [|discriminate]. injection H as <- <-. apply KP; auto.
  - destruct (_ && _); [|discriminate]. injection H as <- <-. apply KP; auto.
  - destruct (_ && _); [|discriminate]. injection H as <- <-. apply KP; auto. cbn. rewrite upd_other; [exact E|]. intros X. apply (N t o). now rewrite X.
  - destruct (_ && _); [|discriminate]. injection H as <- <-. apply KP; auto. cbn. destruct (Nat.eq_dec (tres s t') c) as [<-|n]; [rewrite upd_same, E; reflexivity|now rewrite upd_other].
  - destruct (_ && _); [|discriminate]. injection H as <- <-. apply KP; auto.
  - destruct (_ && _); [|discriminate]. injection H as <- <-. apply KP; auto.
Qed.

Lemma idle_run : forall t' ls s s' es, WR s -> WQ s -> idle t' s -> (forall t o, ~ In (Queue t o (tres s t')) ls) -> run s ls = Some (s', es) -> idle t' s' /\ tres s' t' = tres s t'.
Proof.
  intros t'. induction ls as [|l ls IH]; cbn; intros s s' es W Q A N H.
  - injection H as <- <-. auto.
  - destruct (step s l) as [[s1 e1]|] eqn:E; [|discriminate]. destruct (run s1 ls) as [[s2 e2]|] eqn:E2; [|discriminate]. injection H as <- <-.
    destruct (idle_step t' s l s1 e1 W Q A E) as (A1 & T1); [intros t o ->; apply (N t o); now left|].
    rewrite <- T1. eapply IH; [eapply WR_step; eauto|eapply WQ_step; eauto|exact A1| |exact E2]. rewrite T1. intros t o I. apply (N t o). now right.
Qed.

Theorem C85_quiet_end : forall ls1 t' s1 es1 s2 es2 ls2 s es t s' es',
  run init ls1 = Some (s1, es1) -> step s1 (Leave t' Quiet) = Some (s2, es2) -> run s2 ls2 = Some (s, es) ->
  (forall u o, ~ In (Queue u o (tres s1 t')) ls2) -> step s (DropObj t t') = Some (s', es') ->
  es' = [] /\ ub s' = ub s /\ foreign s' = foreign s.
Proof.
  intros ls1 t' s1 es1 s2 es2 ls2 s es t s' es' H1 H2 H3 N H4. destruct (reach_W _ _ _ H1) as (W1 & Q1).
  assert (W2 := WR_step _ _ _ _ W1 H2). assert (Q2 := WQ_step _ _ _ _ W1 Q1 H2). destruct (run_W _ _ _ _ W2 Q2 H3) as (W & Q).
  assert (A2 : idle t' s2 /\ tres s2 t' = tres s1 t').
  { cbn in H2. destruct (ph s1 t') eqn:P; try discriminate. destruct (is_nil (scopes s1 t')); [|discriminate]. cbn in H2. destruct (queued s1 (tres s1 t')) eqn:E; [|discriminate]. cbn in H2.
    destruct (is_none _); [|discriminate]. injection H2 as <- _. unfold idle. cbn. now rewrite upd_same. }
  destruct A2 as (A2 & T2). rewrite <- T2 in N. destruct (idle_run t' ls2 s2 s es W2 Q2 A2 N H3) as ((_ & A) & _).
  cbn in H4. destruct (running s t && held s t'); [|discriminate]. injection H4 as H4. unfold drop_ref in H4. cbv zeta in H4. destruct (_ =? 0); [|injection H4 as <- <-; auto].
  unfold destroy_ctx in H4. cbn [queued set_refs set_held] in H4. rewrite A in H4. cbn in H4. injection H4 as <- <-. auto.
Qed.
Print Assumptions C85_quiet_end.

(** Cases that meet the hypotheses. *)
Fixpoint ok (s : state) (ls : list label) : Prop :=
  match ls with [] => True | l :: ls' => polite s l /\ match step s l with None => True | Some (s', _) => ok s' ls' end end.
Lemma ok_orderly : forall ls, ok init ls -> orderly ls.
Proof.
  intros ls H ls1 l ls2 s es -> R. revert H R. generalize init. revert s es. induction ls1 as [|a ls1 IH]; cbn; intros s es s0 (H1 & H2) R.
  - injection R as <- <-. exact H1.
  - destruct (step s0 a) as [[s1 e1]|]; [|discriminate]. destruct (run s1 ls1) as [[s2 e2]|] eqn:E; [|discriminate]. injection R as <- <-. eapply IH; eauto.
Qed.

(** Nested runs, each with a frame pending when it returns; a thread with a pending frame of its own that ends
    after its object was destroyed. *)
Definition tour : list label :=
  [RunEnter 0; Alloc 0 5; RunEnter 0; Alloc 0 6; Queue 0 5 2; Queue 0 6 2; Start 0 1 9; Boot 1; Alloc 1 7; Queue 1 7 3; Use 0 5; RunLeave 0;
   Stop 0 1; DropObj 0 1; Leave 1 Stopped; Alloc 0 8; Queue 0 8 1; DropIn 1; EndT 1; RunLeave 0].
Definition tour_shows : list event := Eval vm_compute in match obs tour with Some (es, _, _) => es | None => [] end.
Example C85_nonvacuous : orderly tour /\ (exists s es, run init tour = Some (s, es) /\ gone es 1 /\ gone es 2 /\ gone es 3 /\ freed es 5 /\ freed es 7 /\ freed es 8) /\
  balanced 0 tour.
Proof.
  split; [|split; [|reflexivity]].
  - apply ok_orderly. vm_compute. repeat match goal with |- _ /\ _ => split | |- True => exact I | |- _ = _ => reflexivity end.
    + right. exists [], [1]. split; [reflexivity|auto].
    + right. exists [], [1]. split; [reflexivity|auto].
    + right. exists [], []. split; [reflexivity|auto].
    + right. auto.
    + left. reflexivity.
    + right. exists [], []. split; [reflexivity|auto].
  - assert (X : obs tour = Some (tour_shows, false, false)) by (vm_compute; reflexivity). destruct (obs_run _ _ _ _ X) as (s & E & _).
    exists s, tour_shows. split; [exact E|]. unfold gone, freed. cbn. repeat split; auto 20.
    + exists 0; auto 20.
    + exists 1; auto 20.
    + exists 0; auto 20.
Qed.

(** A result handed over by run and used, and destroyed, later. *)
Example C85_result_nonvacuous : exists s es s1 es1 s2 es2 s3 es3,
  run init [RunEnter 0; Alloc 0 5] = Some (s, es) /\ step s (Hand 0 5 6) = Some (s1, es1) /\ run s1 [RunLeave 0] = Some (s2, es2) /\ ~ freed es2 6 /\ step s2 (Use 0 6) = Some (s3, es3).
Proof.
  destruct (obs_run [RunEnter 0; Alloc 0 5; Hand 0 5 6; RunLeave 0; Use 0 6] [EAlloc 0 5 1; EAlloc 0 6 0; EUse 0 5; EFree 0 5; EGone 1; EUse 0 6] false false ltac:(vm_compute; reflexivity)) as (s4 & E & _).
  destruct (run_app [RunEnter 0; Alloc 0 5] _ _ _ _ E) as (s & es & e2 & H1 & H2 & X1).
  destruct (run_app [Hand 0 5 6] _ _ _ _ H2) as (s1 & es1 & e3 & H3 & H4 & X2).
  destruct (run_app [RunLeave 0] _ _ _ _ H4) as (s2 & es2 & e4 & H5 & H6 & X3).
  cbn [run] in H3. destruct (step s (Hand 0 5 6)) as [[s1' e1']|] eqn:E1; [|discriminate]. injection H3 as <- <-.
  cbn [run] in H6. destruct (step s2 (Use 0 6)) as [[s3' e3']|] eqn:E3; [|discriminate]. 
  exists s, es, s1', e1', s2, es2, s3', e3'. repeat split; auto.
  intros (t & F). assert (I : In (EFree t 6) [EAlloc 0 5 1; EAlloc 0 6 0; EUse 0 5; EFree 0 5; EGone 1; EUse 0 6]) by (rewrite X1, X2, X3; rewrite !in_app_iff; auto).
  cbn in I. intuition discriminate.
Qed.

(** A thread stopped before it started. *)
Example C85_never_started_nonvacuous : exists s es, run init ([] ++ Start 0 1 9 :: [Stop 0 1] ++ Leave 1 Stopped :: [DropIn 1; EndT 1; DropObj 0 1]) = Some (s, es).
Proof.
  destruct (obs_run ([] ++ Start 0 1 9 :: [Stop 0 1] ++ Leave 1 Stopped :: [DropIn 1; EndT 1; DropObj 0 1]) [EAlloc 0 9 0; EGone 1] false false ltac:(vm_compute; reflexivity)) as (s & E & _). eauto.
Qed.

(** A thread that works, ends by itself and is awaited. *)
Example C85_quiet_end_nonvacuous : exists s1 es1 s2 es2 s es s' es',
  run init [Start 0 1 9; Boot 1; Alloc 1 5; Queue 1 5 1; Take 1 5 1; Free 1 5] = Some (s1, es1) /\ step s1 (Leave 1 Quiet) = Some (s2, es2) /\
  run s2 [DropIn 1; EndT 1] = Some (s, es) /\ step s (DropObj 0 1) = Some (s', es').
Proof.
  destruct (obs_run ([Start 0 1 9; Boot 1; Alloc 1 5; Queue 1 5 1; Take 1 5 1; Free 1 5] ++ [Leave 1 Quiet] ++ [DropIn 1; EndT 1] ++ [DropObj 0 1]) [EAlloc 0 9 0; EAlloc 1 5 1; EFree 1 5; EGone 1] false false ltac:(vm_compute; reflexivity)) as (s4 & E & _).
  destruct (run_app _ _ _ _ _ E) as (s1 & es1 & e2 & H1 & H2 & _).
  destruct (run_app [Leave 1 Quiet] _ _ _ _ H2) as (s2 & es2 & e3 & H3 & H4 & _).
  destruct (run_app [DropIn 1; EndT 1] _ _ _ _ H4) as (s & es & e4 & H5 & H6 & _).
  cbn [run] in H3. destruct (step s1 (Leave 1 Quiet)) as [[s2' e2']|] eqn:E1; [|discriminate]. injection H3 as <- <-.
  cbn [run] in H6. destruct (step s (DropObj 0 1)) as [[s3' e3']|] eqn:E3; [|discriminate].
  exists s1, es1, s2', e2', s, es, s3', e3'. auto.
Qed.
