(** * Theorems about cancellation and throw_if_cancelled (property C44) *)
From Coq Require Import List Bool NArith Lia.
From Verif Require Import Tic_Model Tic_Spec.
Import ListNotations.
Local Open Scope N_scope.

(** the state after a history *)
Definition after (c0 : bool) (ls : list label) : state := fst (run (init c0) ls).
(** what the next thing shows *)
Definition next (c0 : bool) (ls : list label) (l : label) : list event := snd (step (after c0 ls) l).

Lemma run_app a b s : run s (a ++ b) =
  (let '(s1, e1) := run s a in let '(s2, e2) := run s1 b in (s2, e1 ++ e2)).
Proof.
  revert s; induction a as [|l a IH]; intro s; cbn [app run].
  - destruct (run s b); reflexivity.
  - destruct (step s l) as [s1 e1]. rewrite IH. destruct (run s1 a) as [s2 e2].
    destruct (run s2 b) as [s3 e3]. rewrite app_assoc. reflexivity.
Qed.
Lemma after_snoc c0 ls l : after c0 (ls ++ [l]) = fst (step (after c0 ls) l).
Proof.
  unfold after. rewrite run_app. destruct (run (init c0) ls) as [s1 e1]. cbn [run].
  cbn [fst]. destruct (step s1 l); reflexivity.
Qed.
(** [next] is what a run emits last *)
Lemma next_run c0 ls l : snd (run (init c0) (ls ++ [l])) = snd (run (init c0) ls) ++ next c0 ls l.
Proof.
  unfold next, after. rewrite run_app. destruct (run (init c0) ls) as [s1 e1]. cbn [run fst snd].
  destruct (step s1 l) as [s2 e2]. cbn [snd]. rewrite app_nil_r. reflexivity.
Qed.

Lemma conn_app c a b : connected_after c (a ++ b) = connected_after (connected_after c a) b.
Proof. revert c; induction a as [|l a IH]; intro c; [reflexivity|]. destruct l; cbn; apply IH. Qed.
Lemma inf_app c a b : in_filter_after c (a ++ b) = in_filter_after (in_filter_after c a) b.
Proof. revert c; induction a as [|l a IH]; intro c; [reflexivity|]. destruct l; cbn; apply IH. Qed.
Lemma outf_app c a b : out_filter_after c (a ++ b) = out_filter_after (out_filter_after c a) b.
Proof. revert c; induction a as [|l a IH]; intro c; [reflexivity|]. destruct l; cbn; apply IH. Qed.
Lemma thr_app c a b : throws_after c (a ++ b) = throws_after (throws_after c a) b.
Proof. revert c; induction a as [|l a IH]; intro c; [reflexivity|]. destruct l; cbn; apply IH. Qed.

Lemma snoc_split {A} (ls : list A) l a x b : ls ++ [l] = a ++ x :: b ->
  (b = [] /\ a = ls /\ x = l) \/ exists b', b = b' ++ [l] /\ ls = a ++ x :: b'.
Proof.
  intro H. destruct b as [|y b] using rev_ind.
  - apply app_inj_tail in H as [-> ->]. left. auto.
  - right. exists b. change (a ++ x :: b ++ [y]) with (a ++ (x :: b) ++ [y]) in H.
    rewrite app_assoc in H. apply app_inj_tail in H as [-> ->]. auto.
Qed.

Lemma no_reset_same f ls : existsb is_reset ls = false -> in_filter_after f ls = f.
Proof.
  revert f; induction ls as [|l ls IH]; intro f; [reflexivity|]. cbn [existsb].
  intro H. apply orb_false_iff in H as [H1 H2]. destruct l; try discriminate; cbn; apply IH; exact H2.
Qed.
Lemma no_reset_conn f ls : existsb is_reset ls = false -> connected_after f ls = f.
Proof.
  revert f; induction ls as [|l ls IH]; intro f; [reflexivity|]. cbn [existsb].
  intro H. apply orb_false_iff in H as [H1 H2]. destruct l; try discriminate; cbn; apply IH; exact H2.
Qed.

(** the state is what the history says *)
Definition agrees (c0 : bool) (ls : list label) (s : state) : Prop :=
  source s = connected_after c0 ls /\ throws s = throws_after true ls /\
  (cancelled s <> 0 <-> cancelled_and_stays c0 ls) /\
  match st s with
  | Some (i, o, _) => connected_after c0 ls = true /\
      i = in_filter_after enable_total ls /\ o = out_filter_after enable_total ls
  | None => connected_after c0 ls = false
  end.

Lemma not_stays_reset c0 ls l : is_reset l = true -> ~ cancelled_and_stays c0 (ls ++ [l]).
Proof.
  intros R (a & t & b & H & _ & _ & N & _). apply snoc_split in H as [(-> & -> & <-)|(b' & -> & _)].
  - discriminate.
  - rewrite existsb_app in N. cbn in N. rewrite R in N. rewrite orb_true_r in N. discriminate.
Qed.
Lemma stays_neutral c0 ls l : is_reset l = false -> is_signal l = false ->
  (cancelled_and_stays c0 (ls ++ [l]) <-> cancelled_and_stays c0 ls).
Proof.
  intros R S. split.
  - intros (a & t & b & H & C & F & N & U).
    apply snoc_split in H as [(_ & _ & <-)|(b' & -> & ->)]; [discriminate|].
    exists a, t, b'. repeat split; auto.
    + rewrite existsb_app in N. apply orb_false_iff in N. tauto.
    + intros u Hu. apply U. apply in_or_app. auto.
  - intros (a & t & b & -> & C & F & N & U). exists a, t, (b ++ [l]). repeat split; auto.
    + rewrite <- app_assoc. reflexivity.
    + rewrite existsb_app, N. cbn. rewrite R. reflexivity.
    + intros u Hu. apply in_app_or in Hu as [Hu|[->|[]]]; [auto|discriminate].
Qed.
Lemma stays_signal c0 ls t : cancelled_and_stays c0 (ls ++ [LSignal t]) <->
  connected_after c0 ls = true /\ in_filter_after enable_total ls t <> 0.
Proof.
  split.
  - intros (a & u & b & H & C & F & N & U). apply snoc_split in H as [(-> & -> & K)|(b' & -> & ->)].
    + injection K as ->. auto.
    + rewrite existsb_app in N. apply orb_false_iff in N as [N _].
      assert (N' : existsb is_reset (LSignal u :: b') = false) by exact N.
      rewrite conn_app, inf_app, no_reset_conn, no_reset_same by exact N'. split; [exact C|].
      apply U. apply in_or_app. right. left. reflexivity.
  - intros [C F]. exists ls, t, []. split; [reflexivity|]. split; [exact C|]. split; [exact F|].
    split; [reflexivity|]. intros u [].
Qed.

Lemma agrees_after c0 ls : agrees c0 ls (after c0 ls).
Proof.
  induction ls as [|l ls IH] using rev_ind.
  - unfold agrees, after. cbn. split; [reflexivity|]. split; [reflexivity|]. split.
    + split; [destruct c0; cbn; congruence|].
      intros (a & t & b & H & _). destruct a; discriminate.
    + destruct c0; cbn; auto.
  - rewrite after_snoc. destruct IH as (S & T & M & F).
    destruct l; unfold agrees; rewrite conn_app, thr_app, inf_app, outf_app.
    1: { (* signal *)
      cbn [connected_after throws_after in_filter_after out_filter_after step].
      rewrite stays_signal.
      destruct (st (after c0 ls)) as [[[i o] m]|] eqn:E; cbn [fst source throws st cancelled].
      - destruct F as (Fc & -> & ->). split; [exact S|]. split; [exact T|]. split; [|auto].
        unfold cancelled; cbn [st]. tauto.
      - rewrite E. split; [exact S|]. split; [exact T|]. split; [|exact F].
        unfold cancelled; rewrite E. split; [congruence|]. intros [K _]. congruence. }
    all: cbn [connected_after throws_after in_filter_after out_filter_after step fst source throws st];
      try (rewrite stays_neutral by reflexivity; split; [exact S|]; split; [exact T || reflexivity|]; split; [exact M|exact F]).
    all: try (split; [assumption|]; split; [assumption|]; split;
      [ split; [|intro K; exfalso; revert K; apply not_stays_reset; reflexivity];
        unfold new_state, cancelled; rewrite S; cbn [st]; destruct (connected_after c0 ls); congruence
      | unfold new_state; rewrite S; destruct (connected_after c0 ls); auto; fail]).
    + (* source *) repeat split; auto.
      * unfold cancelled, new_state; cbn [st]. destruct connected; congruence.
      * intro K; exfalso; revert K; apply not_stays_reset; reflexivity.
      * destruct connected; cbn; auto.
    + (* clear *) repeat split; auto.
      * unfold cancelled; cbn [st]. destruct (st (after c0 ls)) as [[[i o] m]|]; congruence.
      * intro K; exfalso; revert K; apply not_stays_reset; reflexivity.
      * destruct (st (after c0 ls)) as [[[i o] m]|]; auto.
Qed.

(** When an ordinary co_await throws operation_aborted, exactly *)
Theorem C44_aborts_iff : forall c0 ls,
  next c0 ls LAwait = [EAborted] <-> cancelled_and_stays c0 ls /\ throws_after true ls = true.
Proof.
  intros. destruct (agrees_after c0 ls) as (_ & T & M & _). unfold next. cbn [step snd].
  rewrite <- M, <- T. destruct (N.eqb_spec (cancelled (after c0 ls)) 0) as [E|E]; cbn [negb andb].
  - split; [discriminate|]. intros [K _]. contradiction.
  - destruct (throws (after c0 ls)); split; intros; auto; try discriminate. destruct H; discriminate.
Qed.
Print Assumptions C44_aborts_iff.

(** Once a signal passed the filter, the next ordinary co_await throws unless switched off,
    provided no later signal was kept out *)
Theorem C44_aborts_partial : forall c0 ls,
  cancelled_and_stays c0 ls -> throws_after true ls = true -> next c0 ls LAwait = [EAborted].
Proof. intros. apply C44_aborts_iff. auto. Qed.
Print Assumptions C44_aborts_partial.

(** co_await throw_if_cancelled() says whether it is switched on *)
Theorem C44_query : forall c0 ls, next c0 ls LThrows = [EBool (throws_after true ls)].
Proof. intros. destruct (agrees_after c0 ls) as (_ & T & _). unfold next. cbn [step snd]. rewrite <- T. reflexivity. Qed.
Print Assumptions C44_query.

(** It throws for no other reason *)
Theorem C44_no_spurious : forall c0 ls,
  next c0 ls LAwait = [EAborted] -> cancelled_by c0 ls /\ throws_after true ls = true.
Proof.
  intros c0 ls H. apply C44_aborts_iff in H as [(a & t & b & H) T]. split; [|exact T].
  exists a, t, b. tauto.
Qed.
Print Assumptions C44_no_spurious.

(** Otherwise it proceeds *)
Theorem C44_proceeds : forall c0 ls,
  ~ (cancelled_by c0 ls /\ throws_after true ls = true) -> next c0 ls LAwait = [EProceeds].
Proof.
  intros c0 ls H. destruct (next c0 ls LAwait) as [|e r] eqn:E; unfold next in E; cbn in E; [discriminate|].
  assert (X : next c0 ls LAwait <> [EAborted]) by (intro K; apply H, C44_no_spurious, K).
  unfold next in *. cbn [step snd] in *.
  destruct (negb (cancelled (after c0 ls) =? 0) && throws (after c0 ls)); [contradiction|].
  injection E as <- <-. reflexivity.
Qed.
Print Assumptions C44_proceeds.

(** A reset clears the cancellation: until the next signal nothing is thrown and nothing is
    reported, and the reset does not switch throwing on or off *)
Theorem C44_reset : forall c0 a l b, is_reset l = true -> existsb is_signal b = false ->
  next c0 (a ++ l :: b) LAwait = [EProceeds] /\ next c0 (a ++ l :: b) LCancelled = [EIs 0] /\
  throws_after true (a ++ l :: b) = throws_after (throws_after true a) b.
Proof.
  intros c0 a l b R S.
  assert (N : ~ cancelled_and_stays c0 (a ++ l :: b)).
  { intros (a' & t & b' & H & _ & _ & N & _).
    revert a l R H. revert b' N. induction b as [|x b IH] using rev_ind; intros b' N a l R H.
    - apply snoc_split in H as [(-> & -> & <-)|(b'' & -> & _)]; [discriminate|].
      rewrite existsb_app in N. cbn in N. rewrite R, orb_true_r in N. discriminate.
    - rewrite existsb_app in S. apply orb_false_iff in S as [S1 S2].
      change (a ++ l :: b ++ [x]) with (a ++ (l :: b) ++ [x]) in H. rewrite app_assoc in H.
      apply snoc_split in H as [(-> & -> & <-)|(b'' & -> & H)]; [discriminate|].
      rewrite existsb_app in N. apply orb_false_iff in N as [N _]. eapply IH; eauto. }
  assert (N2 : next c0 (a ++ l :: b) LAwait <> [EAborted]) by (intro K; apply C44_aborts_iff in K; tauto).
  destruct (agrees_after c0 (a ++ l :: b)) as (_ & _ & M & _). unfold next in *. cbn [step snd] in *.
  destruct (N.eqb_spec (cancelled (after c0 (a ++ l :: b))) 0) as [E|E]; [|tauto].
  rewrite E. repeat split. rewrite thr_app. destruct l; try discriminate; reflexivity.
Qed.
Print Assumptions C44_reset.

(** A signal reaches the operation waited for exactly as the two filters say, whatever
    throw_if_cancelled is *)
Theorem C44_forward : forall c0 ls t u,
  In (EForward u) (next c0 ls (LSignal t)) <->
  connected_after c0 ls = true /\ u <> 0 /\
  u = out_filter_after enable_total ls (in_filter_after enable_total ls t).
Proof.
  intros. destruct (agrees_after c0 ls) as (_ & _ & _ & F). unfold next. cbn [step].
  destruct (st (after c0 ls)) as [[[i o] m]|].
  - destruct F as (C & -> & ->). cbn [snd].
    destruct (N.eqb_spec (out_filter_after enable_total ls (in_filter_after enable_total ls t)) 0) as [E|E].
    + split; [intros []|]. intros (_ & K & ->). contradiction.
    + split.
      * intros [K|[]]. injection K as <-. auto.
      * intros (_ & _ & ->). left. reflexivity.
  - cbn [snd]. split; [intros []|]. intros (K & _). congruence.
Qed.
Print Assumptions C44_forward.

(** A signal the filter keeps out does not cancel a coroutine that was not cancelled, and none of
    the other this_coro awaitables ever throws *)
Theorem C44_filtered_partial : forall c0 ls t,
  in_filter_after enable_total ls t = 0 -> ~ cancelled_and_stays c0 ls ->
  next c0 (ls ++ [LSignal t]) LAwait = [EProceeds].
Proof.
  intros c0 ls t F N.
  assert (X : next c0 (ls ++ [LSignal t]) LAwait <> [EAborted]).
  { intro K. apply C44_aborts_iff in K as [K _]. apply stays_signal in K as [_ K]. contradiction. }
  unfold next in *. cbn [step snd] in *.
  destruct (negb (cancelled (after c0 (ls ++ [LSignal t])) =? 0) && throws (after c0 (ls ++ [LSignal t])));
    [contradiction|reflexivity].
Qed.
Print Assumptions C44_filtered_partial.

Theorem C44_only_awaits_throw : forall c0 ls l, In EAborted (next c0 ls l) -> l = LAwait.
Proof.
  intros c0 ls l H. unfold next in H. destruct l; auto; cbn [step snd] in H; try (destruct H as [H|[]]; discriminate); try destruct H.
  destruct (st (after c0 ls)) as [[[i o] m]|]; [|destruct H]. cbn [snd] in H.
  destruct (o (i t) =? 0); [destruct H|]. destruct H as [H|[]]; discriminate.
Qed.
Print Assumptions C44_only_awaits_throw.

(** [co_await cancelled] reports a cancellation exactly when there is one, also with throwing off *)
Theorem C44_cancelled : forall c0 ls,
  exists t, next c0 ls LCancelled = [EIs t] /\ (t <> 0 <-> cancelled_and_stays c0 ls).
Proof.
  intros. exists (cancelled (after c0 ls)). split; [reflexivity|]. apply agrees_after.
Qed.
Print Assumptions C44_cancelled.

(** The claim without the proviso is false: a signal the filter keeps out erases an earlier one
    that passed (asio assigns the mask); after a terminal signal, a total one that the filter
    drops leaves the coroutine running *)
Theorem C44_filtered_clears_refuted : exists c0 ls,
  cancelled_by c0 ls /\ throws_after true ls = true /\ next c0 ls LAwait = [EProceeds].
Proof.
  exists true, [LReset1 enable_terminal; LSignal terminal; LSignal total]. split; [|split; reflexivity].
  exists [LReset1 enable_terminal], terminal, [LSignal total]. repeat split. discriminate.
Qed.
Print Assumptions C44_filtered_clears_refuted.

(** An asio operation awaited directly is not checked: a cancelled coroutine starts it *)
Theorem C44_deferred_refuted : exists c0 ls,
  cancelled_and_stays c0 ls /\ throws_after true ls = true /\ next c0 ls LAwaitDeferred = [EProceeds].
Proof.
  exists true, [LSignal terminal]. split; [|split; reflexivity].
  exists [], terminal, []. repeat split; [discriminate|]. intros u [].
Qed.
Print Assumptions C44_deferred_refuted.

(** A concrete history: total passes by default; switched off it is only reported; a partial filter
    keeps total out *)
Example C44_nonvacuous :
  snd (run (init true) [LAwait; LSignal total; LAwait; LThrowIf false; LAwait; LCancelled; LThrows;
    LThrowIf true; LAwait; LReset1 enable_partial; LAwait; LSignal total; LAwait; LSignal partial; LAwait;
    LClear; LAwait; LReset2 enable_total enable_terminal; LSignal partial; LAwait]) =
  [EProceeds; EForward total; EAborted; EProceeds; EIs total; EBool false; EAborted; EProceeds; EProceeds;
   EForward partial; EAborted; EProceeds; EAborted] /\
  cancelled_and_stays true [LReset1 enable_partial; LSignal partial; LSignal 6].
Proof.
  split; [reflexivity|]. exists [LReset1 enable_partial], partial, [LSignal 6]. repeat split; [discriminate|].
  intros u [K|[]]. injection K as <-. discriminate.
Qed.
