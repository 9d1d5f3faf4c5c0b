(** Properties C12-C19 and C54-C58: gather, join, race.

    Every theorem ranges over all argument lists [c] accepted by [wf], all
    behaviours of the children and of the environment [ls] (any interleaving,
    including re-entrant calls), and the observable trace [tr] they produce. *)
From Coq Require Import List Bool Arith Permutation.
From Verif Require Import Comb_Model Comb_Spec Comb_Claims Comb_Final Comb_Tidy Comb_Once.
Import ListNotations.

Section Props.
Context {V E : Type}.
Notation state := (state V E).
Notation event := (event V E).
Variables (c : cfg) (ls : list (label V E)) (s : state) (tr : list event).
Hypothesis W : wf c.
Hypothesis R : run c (init c) ls = Some (s, tr).

(** ** C12 gather *)
Theorem C12_gather_results : knd c = Gather -> forall r, resumptions tr = [r] ->
  exists xs, r = RAll xs /\ length xs = size c /\
    forall i, i < size c -> exists x, outcome_of tr i = Some x /\ nth_error xs i = Some (as_result x).
Proof. intros K r. exact (gather_result_all c ls s tr r W K R). Qed.

(** It continues only when every argument has finished. *)
Theorem C12_gather_waits_for_all : knd c <> Race -> forall a r b, tr = a ++ EResume r :: b ->
  forall i, i < size c -> In i (map fst (finished a)).
Proof. exact (waits_for_all c ls s tr W R). Qed.

(** A failing child does not cancel another one: without cancellation of the
    awaiting coroutine no child gets a signal, and without an interruption of
    the gather none is interrupted. *)
Theorem C12_gather_never_cancels : knd c = Gather -> uncancelled tr ->
  (forall i, signals i tr = []) /\ (In EInterrupted tr \/ forall i, interrupts i tr = 0).
Proof. intros K. exact (gather_silent c ls s tr W K R). Qed.

(** ** C13 join *)
Theorem C13_join_outcome : knd c = Join -> forall r, resumptions tr = [r] ->
  match first_error (finished tr) with
  | Some e => r = RThrow e
  | None => exists vs, r = RVals vs /\ length vs = size c /\
      forall i, i < size c -> exists v, outcome_of tr i = Some (CVal v) /\ nth_error vs i = Some v
  end.
Proof. intros K r. exact (join_result_all c ls s tr r W K R). Qed.
Theorem C13_join_waits_for_all : knd c <> Race -> forall a r b, tr = a ++ EResume r :: b ->
  forall i, i < size c -> In i (map fst (finished a)).
Proof. exact (waits_for_all c ls s tr W R). Qed.
(** After a failure, once control is back in the event loop, every child that
    still runs was sent the cancellation signal, exactly once unless the awaiting
    coroutine was cancelled as well. *)
Theorem C13_join_cancels_the_rest : knd c = Join -> at_rest s -> first_error (finished tr) <> None ->
  forall i, unfinished tr i -> In ct_all (signals i tr) /\ (uncancelled tr -> signals i tr = [ct_all]).
Proof. intros K A F i. exact (join_cancels c ls s tr i W K R A F). Qed.
(** In calm runs a signal reaches a child only after its await_suspend returned.
    Missing: runs in which a child finishes while another one is being started,
    see [C13_signal_timely_refuted]. *)
Theorem C13_signal_timely_partial : uncancelled tr -> calm tr -> forall i t b, In (EEmit i t b) tr -> b = false.
Proof. intros U C i t b. exact (signal_timely c ls s tr i t b W R U C). Qed.

(** ** C14 race *)
(** The first child to finish (or to begin a transaction) gives the result.
    Missing: a range of void children in runs that are not calm, a void child that
    won by a transaction, and as_tuple of a race that ends with an error; see the
    refutations below. *)
Theorem C14_race_outcome_partial : knd c = Race -> forall r, resumptions tr = [r] ->
  (ranged c = true -> void c 0 = true -> calm tr) ->
  exists w x, decided_by tr = Some w /\ outcome_of tr w = Some x /\
    ((void c w = true -> ~ In w (transactions tr)) ->
     (md c = AsTuple -> error_of x <> None -> only_index c = true) -> r = race_outcome c w x).
Proof. intros K r. exact (race_result_win c ls s tr r W K R). Qed.
(** It continues only when every child that was started has finished. *)
Theorem C14_race_waits_for_started : forall a r b, tr = a ++ EResume r :: b ->
  forall i, In i (started a) -> In i (map fst (finished a)).
Proof. exact (waits_for_started c ls s tr W R). Qed.
(** Once control is back in the event loop, every loser still running was cancelled,
    exactly once unless the awaiting coroutine was cancelled as well.
    Missing: runs that are not calm and children that throw out of as_result. *)
Theorem C14_race_cancels_losers_partial : knd c = Race -> at_rest s -> calm tr -> nothrow tr ->
  decided_by tr <> None -> forall i, decided_by tr <> Some i -> unfinished tr i ->
  In (rct c) (signals i tr) /\ (uncancelled tr -> signals i tr = [rct c]).
Proof. intros K A C N D i. exact (race_losers c ls s tr i W K R A C N D). Qed.
(** No child is ever sent two signals by the combinator. *)
Theorem C14_signalled_at_most_once : uncancelled tr -> forall i, signals i tr = [] \/ signals i tr = [own c].
Proof. intros U i. exact (signal_once c ls s tr i W R U). Qed.

(** ** C15 start order *)
Theorem C15_starts_in_order : (exists rest, ord c = started tr ++ rest) /\ NoDup (started tr).
Proof. exact (start_order c ls s tr W R). Qed.
(** A race starts a child only while none has finished and all children before it
    in the order were started.  Missing: runs that are not calm. *)
Theorem C15_race_stops_partial : knd c = Race -> forall a i b, tr = a ++ EStart i :: b -> calm a ->
  finished a = [] /\ transactions a = [] /\ exists rest, ord c = started a ++ i :: rest.
Proof. intros K a i b. exact (race_start c ls s tr a i b W K R). Qed.
(** left_race: when child [i] is started all children left of it were started and
    none of them was ready. *)
Theorem C15_left_race_leftmost_partial : knd c = Race -> forall n, ord c = seq 0 n ->
  forall a i b, tr = a ++ EStart i :: b -> calm a -> started a = seq 0 i /\ finished a = [].
Proof. intros K n Ho a i b. exact (left_race_start c ls s tr a i b n W K Ho R). Qed.

(** ** C16 the winner's error *)
Theorem C16_error_reported_partial : knd c = Race -> forall r, resumptions tr = [r] ->
  (ranged c = true -> void c 0 = true -> calm tr) ->
  forall w x e, decided_by tr = Some w -> outcome_of tr w = Some x -> error_of x = Some e ->
  (void c w = true -> ~ In w (transactions tr)) -> (md c = AsTuple -> only_index c = true) -> r = RThrow e.
Proof. intros K r. exact (race_error c ls s tr r W K R). Qed.

(** ** C17 one resumption *)
Theorem C17_resumed_at_most_once : length (resumptions tr) <= 1.
Proof. exact (proj1 (resumed_once c ls s tr W R)). Qed.
Theorem C17_resumed_when_all_done : at_rest s -> (forall i, ~ unfinished tr i) -> length (resumptions tr) = 1.
Proof. exact (proj2 (resumed_once c ls s tr W R)). Qed.
Theorem C17_resumed_only_after_last : forall a r b, tr = a ++ EResume r :: b ->
  (forall i, ~ unfinished a i) /\ resumptions a = [].
Proof. exact (resume_after_last c ls s tr W R). Qed.
Theorem C17_suspends_only_if_needed : forall a b, tr = a ++ EWait :: b -> exists i, unfinished a i.
Proof. exact (wait_needed c ls s tr W R). Qed.

(** ** C18 cancellation of the combinator *)
Theorem C18_gather_forwards : knd c = Gather -> at_rest s -> forall a u b, tr = a ++ ECancelled u :: b ->
  forall i, In i (started a) -> unfinished tr i -> In u (signals i b).
Proof. exact (gather_forwards c ls s tr W R). Qed.
(** join and race: the child got the signal, or it had been cancelled by the
    combinator already, or it is the winner by transaction.
    Missing: the signal itself in these cases. *)
Theorem C18_forwards_partial : at_rest s -> forall a u b, tr = a ++ ECancelled u :: b ->
  forall i, In i (started a) -> unfinished tr i ->
  In u (signals i b) \/ knd c <> Gather /\ (In (own c) (signals i tr) \/ In i (transactions tr)).
Proof. intros A a u b T i. exact (cancel_reaches c ls s tr a u b i W R T A). Qed.
Theorem C18_never_to_finished : forall a i t x b, tr = a ++ EEmit i t x :: b -> unfinished a i.
Proof. exact (emit_unfinished c ls s tr W R). Qed.

(** ** C19 transactions *)
Theorem C19_one_transaction :
  transactions tr = [] \/ exists i, transactions tr = [i] /\ decided_by tr = Some i.
Proof. exact (one_transaction c ls s tr W R). Qed.
Theorem C19_begins_only_if_undecided : forall a i b, tr = a ++ ETxBegin i :: b ->
  unfinished a i /\ finished a = [] /\ transactions a = [].
Proof. exact (tx_begin c ls s tr W R). Qed.
Theorem C19_second_attempt_rejected : forall a i b, tr = a ++ ETxReject i :: b ->
  exists j, In j (map fst (finished a)) \/ In j (transactions a).
Proof. exact (tx_reject c ls s tr W R). Qed.
Theorem C19_winner_not_cancelled : knd c = Race -> uncancelled tr -> forall i, In i (transactions tr) -> signals i tr = [].
Proof. intros K U i T. exact (proj2 (proj2 (race_tx_winner c ls s tr i W K R U T))). Qed.
(** All others are cancelled before the commit.  Missing: runs that are not calm. *)
Theorem C19_others_cancelled_before_commit_partial : forall a i b, tr = a ++ ETxCommit i :: b ->
  In i (transactions a) /\
  (calm a -> nothrow a -> forall j, j <> i -> unfinished a j -> In (rct c) (signals j a)).
Proof. exact (tx_commit c ls s tr W R). Qed.

(** ** C54 no access to a destroyed combinator
    Missing: children that complete from inside the combinator or another child's
    code, and a cancellation after the combinator finished. *)
Theorem C54_no_dangling_partial : orderly c (init c) ls -> cancelled_in_time tr -> ~ dangling tr.
Proof. exact (orderly_no_dangling c ls s tr W R). Qed.

(** ** C55 the handle that is released is never null, if there is at least one
    child.  Missing: an empty range, see [C55_empty_range_refuted]. *)
Theorem C55_non_empty_partial : ~ In ENull tr.
Proof. exact (no_null c ls s tr W R). Qed.

(** ** C56 every fork that has finished is destroyed, never more than twice, and
    only once if its child suspended or it was started after some child had
    suspended.  Missing: forks that end inside await_ready, see
    [C56_destroyed_once_refuted]. *)
Theorem C56_destroyed : at_rest s -> forall i, In i (map fst (finished tr)) -> 1 <= frees i tr.
Proof. intros A i. exact (frees_some c ls s tr i W R A). Qed.
Theorem C56_at_most_twice_partial : forall i, frees i tr <= 2.
Proof. intros i. exact (frees_twice c ls s tr i W R). Qed.
Theorem C56_late_once_partial : forall i, late i tr -> frees i tr <= 1 /\ (at_rest s -> In i (map fst (finished tr)) -> frees i tr = 1).
Proof. intros i. exact (frees_late c ls s tr i W R). Qed.

(** ** C57 await_ready is called at most once per child by a race and by the
    variadic gather and join, at most twice by the range overloads; a call either
    belongs to the start of the child or comes before any child is started.
    Missing: the range overloads call it twice, see [C57_ready_once_refuted]. *)
Theorem C57_ready_once_partial : forall i,
  (knd c = Race \/ ranged c = false -> probes i tr <= 1) /\ probes i tr <= 2.
Proof.
  intros i. pose proof (probes_bound c ls s tr i W R) as H. unfold is_race in H. split.
  - intros [K|K]; rewrite K in H; [rewrite andb_false_r in H|]; exact H.
  - eapply Nat.le_trans; [exact H|]. destruct (ranged c && _); auto.
Qed.
Theorem C57_ready_when : forall a i b, tr = a ++ EProbe i :: b ->
  (exists a', a = a' ++ [EStart i]) \/ started a = [] /\ ranged c = true /\ knd c <> Race.
Proof. exact (probes_when c ls s tr W R). Qed.

(** ** C58 interrupting a combinator interrupts every child that runs and can be
    interrupted; a join leaves out those it had cancelled already.
    Missing: the range overload of join, see [C58_join_interrupt_refuted]; there it
    works while no child has failed if the first child had to wait. *)
Theorem C58_interrupt_partial : at_rest s -> forall a b, tr = a ++ EInterrupted :: b ->
  forall i, In i (started a) -> unfinished tr i -> intr c i = true ->
  0 < interrupts i b \/ knd c = Join /\ (In (own c) (signals i tr) \/ ranged c = true).
Proof. intros A a b T i. exact (interrupt_reaches c ls s tr a b i W R A T). Qed.
Theorem C58_range_partial : at_rest s -> In (ESusp 0) tr -> first_error (finished tr) = None ->
  forall a b, tr = a ++ EInterrupted :: b ->
  forall i, In i (started a) -> unfinished tr i -> intr c i = true -> 0 < interrupts i b.
Proof. intros A S F a b T i Hs U Hi. exact (interrupt_ranged c ls s tr a b i W R A T Hs U Hi S F). Qed.
End Props.

(** ** Runs used as witnesses *)
Definition taus n : list (label nat nat) := repeat LTau n.
Definition cfg_of k rg n vd it m : cfg := mkCfg k rg (seq 0 n) (fun _ => vd) (fun _ => it) 1 m.
(** The first child is started, waits; a further child is started, waits; the
    awaiting coroutine is suspended. *)
Definition first := taus 2 ++ [LBegin BPark] ++ taus 4.
Definition next := taus 2 ++ [LBegin BPark] ++ taus 2.
Definition arm := taus 3.

Lemma cfg_of_wf k rg n vd it m : n <> 0 -> wf (cfg_of k rg n vd it m).
Proof. exact (simple_wf k rg n vd it m). Qed.

(** Two children of a gather, one fails; the same for join without failure. *)
Example C12_nonvacuous : exists (c : cfg) (ls : list (label nat nat)) s tr, wf c /\ run c (init c) ls = Some (s, tr) /\ knd c = Gather /\
  uncancelled tr /\ resumptions tr = [RAll [inr 7; inl 1]] /\ finished tr = [(1, CVal 1); (0, CErr 7)].
Proof.
  exists (cfg_of Gather false 2 false false Plain), (first ++ next ++ arm ++ [LComplete 1 (CVal 1)] ++ taus 1 ++ [LComplete 0 (CErr 7)] ++ taus 2).
  eexists; eexists; split; [apply cfg_of_wf; discriminate|]; split; [vm_compute; reflexivity|].
  split; [reflexivity|]. split; [|split; reflexivity]. cbn. intros t H. repeat (destruct H as [H|H]; [discriminate|]). exact H.
Qed.
Example C13_nonvacuous : exists (c : cfg) (ls : list (label nat nat)) s tr, wf c /\ run c (init c) ls = Some (s, tr) /\ knd c = Join /\
  at_rest s /\ calm tr /\ first_error (finished tr) = Some 4 /\ signals 1 tr = [ct_all] /\ unfinished tr 1.
Proof.
  exists (cfg_of Join false 2 false false Plain), (first ++ next ++ arm ++ [LComplete 0 (CErr 4)] ++ taus 4).
  eexists; eexists; split; [apply cfg_of_wf; discriminate|]; split; [vm_compute; reflexivity|].
  repeat split; try discriminate; cbn; auto. intros [|[]]. discriminate.
Qed.
Example C14_nonvacuous : exists (c : cfg) (ls : list (label nat nat)) s tr, wf c /\ run c (init c) ls = Some (s, tr) /\ knd c = Race /\
  calm tr /\ resumptions tr = [RWin 1 (Some 4)] /\ finished tr = [(1, CVal 4); (0, CErr 1); (2, CVal 1)] /\ signals 0 tr = [1].
Proof.
  exists (cfg_of Race true 3 false false Plain), (first ++ next ++ next ++ arm ++ [LComplete 1 (CVal 4)] ++ taus 10 ++ [LComplete 0 (CErr 1)] ++ taus 8++ [LComplete 2 (CVal 1)] ++ taus 9).
  eexists; eexists; split; [apply cfg_of_wf; discriminate|]; split; [vm_compute; reflexivity|]. repeat split; discriminate.
Qed.
(** left_race over two ready children: the second is never started. *)
Example C15_nonvacuous : exists (c : cfg) (ls : list (label nat nat)) s tr, wf c /\ run c (init c) ls = Some (s, tr) /\ knd c = Race /\ ord c = seq 0 2 /\
  calm tr /\ started tr = [0] /\ resumptions tr = [RWin 0 (Some 5)].
Proof.
  exists (cfg_of Race false 2 false false Plain), (taus 2 ++ [LBegin (BReady (CVal 5))] ++ taus 8).
  eexists; eexists; split; [apply cfg_of_wf; discriminate|]; split; [vm_compute; reflexivity|]. repeat split; discriminate.
Qed.
Example C16_nonvacuous : exists (c : cfg) (ls : list (label nat nat)) s tr, wf c /\ run c (init c) ls = Some (s, tr) /\ knd c = Race /\
  calm tr /\ decided_by tr = Some 0 /\ outcome_of tr 0 = Some (CErr 9) /\ resumptions tr = [RThrow 9].
Proof.
  exists (cfg_of Race false 2 true false Plain), (taus 2 ++ [LBegin (BReady (CErr 9))] ++ taus 8).
  eexists; eexists; split; [apply cfg_of_wf; discriminate|]; split; [vm_compute; reflexivity|]. repeat split; discriminate.
Qed.
Example C17_nonvacuous : exists (c : cfg) (ls : list (label nat nat)) s tr, wf c /\ run c (init c) ls = Some (s, tr) /\ at_rest s /\
  (exists a b, tr = a ++ EWait :: b) /\ (forall i, ~ unfinished tr i) /\ resumptions tr = [RVals [7; 1]].
Proof.
  exists (cfg_of Join false 2 false false Plain), (first ++ next ++ arm ++ [LComplete 1 (CVal 1)] ++ taus 1 ++ [LComplete 0 (CVal 7)] ++ taus 2).
  eexists; eexists; split; [apply cfg_of_wf; discriminate|]; split; [vm_compute; reflexivity|].
  split; [reflexivity|]. split; [exists [EStart 0; EProbe 0; ESusp 0; EStart 1; EProbe 1; ESusp 1]; eexists; reflexivity|].
  split; [|reflexivity]. intros i [[<-|[<-|[]]] H]; apply H; cbn; auto.
Qed.
Example C18_nonvacuous : exists (c : cfg) (ls : list (label nat nat)) s tr, wf c /\ run c (init c) ls = Some (s, tr) /\ knd c = Gather /\ at_rest s /\
  (exists a b, tr = a ++ ECancelled 1 :: b /\ In 0 (started a)) /\ unfinished tr 0 /\ signals 0 tr = [1].
Proof.
  exists (cfg_of Gather false 2 false false Plain), (first ++ next ++ arm ++ [LCancel 1] ++ taus 4).
  eexists; eexists; split; [apply cfg_of_wf; discriminate|]; split; [vm_compute; reflexivity|].
  split; [reflexivity|]. split; [reflexivity|].
  split; [exists [EStart 0; EProbe 0; ESusp 0; EStart 1; EProbe 1; ESusp 1; EWait]; eexists; split; [reflexivity|cbn; auto]|].
  split; [split; cbn; auto|reflexivity].
Qed.
Example C19_nonvacuous : exists (c : cfg) (ls : list (label nat nat)) s tr, wf c /\ run c (init c) ls = Some (s, tr) /\ knd c = Race /\
  calm tr /\ nothrow tr /\ transactions tr = [0] /\ In (ETxReject 1) tr /\ In (ETxCommit 0) tr /\ resumptions tr = [RWin 0 (Some 4)].
Proof.
  exists (cfg_of Race false 2 false false Plain), (first ++ next ++ arm ++ [LTransact 0] ++ taus 6 ++ [LTransact 1; LComplete 0 (CVal 4)] ++ taus 6 ++ [LComplete 1 (CErr 1)] ++ taus 7).
  eexists; eexists; split; [apply cfg_of_wf; discriminate|]; split; [vm_compute; reflexivity|].
  split; [reflexivity|]. split; [discriminate|]. split; [cbn; intros i x [[= <- <-]|[[= <- <-]|[]]]; reflexivity|].
  split; [reflexivity|]. cbn. split; [auto 12|]. split; [auto 12|reflexivity].
Qed.
Example C54_nonvacuous : exists (c : cfg) (ls : list (label nat nat)) s tr, wf c /\ run c (init c) ls = Some (s, tr) /\ orderly c (init c) ls /\
  cancelled_in_time tr /\ In (ECancelled 1) tr /\ resumptions tr = [RAll [inr 7; inl 1]].
Proof.
  exists (cfg_of Gather false 2 false false Plain), (first ++ next ++ arm ++ [LComplete 1 (CVal 1)] ++ taus 1 ++ [LCancel 1] ++ taus 3 ++ [LComplete 0 (CErr 7)] ++ taus 2).
  eexists; eexists; split; [apply cfg_of_wf; discriminate|]; split; [vm_compute; reflexivity|].
  split; [vm_compute; repeat split; auto|]. split.
  - intros a u b H. do 14 (destruct a as [|? a]; [cbn in H; try discriminate; reflexivity|]; cbn in H; injection H as <- H; cbn; try (rewrite ?H)).
    destruct a; discriminate.
  - split; [cbn; auto 12|reflexivity].
Qed.

(** ** Refutations *)
(** A join child fails while the next child's await_suspend runs: that child gets
    its only signal too early, and waits without being cancelled afterwards. *)
Theorem C13_signal_timely_refuted : exists (c : cfg) (ls : list (label nat nat)) s tr, wf c /\
  run c (init c) ls = Some (s, tr) /\ knd c = Join /\ uncancelled tr /\ at_rest s /\ unfinished tr 1 /\
  first_error (finished tr) <> None /\ In (EEmit 1 ct_all true) tr /\ ~ In (EEmit 1 ct_all false) tr.
Proof.
  exists (cfg_of Join false 2 false false Plain), (first ++ taus 2 ++ [LBegin BPark; LComplete 0 (CErr 5)] ++ taus 11).
  eexists; eexists; split; [apply cfg_of_wf; discriminate|]; split; [vm_compute; reflexivity|]. split; [reflexivity|].
  split; [cbn; intros t H; repeat (destruct H as [H|H]; [discriminate|]); exact H|].
  split; [reflexivity|]. split; [split; cbn; auto; intros [|[]]; discriminate|]. split; [discriminate|].
  split; [cbn; auto 12|]. cbn. intros H. repeat (destruct H as [H|H]; [discriminate|]). exact H.
Qed.
(** A race decided while a child is being started goes on starting children;
    these are never cancelled. *)
Theorem C14_losers_cancelled_refuted : exists (c : cfg) (ls : list (label nat nat)) s tr, wf c /\
  run c (init c) ls = Some (s, tr) /\ knd c = Race /\ at_rest s /\ nothrow tr /\ decided_by tr = Some 0 /\
  unfinished tr 2 /\ signals 2 tr = [] /\ interrupts 2 tr = 0.
Proof.
  exists (cfg_of Race false 3 false true Plain), (first ++ taus 2 ++ [LBegin BPark; LComplete 0 (CVal 5)] ++ taus 13 ++ next ++ arm).
  eexists; eexists; split; [apply cfg_of_wf; discriminate|]; split; [vm_compute; reflexivity|]. split; [reflexivity|].
  split; [reflexivity|]. split; [cbn; intros i x [[= <- <-]|[]]; reflexivity|]. split; [reflexivity|].
  split; [split; cbn; auto; intros [|[]]; discriminate|]. split; reflexivity.
Qed.
(** A child of a race whose await_ready throws wins, but the others are not cancelled. *)
Theorem C14_losers_cancelled_throw_refuted : exists (c : cfg) (ls : list (label nat nat)) s tr, wf c /\
  run c (init c) ls = Some (s, tr) /\ knd c = Race /\ at_rest s /\ calm tr /\ decided_by tr = Some 1 /\
  unfinished tr 0 /\ signals 0 tr = [] /\ interrupts 0 tr = 0.
Proof.
  exists (cfg_of Race false 2 false true Plain), (first ++ taus 2 ++ [LBegin (BThrow 6)] ++ taus 4).
  eexists; eexists; split; [apply cfg_of_wf; discriminate|]; split; [vm_compute; reflexivity|]. split; [reflexivity|].
  split; [reflexivity|]. split; [discriminate|]. split; [reflexivity|].
  split; [split; cbn; auto; intros [|[]]; discriminate|]. split; reflexivity.
Qed.
(** A race over a range of void awaitables reports the error of a loser. *)
Theorem C14_first_outcome_refuted : exists (c : cfg) (ls : list (label nat nat)) s tr, wf c /\
  run c (init c) ls = Some (s, tr) /\ knd c = Race /\ finished tr = [(0, CVal 0); (1, CErr 9)] /\
  transactions tr = [] /\ resumptions tr = [RThrow 9].
Proof.
  exists (cfg_of Race true 2 true false Plain), (first ++ taus 1 ++ [LComplete 0 (CVal 0)] ++ taus 7 ++ [LBegin (BReady (CErr 9))] ++ taus 10).
  eexists; eexists; split; [apply cfg_of_wf; discriminate|]; split; [vm_compute; reflexivity|]; repeat split.
Qed.
(** interrupt_await is called on the winner after it finished, and several times
    on a loser. *)
Theorem C14_interrupted_once_refuted : exists (c : cfg) (ls : list (label nat nat)) s tr, wf c /\
  run c (init c) ls = Some (s, tr) /\ knd c = Race /\ calm tr /\ orderly c (init c) ls /\ interrupts 2 tr = 2 /\
  exists a b, tr = a ++ EInterrupt 0 :: b /\ In 0 (map fst (finished a)).
Proof.
  exists (cfg_of Race false 3 false true Plain), (first ++ next ++ next ++ arm ++ [LComplete 0 (CVal 4)] ++ taus 13 ++ [LComplete 1 (CErr 4)] ++ taus 10).
  eexists; eexists; split; [apply cfg_of_wf; discriminate|]; split; [vm_compute; reflexivity|].
  split; [reflexivity|]. split; [discriminate|]. split; [vm_compute; repeat split; auto|]. split; [reflexivity|].
  exists [EStart 0; EProbe 0; ESusp 0; EStart 1; EProbe 1; ESusp 1; EStart 2; EProbe 2; ESusp 2; EWait; EDone 0 (CVal 4)].
  eexists. split; [reflexivity|cbn; auto].
Qed.
Theorem C15_race_stops_refuted : exists (c : cfg) (ls : list (label nat nat)) s tr, wf c /\
  run c (init c) ls = Some (s, tr) /\ knd c = Race /\ exists a b, tr = a ++ EStart 2 :: b /\ finished a = [(0, CVal 5)].
Proof.
  exists (cfg_of Race false 3 false false Plain), (first ++ taus 2 ++ [LBegin BPark; LComplete 0 (CVal 5)] ++ taus 11 ++ next ++ arm).
  eexists; eexists; split; [apply cfg_of_wf; discriminate|]; split; [vm_compute; reflexivity|]. split; [reflexivity|].
  exists [EStart 0; EProbe 0; ESusp 0; EStart 1; EProbe 1; EDone 0 (CVal 5); EEmit 1 1 true; EFree 0; ESusp 1]. eexists. split; reflexivity.
Qed.
(** A void child that won by a transaction and then fails: the error is lost. *)
Theorem C16_error_reported_void_transaction_refuted : exists (c : cfg) (ls : list (label nat nat)) s tr, wf c /\
  run c (init c) ls = Some (s, tr) /\ knd c = Race /\ calm tr /\ decided_by tr = Some 0 /\ outcome_of tr 0 = Some (CErr 4) /\
  resumptions tr = [RWin 0 None].
Proof.
  exists (cfg_of Race false 2 true false Plain), (first ++ next ++ arm ++ [LTransact 0] ++ taus 6 ++ [LComplete 0 (CErr 4)] ++ taus 6 ++ [LComplete 1 (CVal 0)] ++ taus 7).
  eexists; eexists; split; [apply cfg_of_wf; discriminate|]; split; [vm_compute; reflexivity|]. repeat split; discriminate.
Qed.
(** as_tuple of a race that ends with an error reads an empty optional. *)
Theorem C16_as_tuple_error_refuted : exists (c : cfg) (ls : list (label nat nat)) s tr, wf c /\
  run c (init c) ls = Some (s, tr) /\ knd c = Race /\ calm tr /\ finished tr = [(0, CErr 9)] /\ resumptions tr = [RUndef].
Proof.
  exists (cfg_of Race false 1 false false AsTuple), (taus 2 ++ [LBegin (BReady (CErr 9))] ++ taus 6).
  eexists; eexists; split; [apply cfg_of_wf; discriminate|]; split; [vm_compute; reflexivity|]. repeat split; discriminate.
Qed.
(** A join that has cancelled its children does not forward a later cancellation. *)
Theorem C18_forwards_refuted : exists (c : cfg) (ls : list (label nat nat)) s tr, wf c /\
  run c (init c) ls = Some (s, tr) /\ knd c = Join /\ calm tr /\ at_rest s /\
  exists a, tr = a ++ [ECancelled 1] /\ unfinished tr 1 /\ ~ In 1 (signals 1 tr).
Proof.
  exists (cfg_of Join false 2 false false Plain), (first ++ next ++ arm ++ [LComplete 0 (CErr 4)] ++ taus 4 ++ [LCancel 1] ++ taus 2).
  eexists; eexists; split; [apply cfg_of_wf; discriminate|]; split; [vm_compute; reflexivity|]. split; [reflexivity|]. split; [discriminate|]. split; [reflexivity|].
  exists [EStart 0; EProbe 0; ESusp 0; EStart 1; EProbe 1; ESusp 1; EWait; EDone 0 (CErr 4); EEmit 1 7 false; EFree 0].
  split; [reflexivity|]. split; [split; cbn; auto; intros [|[]]; discriminate|]. cbn. intros [|[]]. discriminate.
Qed.
(** A transaction that begins while another child is being started commits although
    that child was not and will not be cancelled. *)
Theorem C19_others_cancelled_refuted : exists (c : cfg) (ls : list (label nat nat)) s tr, wf c /\
  run c (init c) ls = Some (s, tr) /\ knd c = Race /\ nothrow tr /\ at_rest s /\ In (ETxCommit 0) tr /\ unfinished tr 1 /\ signals 1 tr = [].
Proof.
  exists (cfg_of Race false 2 false false Plain), (first ++ taus 1 ++ [LTransact 0] ++ taus 6 ++ [LBegin BPark] ++ taus 5).
  eexists; eexists; split; [apply cfg_of_wf; discriminate|]; split; [vm_compute; reflexivity|]. split; [reflexivity|].
  split; [intros i x []|]. split; [reflexivity|]. split; [cbn; auto 12|]. split; [split; cbn; auto|reflexivity].
Qed.
(** A child completing inside the combinator's own cancellation loop: the loop goes
    on in the destroyed combinator. *)
Theorem C54_no_dangling_refuted : exists (c : cfg) (ls : list (label nat nat)) s tr, wf c /\
  run c (init c) ls = Some (s, tr) /\ calm tr /\ cancelled_in_time tr /\ dangling tr.
Proof.
  exists (cfg_of Gather false 2 false false Plain), (first ++ next ++ arm ++ [LComplete 1 (CVal 1)] ++ taus 1 ++ [LCancel 1] ++ taus 1 ++ [LComplete 0 (CErr 7)] ++ taus 4).
  eexists; eexists; split; [apply cfg_of_wf; discriminate|]; split; [vm_compute; reflexivity|]. split; [discriminate|]. split.
  - intros a u b H. do 15 (destruct a as [|? a]; [cbn in H; try discriminate; reflexivity|]; cbn in H; injection H as <- H; cbn; try (rewrite ?H)).
    destruct a; discriminate.
  - unfold dangling. cbn. auto 20.
Qed.
(** The handler stays in the awaiter's cancellation slot. *)
Theorem C54_stale_handler_refuted : exists (c : cfg) (ls : list (label nat nat)) s tr, wf c /\
  run c (init c) ls = Some (s, tr) /\ calm tr /\ orderly c (init c) ls /\ dangling tr.
Proof.
  exists (cfg_of Gather false 1 false false Plain), (first ++ arm ++ [LComplete 0 (CVal 4)] ++ taus 2 ++ [LCancel 1]).
  eexists; eexists; split; [apply cfg_of_wf; discriminate|]; split; [vm_compute; reflexivity|]. split; [discriminate|]. split; [vm_compute; repeat split; auto|].
  unfold dangling. cbn. auto 20.
Qed.
(** ** Cases that meet the hypotheses of C55 to C58 *)
(** gather of two: the first is ready, the second waits and finishes. *)
Example C56_nonvacuous : exists (c : cfg) (ls : list (label nat nat)) s tr, wf c /\ run c (init c) ls = Some (s, tr) /\ at_rest s /\
  late 1 tr /\ ~ late 0 tr /\ map fst (finished tr) = [0; 1] /\ frees 0 tr = 2 /\ frees 1 tr = 1 /\ probes 0 tr = 1 /\ probes 1 tr = 1.
Proof.
  exists (cfg_of Gather false 2 false false Plain), (taus 2 ++ [LBegin (BReady (CVal 1))] ++ taus 4 ++ [LBegin BPark] ++ taus 7 ++ [LComplete 1 (CVal 2)] ++ taus 2).
  eexists; eexists; split; [apply cfg_of_wf; discriminate|]; split; [vm_compute; reflexivity|]. split; [reflexivity|].
  split; [left; cbn; auto 20|]. split; [|repeat split].
  intros [H|(a & b & k & H & Hk)].
  - cbn in H. repeat (destruct H as [H|H]; [discriminate|]). exact H.
  - destruct a as [|y a]; [destruct Hk|]. cbn in H. injection H as <- H. destruct Hk as [|Hk]; [discriminate|].
    assert (Z : In (EStart 0) (a ++ EStart 0 :: b)) by (apply in_or_app; right; now left).
    rewrite <- H in Z. cbn in Z. repeat (destruct Z as [Z|Z]; [discriminate|]). exact Z.
Qed.
(** A range of three in a join, interrupted while the last two run. *)
Example C58_nonvacuous : exists (c : cfg) (ls : list (label nat nat)) s tr, wf c /\ run c (init c) ls = Some (s, tr) /\ knd c = Join /\ ranged c = true /\
  at_rest s /\ In (ESusp 0) tr /\ first_error (finished tr) = None /\
  (exists a b, tr = a ++ EInterrupted :: b /\ In 1 (started a) /\ interrupts 1 b = 1 /\ interrupts 2 b = 1) /\ unfinished tr 1 /\ unfinished tr 2.
Proof.
  exists (cfg_of Join true 3 false true Plain), (taus 6 ++ first ++ next ++ next ++ arm ++ [LComplete 0 (CVal 1)] ++ taus 1 ++ [LInterrupt] ++ taus 6).
  eexists; eexists; split; [apply cfg_of_wf; discriminate|]; split; [vm_compute; reflexivity|].
  do 2 (split; [reflexivity|]). split; [reflexivity|]. split; [cbn; auto 20|]. split; [reflexivity|]. split.
  - exists [EProbe 0; EProbe 1; EProbe 2; EStart 0; EProbe 0; ESusp 0; EStart 1; EProbe 1; ESusp 1; EStart 2; EProbe 2; ESusp 2; EWait; EDone 0 (CVal 1); EFree 0].
    eexists. split; [reflexivity|]. repeat split; cbn; auto.
  - split; (split; [cbn; auto|]); intros [|[]]; discriminate.
Qed.

(** ** C55 an empty range: gather and join release a null coroutine handle *)
Theorem C55_empty_range_refuted : forall k, k = Gather \/ k = Join ->
  exists (ls : list (label nat nat)) s tr, run (cfg_of k true 0 false false Plain) (init (cfg_of k true 0 false false Plain)) ls = Some (s, tr) /\ In ENull tr.
Proof. intros k [->| ->]; exists (taus 1); eexists; eexists; (split; [reflexivity|]); cbn; auto. Qed.
(** ** C56 the frame of a fork is destroyed once *)
Theorem C56_destroyed_once_refuted : exists (c : cfg) (ls : list (label nat nat)) s tr, wf c /\
  run c (init c) ls = Some (s, tr) /\ calm tr /\ orderly c (init c) ls /\ frees 0 tr = 2.
Proof.
  exists (cfg_of Race false 2 false false Plain), (taus 2 ++ [LBegin (BReady (CVal 1))] ++ taus 8).
  eexists; eexists; split; [apply cfg_of_wf; discriminate|]; split; [vm_compute; reflexivity|]. split; [discriminate|]. split; [vm_compute; repeat split; auto|reflexivity].
Qed.
(** ** C57 await_ready is called once *)
Theorem C57_ready_once_refuted : exists (c : cfg) (ls : list (label nat nat)) s tr, wf c /\
  run c (init c) ls = Some (s, tr) /\ calm tr /\ probes 0 tr = 2 /\ probes 1 tr = 2.
Proof.
  exists (cfg_of Gather true 2 false false Plain), (taus 4 ++ first ++ next ++ arm).
  eexists; eexists; split; [apply cfg_of_wf; discriminate|]; split; [vm_compute; reflexivity|]. repeat split; discriminate.
Qed.
(** ** C58 interrupting a join reaches every running child *)
Theorem C58_join_interrupt_refuted : exists (c : cfg) (ls : list (label nat nat)) s tr, wf c /\
  run c (init c) ls = Some (s, tr) /\ knd c = Join /\ at_rest s /\ calm tr /\ orderly c (init c) ls /\
  In EInterrupted tr /\ unfinished tr 1 /\ intr c 1 = true /\ interrupts 1 tr = 0 /\ signals 1 tr = [].
Proof.
  exists (cfg_of Join true 2 false true Plain), (taus 4 ++ taus 2 ++ [LBegin (BReady (CVal 1))]++ taus 4 ++ [LBegin BPark] ++ taus 7 ++ [LInterrupt] ++ taus 2).
  eexists; eexists; split; [apply cfg_of_wf; discriminate|]; split; [vm_compute; reflexivity|]. split; [reflexivity|]. split; [reflexivity|].
  split; [discriminate|]. split; [vm_compute; repeat split; auto|]. split; [cbn; auto 20|]. split; [split; cbn; auto; intros [|[]]; discriminate|].
  repeat split.
Qed.

Print Assumptions C12_gather_results.
Print Assumptions C12_gather_waits_for_all.
Print Assumptions C12_gather_never_cancels.
Print Assumptions C13_join_outcome.
Print Assumptions C13_join_waits_for_all.
Print Assumptions C13_join_cancels_the_rest.
Print Assumptions C13_signal_timely_partial.
Print Assumptions C14_race_outcome_partial.
Print Assumptions C14_race_waits_for_started.
Print Assumptions C14_race_cancels_losers_partial.
Print Assumptions C14_signalled_at_most_once.
Print Assumptions C15_starts_in_order.
Print Assumptions C15_race_stops_partial.
Print Assumptions C15_left_race_leftmost_partial.
Print Assumptions C16_error_reported_partial.
Print Assumptions C17_resumed_at_most_once.
Print Assumptions C17_resumed_when_all_done.
Print Assumptions C17_resumed_only_after_last.
Print Assumptions C17_suspends_only_if_needed.
Print Assumptions C18_gather_forwards.
Print Assumptions C18_forwards_partial.
Print Assumptions C18_never_to_finished.
Print Assumptions C19_one_transaction.
Print Assumptions C19_begins_only_if_undecided.
Print Assumptions C19_second_attempt_rejected.
Print Assumptions C19_winner_not_cancelled.
Print Assumptions C19_others_cancelled_before_commit_partial.
Print Assumptions C54_no_dangling_partial.
Print Assumptions C13_signal_timely_refuted.
Print Assumptions C14_losers_cancelled_refuted.
Print Assumptions C14_losers_cancelled_throw_refuted.
Print Assumptions C14_first_outcome_refuted.
Print Assumptions C14_interrupted_once_refuted.
Print Assumptions C15_race_stops_refuted.
Print Assumptions C16_error_reported_void_transaction_refuted.
Print Assumptions C16_as_tuple_error_refuted.
Print Assumptions C18_forwards_refuted.
Print Assumptions C19_others_cancelled_refuted.
Print Assumptions C54_no_dangling_refuted.
Print Assumptions C54_stale_handler_refuted.
Print Assumptions C55_non_empty_partial.
Print Assumptions C56_destroyed.
Print Assumptions C56_at_most_twice_partial.
Print Assumptions C56_late_once_partial.
Print Assumptions C57_ready_once_partial.
Print Assumptions C57_ready_when.
Print Assumptions C58_interrupt_partial.
Print Assumptions C58_range_partial.
Print Assumptions C55_empty_range_refuted.
Print Assumptions C56_destroyed_once_refuted.
Print Assumptions C57_ready_once_refuted.
Print Assumptions C58_join_interrupt_refuted.
