(** * C35, C36: awaiting a thread *)
From Coq Require Import List Bool Arith Lia.
From Verif Require Import Thread_Model Thread_Spec Thread_Proofs.
Import ListNotations.

(** ** C35: a coroutine that awaits a thread is resumed, once, after the thread's work *)

(** In every interleaving it gets at most one result, and only after the worker's
    context is over. *)
Theorem C35_result_once : forall tuple rvalue ls s tr, run tuple rvalue init ls = Some (s, tr) ->
  length (results tr) <= 1 /\
  forall a r b, tr = a ++ EResult r :: b -> ends a <> [].
Proof.
  intros t v ls s tr H. split; [|exact (reach_after t v ls s tr H)].
  destruct (reach_INV t v ls s tr H) as [_ HA]. unfold AINV in HA.
  destruct (aw s) as [| | | |[x|]| |]; cbn in HA;
    repeat match goal with H : _ /\ _ |- _ => destruct H end;
    try (match goal with H : results tr = [] |- _ => rewrite H end; cbn; lia); assumption.
Qed.
Print Assumptions C35_result_once.

(** Whatever the two threads do by themselves once the work is over, it takes at most six
    steps, and as long as the coroutine has not got its result there is a next one: no
    wakeup is lost, for any interleaving of the check, the suspension and the worker's
    exit.  Missing: the process can end instead, see C36. *)
Theorem C35_wakes_partial : forall tuple rvalue ls s tr, run tuple rvalue init ls = Some (s, tr) ->
  ends tr <> [] -> awaiting s ->
  forall ls1 s1 tr1, Forall internal ls1 -> run tuple rvalue s ls1 = Some (s1, tr1) ->
  length ls1 <= 6 /\
  (aw s1 = Over \/ wk s1 = Terminated \/
   exists l s2 es, internal l /\ step tuple rvalue s1 l = Some (s2, es)).
Proof.
  intros t v ls s tr H HE Haw ls1 s1 tr1 HF H1. split.
  - pose proof (measure_run t v _ _ _ _ HF H1). pose proof (measure_bound s). lia.
  - pose proof (run_INV t v _ _ _ _ _ (reach_INV t v ls s tr H) H1) as HI.
    destruct (internal_run_awaiting t v _ _ _ _ HF H1 (or_introl Haw)) as [A|A]; [|left; exact A].
    right. assert (D : wk s1 = Terminated \/ wk s1 <> Terminated) by (destruct (wk s1); auto; right; discriminate).
    destruct D as [D|D]; [left; exact D|right].
    apply (not_stuck t v s1 (tr ++ tr1) HI); auto.
    rewrite ends_app. intro Z. apply app_eq_nil in Z. destruct Z. congruence.
Qed.
Print Assumptions C35_wakes_partial.

(** When co_await is over, the coroutine has got exactly one result (unless as_tuple
    meets a thread that was already done, see C35_tuple_refuted). *)
Theorem C35_result_given : forall tuple rvalue ls s tr, run tuple rvalue init ls = Some (s, tr) ->
  aw s = Over -> tuple = false \/ In ESuspended tr -> length (results tr) = 1.
Proof.
  intros t v ls s tr H HO HT. destruct (reach_INV t v ls s tr H) as [_ HA]. unfold AINV in HA. rewrite HO in HA.
  destruct HA as [_ [HE [HS [_ HN]]]]. destruct (sus tr) eqn:E.
  - destruct (HS eq_refl) as [-> _]. exact HE.
  - destruct HT as [-> | Z]; [|rewrite (sus_in _ Z) in E; discriminate].
    destruct (HN eq_refl) as [-> |Z]; [reflexivity|discriminate].
Qed.
Print Assumptions C35_result_given.

(** An awaited rvalue thread has ended completely when co_await is over: its OS thread is joined. *)
Theorem C35_joined : forall tuple ls s tr, run tuple true init ls = Some (s, tr) ->
  aw s = Over -> wk s = Exited.
Proof.
  assert (G : forall tuple ls s0 s tr, (aw s0 = Over -> wk s0 = Exited) ->
    run tuple true s0 ls = Some (s, tr) -> aw s = Over -> wk s = Exited).
  { intros t. induction ls as [|l r IH]; cbn [run]; intros s0 s tr HI H.
    - inversion H; subst. exact HI.
    - destruct (step t true s0 l) as [[s1 e1]|] eqn:E; [|discriminate].
      destruct (run t true s1 r) as [[s2 e2]|] eqn:E2; [|discriminate]. inversion H; subst.
      apply (IH s1 s e2); [|exact E2]. destruct s0 as [w a u d q]. unfold step, resume, result, set_wk in E.
      cbn [wk aw] in *. intro O.
      destruct w; destruct l; try destruct a; cbn [wk aw unlocked done waitor] in *;
        repeat match goal with
          | H : context [if ?b then _ else _] |- _ => destruct b
          | H : context [match ?b with Some _ => _ | None => _ end] |- _ => destruct b
        end; inversion E; subst; cbn [wk aw] in *; try discriminate; try reflexivity; specialize (HI eq_refl); discriminate. }
  intros t ls s tr H. apply (G t ls init s tr); [discriminate|exact H].
Qed.
Print Assumptions C35_joined.

(** The behaviour is defined if the awaiting coroutine is not destroyed while it waits,
    the thread's coroutine suspends before it returns, and as_tuple is only used on a
    thread that is still running. *)
Theorem C35_defined_partial : forall tuple rvalue ls s tr, run tuple rvalue init ls = Some (s, tr) ->
  ~ In LKillAwaiter ls -> suspends_first ls -> tuple = false \/ In ESuspended tr -> ~ In EUb tr.
Proof.
  intros t v ls s tr H HK HF HT HU. destruct (reach_UINV t v ls s tr H) as [_ [_ [U _]]].
  destruct (U HU) as [Z|[[Z [_ Z1]]|[a [b [Z Z1]]]]].
  - contradiction.
  - destruct HT as [HT|HT]; [congruence|]. rewrite (sus_in _ HT) in Z1. discriminate.
  - exact (Z1 (HF a b Z)).
Qed.
Print Assumptions C35_defined_partial.

(** Each of the three conditions is needed.  as_tuple on a thread that is done reads
    an empty optional: *)
Definition finished : list label :=
  [LUnlock; LStart; LSuspend; LResume; LReturn; LRunEnd; LSetDone; LFinish].
Theorem C35_tuple_refuted : exists ls s tr, run true false init ls = Some (s, tr) /\
  suspends_first ls /\ ~ In LKillAwaiter ls /\ In EUb tr /\ results tr = [].
Proof.
  exists (finished ++ [LReady]). do 2 eexists. split; [reflexivity|].
  split; [|split; [cbn; intuition discriminate|split; [cbn; auto 10|reflexivity]]].
  intros a b H. do 5 (destruct a as [|? a]; cbn in H; inversion H; subst; cbn; auto 10).
Qed.
Print Assumptions C35_tuple_refuted.

(** Stopping: as long as the thread's coroutine is suspended (it suspended last, and was neither
    resumed nor stopped since), its context can be stopped, and that ends the thread without an error. *)
Definition asleep (ls : list label) : Prop :=
  exists a b, ls = a ++ LSuspend :: b /\ ~ In LResume b /\ ~ In LStop b /\ ~ In LKillAwaiter b.
Theorem C35_stop : forall tuple rvalue ls s tr, run tuple rvalue init ls = Some (s, tr) -> asleep ls ->
  exists s', step tuple rvalue s LStop = Some (s', [EEnd None]).
Proof.
  intros t v ls s tr H (a & b & -> & NR & NS & NK). rewrite run_app in H.
  destruct (run t v init a) as [[s0 e0]|]; [|discriminate]. cbn [run] in H.
  destruct (step t v s0 LSuspend) as [[s1 e1]|] eqn:E; [|discriminate].
  assert (W : wk s1 = Idle).
  { unfold step in E. destruct (wk s0) eqn:K; try discriminate; injection E as <- <-; reflexivity. }
  destruct (run t v s1 b) as [[s2 e2]|] eqn:R; [|discriminate].
  assert (G : wk s2 = Idle).
  { clear - W NR NS NK R. revert s1 s2 e2 W R. induction b as [|l b IH]; intros s1 s2 e2 W R; cbn [run] in R.
    - injection R as <- <-. exact W.
    - destruct (step t v s1 l) as [[s3 e3]|] eqn:E; [|discriminate].
      destruct (run t v s3 b) as [[s4 e4]|] eqn:R'; [|discriminate]. injection R as <- <-.
      apply (IH ltac:(intro; apply NR; now right) ltac:(intro; apply NS; now right) ltac:(intro; apply NK; now right) s3 s4 e4); [|exact R'].
      unfold step, resume in E. rewrite W in E. destruct l; try discriminate;
        try (exfalso; first [apply NR; now left|apply NS; now left|apply NK; now left]);
        repeat match type of E with
               | context [if ?x then _ else _] => destruct x
               | context [match aw ?x with _ => _ end] => destruct (aw x)
               end; try discriminate; inversion E; subst; cbn; (exact W || reflexivity). }
  injection H as <- <-. unfold step. rewrite G. eexists. reflexivity.
Qed.
Print Assumptions C35_stop.
Example C35_stop_nonvacuous :
  (exists s tr, run false false init [LUnlock; LStart; LSuspend; LReady; LAwaitSuspend] = Some (s, tr)) /\
  asleep [LUnlock; LStart; LSuspend; LReady; LAwaitSuspend].
Proof.
  split; [do 2 eexists; reflexivity|]. exists [LUnlock; LStart], [LReady; LAwaitSuspend].
  split; [reflexivity|]. cbn. intuition discriminate.
Qed.

(** A thread whose coroutine never suspends unlocks a mutex of its destroyed frame: *)
Theorem C35_no_suspension_refuted : exists ls s tr, run false false init ls = Some (s, tr) /\
  ls = [LUnlock; LStart; LReturn] /\ tr = [EBegin; EFreed; EUb].
Proof. do 3 eexists. split; [|split; reflexivity]. reflexivity. Qed.
Print Assumptions C35_no_suspension_refuted.

(** A coroutine destroyed while it waits leaves its handler with the worker: *)
Theorem C35_destroyed_awaiter_refuted : exists ls s tr, run false false init ls = Some (s, tr) /\
  suspends_first ls /\ In EUb tr.
Proof.
  exists [LUnlock; LStart; LSuspend; LReady; LAwaitSuspend; LKillAwaiter; LResume; LReturn; LRunEnd; LSetDone; LFinish].
  do 2 eexists. split; [reflexivity|]. split; [|cbn; auto 10].
  intros a b H. do 8 (destruct a as [|? a]; cbn in H; inversion H; subst; cbn; auto 10).
Qed.
Print Assumptions C35_destroyed_awaiter_refuted.

Example C35_nonvacuous : exists s tr,
  run false true init [LUnlock; LStart; LReady; LSuspend; LAwaitSuspend; LResume; LReturn; LRunEnd] = Some (s, tr) /\
  ends tr <> [] /\ awaiting s /\
  exists s1 tr1, run false true s [LSetDone; LFinish; LDeliver; LJoin] = Some (s1, tr1) /\
  aw s1 = Over /\ results tr1 = [None].
Proof.
  do 2 eexists. split; [reflexivity|]. split; [discriminate|]. split; [exact Logic.I|].
  do 2 eexists. split; [reflexivity|]. split; reflexivity.
Qed.

(** ** C36: an exception that leaves the thread's coroutine reaches the awaiting one *)

(** A coroutine that was suspended gets exactly the way the context ended. *)
Theorem C36_delivered_partial : forall tuple rvalue ls s tr r ep, run tuple rvalue init ls = Some (s, tr) ->
  In ESuspended tr -> In (EResult r) tr -> In (EEnd ep) tr -> r = ep.
Proof.
  intros t v ls s tr r ep H HS HR HE. destruct (reach_INV t v ls s tr H) as [_ HA]. unfold AINV in HA.
  assert (IR : In r (results tr)) by (unfold results; apply in_flat_map; exists (EResult r); split; [assumption|now left]).
  assert (IE : In ep (ends tr)) by (unfold ends; apply in_flat_map; exists (EEnd ep); split; [assumption|now left]).
  rewrite (sus_in _ HS) in HA.
  destruct (aw s) as [| | | |[x|]| |]; cbn in HA;
    repeat match goal with H : _ /\ _ |- _ => destruct H end;
    try (match goal with H : results tr = [] |- _ => rewrite H in IR end; contradiction).
  destruct (H2 eq_refl) as [Z _]. rewrite Z in IR.
  destruct (ends tr) as [|x [|? ?]]; try discriminate. destruct IR as [->|[]], IE as [->|[]]. reflexivity.
Qed.
Print Assumptions C36_delivered_partial.

(** An exception is not lost silently: if the worker exited normally after one, the
    awaiting coroutine had been suspended (and gets it, by the theorem before);
    and the process is only ended for an exception nobody was suspended for, or
    because the awaiting coroutine was destroyed. *)
Theorem C36_not_silent : forall tuple rvalue ls s tr e, run tuple rvalue init ls = Some (s, tr) ->
  ends tr = [Some e] -> wk s = Exited -> In ESuspended tr.
Proof.
  intros t v ls s tr e H HE HW. destruct (reach_XINV t v ls s tr H HW); [congruence|assumption].
Qed.
Print Assumptions C36_not_silent.

Theorem C36_terminates_only : forall tuple rvalue ls s tr, run tuple rvalue init ls = Some (s, tr) ->
  In ETerminate tr -> ~ In LKillAwaiter ls ->
  exists e, ends tr = [Some e] /\ ~ In ESuspended tr.
Proof.
  intros t v ls s tr H HT HK. destruct (reach_UINV t v ls s tr H) as [_ [_ [_ U]]].
  destruct (U HT) as [_ [Z|[e [Z Z1]]]]; [contradiction|]. exists e. split; [exact Z|].
  intros Y. rewrite (sus_in _ Y) in Z1. discriminate.
Qed.
Print Assumptions C36_terminates_only.

(** A coroutine that awaits between the end of the context and the worker's last look
    gets success for a thread that failed, and the process is terminated. *)
Theorem C36_late_await_refuted : exists ls s tr, run false false init ls = Some (s, tr) /\
  ends tr = [Some 7] /\ results tr = [None] /\ In ETerminate tr.
Proof.
  exists [LUnlock; LStart; LSuspend; LResume; LThrow 7; LSetDone; LReady; LFinish].
  do 2 eexists. split; [reflexivity|]. split; [reflexivity|]. split; [reflexivity|]. cbn; auto 10.
Qed.
Print Assumptions C36_late_await_refuted.

(** The frame of a coroutine that ends with an exception is never freed. *)
Theorem C36_frame_leaked_refuted : exists ls s tr, run false false init ls = Some (s, tr) /\
  aw s = Over /\ results tr = [Some 7] /\ In ELeaked tr /\ ~ In EFreed tr.
Proof.
  exists [LUnlock; LStart; LSuspend; LReady; LAwaitSuspend; LResume; LThrow 7; LSetDone; LFinish; LDeliver].
  do 2 eexists. split; [reflexivity|]. split; [reflexivity|]. split; [reflexivity|].
  split; [cbn; auto 10|cbn; intuition discriminate].
Qed.
Print Assumptions C36_frame_leaked_refuted.

Example C36_nonvacuous : exists s tr,
  run false true init [LUnlock; LStart; LReady; LSuspend; LAwaitSuspend; LResume; LThrow 3; LSetDone; LFinish; LDeliver; LJoin] = Some (s, tr) /\
  In ESuspended tr /\ In (EResult (Some 3)) tr /\ In (EEnd (Some 3)) tr /\ wk s = Exited.
Proof. do 2 eexists. split; [reflexivity|]. cbn. auto 12. Qed.
