(** * Property theorems about awaited operations (C29, C30) *)
From Coq Require Import List Bool Arith Lia.
From Verif Require Import Op_Model Op_Spec Op_Proofs.
Import ListNotations.

(** C29, result: whatever the initiation [p] does with the handler and whatever
    the event loop runs later ([ls]), co_await gives exactly the arguments the
    handler was invoked with, once per invocation, at most once, and nothing
    undefined happens.
    Partial: [tame] initiations (see Op_Spec) that respect asio's rules. *)
Theorem C29_result_is_the_completions_partial :
  forall p ls, tame false p ->
  let tr := await_and_run None p ls in
  no_misuse tr ->
  ~ In EUb tr /\
  ((forall e, ~ In (EThrew e) tr) -> results tr = map RArgs (calls tr) /\ length (calls tr) <= 1).
Proof. intros p ls T tr NM. exact (conj (defined p ls T NM) (result_exact p ls T NM)). Qed.
Print Assumptions C29_result_is_the_completions_partial.

(** C29, suspension: a completion during the initiation makes the coroutine
    continue without having been suspended; otherwise it is suspended once and
    resumed exactly as often as the handler is invoked. *)
Theorem C29_inline_or_resumed_once_partial :
  forall p ls, tame false p ->
  let tr := await_and_run None p ls in
  no_misuse tr -> (forall e, ~ In (EThrew e) tr) ->
  (calls (during tr) <> [] -> count is_suspend tr = 0 /\ count is_resume tr = 0 /\ count is_continue tr = 1) /\
  (calls (during tr) = [] -> count is_suspend tr = 1 /\ count is_continue tr = 0 /\
                             count is_resume tr = length (calls tr)).
Proof. exact inline_iff. Qed.
Print Assumptions C29_inline_or_resumed_once_partial.

(** C29: nothing happens to the coroutine while the initiation is on the stack. *)
Theorem C29_never_resumed_inside_initiation_partial :
  forall p ls, tame false p ->
  let tr := await_and_run None p ls in
  no_misuse tr ->
  init_over tr /\ forall e, In e (during tr) -> coro_event e = false.
Proof. exact quiet_inside. Qed.
Print Assumptions C29_never_resumed_inside_initiation_partial.

(** C29, no lost completion: as long as there is no result and the handler has
    not been destroyed, invoking it resumes the coroutine with the arguments. *)
Theorem C29_completion_not_lost_partial :
  forall p ls, tame false p ->
  let tr := await_and_run None p ls in
  no_misuse tr ->
  forall a, results tr = [] -> ~ In EDestroyed tr ->
  await_and_run None p (ls ++ [LRun (Call a Done)]) = tr ++ [ECalled a; EResume; EResult (RArgs a)].
Proof. exact deliverable. Qed.
Print Assumptions C29_completion_not_lost_partial.

(** C29: an op that is ready gives its result without suspending, and its
    initiation is not run. *)
Theorem C29_ready_not_suspended :
  forall a p ls, let tr := await_and_run (Some a) p ls in no_misuse tr ->
  results tr = [RArgs a] /\ calls tr = [] /\ count is_suspend tr = 0 /\ count is_resume tr = 0 /\ ~ In EUb tr.
Proof. exact ready. Qed.
Print Assumptions C29_ready_not_suspended.

(** The whole of C29 is false.  First: a function run by the immediate executor
    that runs another one there, and then invokes the handler: the coroutine is
    resumed inside the initiation, although every rule of asio was respected. *)
Theorem C29_nested_immediate_refuted :
  exists p, let tr := await_and_run None p [] in
  no_misuse tr /\ In EUb tr /\ In EResume (during tr).
Proof.
  exists (Imm (Imm Done (Call 7 Done)) Done). unfold no_misuse. cbn.
  split; [intuition discriminate|tauto].
Qed.
Print Assumptions C29_nested_immediate_refuted.

(** Second: after an exception inside a function run by the immediate executor,
    caught by the initiation, a later completion is lost and the coroutine
    hangs. *)
Theorem C29_caught_exception_hangs_refuted :
  exists p ls, let tr := await_and_run None p ls in
  no_misuse tr /\ (forall e, ~ In (EThrew e) tr) /\
  calls tr = [7] /\ results tr = [] /\ ~ In EUb tr /\ ~ In EDestroyed tr.
Proof.
  exists (Try (Imm (Throw 1) Done) (Hand Done)), [LRun (Call 7 Done)]. unfold no_misuse. cbn.
  repeat split; intros; intuition discriminate.
Qed.
Print Assumptions C29_caught_exception_hangs_refuted.

(** Completing directly inside the initiation, which asio forbids, is
    undefined: the coroutine is resumed within its own await_suspend. *)
Theorem C29_direct_completion_refuted :
  exists p, let tr := await_and_run None p [] in
  In EResume (during tr) /\ In EUb tr.
Proof. exists (Call 7 Done). cbn. tauto. Qed.
Print Assumptions C29_direct_completion_refuted.

(** C30: an exception that leaves the initiation is what co_await gives, at
    once: the coroutine is neither suspended nor resumed nor destroyed.
    Partial: as in C29. *)
Theorem C30_initiation_exception_partial :
  forall p ls, tame false p ->
  let tr := await_and_run None p ls in
  no_misuse tr ->
  forall e, In (EThrew e) tr ->
  results tr = [RExn e] /\ firstn 2 (after tr) = [EContinue; EResult (RExn e)] /\
  count is_suspend tr = 0 /\ count is_resume tr = 0 /\ ~ In EDestroyed tr.
Proof. exact threw_result. Qed.
Print Assumptions C30_initiation_exception_partial.

(** The whole of C30 is false: an exception leaving a function run by the
    immediate executor destroys the awaiting coroutine, which is then used. *)
Theorem C30_immediate_exception_refuted :
  exists p e, let tr := await_and_run None p [] in
  no_misuse tr /\ In (EThrew e) tr /\ results tr = [] /\ In EDestroyed tr /\ In EUb tr.
Proof.
  exists (Imm (Throw 1) Done), 1. unfold no_misuse. cbn.
  split; [intuition discriminate|tauto].
Qed.
Print Assumptions C30_immediate_exception_refuted.

(** ** The hypotheses are met *)
Example C29_nonvacuous_inline :
  exists p, tame false p /\ let tr := await_and_run None p [] in
  no_misuse tr /\ (forall e, ~ In (EThrew e) tr) /\ calls (during tr) = [7] /\ results tr = [RArgs 7].
Proof.
  exists (Try (Throw 3) (Imm Done (Imm (Call 7 Done) Done))). unfold no_misuse. cbn.
  repeat split; intros; intuition (try discriminate).
Qed.

Example C29_nonvacuous_later :
  exists p ls, tame false p /\ let tr := await_and_run None p ls in
  no_misuse tr /\ (forall e, ~ In (EThrew e) tr) /\ calls (during tr) = [] /\ calls tr = [7] /\ results tr = [RArgs 7].
Proof.
  exists (Imm (Hand Done) Done), [LRun Done; LRun (Imm (Call 7 Done) Done); LJob 0; LRun (Throw 2)]. unfold no_misuse. cbn.
  repeat split; intros; intuition (try discriminate).
Qed.

Example C30_nonvacuous :
  exists p, tame false p /\ let tr := await_and_run None p [] in
  no_misuse tr /\ In (EThrew 4) tr /\ calls tr = [7].
Proof.
  exists (Imm (Call 7 Done) (Throw 4)). unfold no_misuse. cbn.
  repeat split; intros; intuition (try discriminate).
Qed.
