(** * Property theorems for composed operations (C47) *)
From Coq Require Import List Bool Arith.
From Verif Require Import Comp_Model Comp_Spec Comp_Proofs.
Import ListNotations.

(** C47: for every body, the awaiting coroutine sees: if the composition returns before it
    ever suspends, one completion with the returned tuple, and it continues inline with
    it; otherwise it is suspended once and, when the composition returns, completed and resumed
    once with the returned tuple.
    Partial: the composition neither throws nor is destroyed, it is not called from the handler's
    immediate executor, and the composition's frame stays readable (see the refutations). *)
Theorem C47_completes_once_partial : forall selfdel ls s tr, Forall plain ls -> run selfdel init ls = Some (s, tr) ->
  seen tr = expected ls /\ length (returned ls) <= 1.
Proof. exact composition_seen. Qed.

(** Beside it: returned at once; suspended twice and then returned. *)
Example C47_nonvacuous :
  (exists s tr, run true init [LBegin false; LReturn 5] = Some (s, tr) /\ seen tr = [ECompleted 5; EContinue; EResult (RArgs 5)]) /\
  (exists s tr, run false init [LBegin false; LSuspend; LResume; LSuspend; LResume; LReturn 5; LDelete] = Some (s, tr) /\
     seen tr = [ESuspend; ECompleted 5; EResume; EResult (RArgs 5)]) /\
  Forall plain [LBegin false; LSuspend; LResume; LSuspend; LResume; LReturn 5; LDelete].
Proof. split; [eexists _, _; split; reflexivity|]. split; [eexists _, _; split; reflexivity|repeat constructor]. Qed.

(** C47: every composition that returns reads its handler from its own destroyed frame. *)
Theorem C47_use_after_free_refuted : 
  (forall ls s tr, run true init ls = Some (s, tr) -> returned ls <> [] -> In (EUb UFreedHandler) tr) /\
  exists s tr, run true init [LBegin false; LReturn 5] = Some (s, tr).
Proof. split; [exact return_ub|eexists _, _; reflexivity]. Qed.

(** C47: where the deletion is posted instead, it comes after the end of the awaitable that
    provided the frame's memory. *)
Theorem C47_late_delete_refuted :
  (forall ls s tr s' es, run false init ls = Some (s, tr) -> step false s LDelete = Some (s', es) -> In (EUb ULateFree) es) /\
  exists s tr s' es, run false init [LBegin false; LReturn 5] = Some (s, tr) /\ step false s LDelete = Some (s', es).
Proof. split; [exact delete_ub|eexists _, _, _, _; split; reflexivity]. Qed.

(** C47: an exception of the composition.  During the initiation it is reported by co_await,
    but the frame is never freed.  Later it reaches the event loop, and the awaiting coroutine is
    never resumed. *)
Theorem C47_exception_refuted : 
  (forall d ls s tr e s' es, Forall plain ls -> run d init ls = Some (s, tr) -> step d s (LThrow e) = Some (s', es) ->
   if suspended_first ls
   then es = [EEscape e] /\
        (forall ls' s'' tr', run d s' ls' = Some (s'', tr') -> forall x, ~ In (EResult x) tr' /\ ~ In EResume tr' /\ ~ In EFree tr')
   else es = [EContinue; EResult (RExn e)] /\ (forall ls' s'' tr', run d s' ls' = Some (s'', tr') -> ~ In EFree tr')) /\
  (exists s tr s' es, run true init [LBegin false] = Some (s, tr) /\ step true s (LThrow 3) = Some (s', es)) /\
  (exists s tr s' es, run true init [LBegin false; LSuspend; LResume] = Some (s, tr) /\ step true s (LThrow 3) = Some (s', es)).
Proof. split; [exact throw_cases|]. split; eexists _, _, _, _; split; reflexivity. Qed.

(** C47: called from its handler's immediate executor, a composition that returns at once
    resumes the awaiting coroutine inside that coroutine's await_suspend. *)
Theorem C47_immediate_executor_refuted : exists s tr,
  run false init [LBegin true; LReturn 5] = Some (s, tr) /\ In EResume tr /\ In (EUb UReentered) tr.
Proof. eexists _, _. split; [reflexivity|]. cbn. tauto. Qed.

(** C47: destroyed while it is suspended, a composition destroys the awaiting coroutine; the other way round
    it goes on in memory that is gone. *)
Theorem C47_destroyed_refuted :
  (exists s tr, run true init [LBegin false; LSuspend; LKill] = Some (s, tr) /\ In EDestroyed tr) /\
  (exists s tr, run true init [LBegin false; LSuspend; LKillOuter; LResume] = Some (s, tr) /\ In (EUb UDead) tr) /\
  (exists s tr, run true init [LBegin false; LSuspend; LKillOuter; LKill] = Some (s, tr) /\ In (EUb UDead) tr).
Proof. repeat split; eexists _, _; (split; [reflexivity|]); cbn; tauto. Qed.

Print Assumptions C47_completes_once_partial.
Print Assumptions C47_nonvacuous.
Print Assumptions C47_use_after_free_refuted.
Print Assumptions C47_late_delete_refuted.
Print Assumptions C47_exception_refuted.
Print Assumptions C47_immediate_executor_refuted.
Print Assumptions C47_destroyed_refuted.
