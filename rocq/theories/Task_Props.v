(** * Theorems about tasks and spawn (C23, C37)

    [correct] (Task_Spec.v) lists the uses the implementation supports; the
    [_refuted] theorems show what happens outside it. *)
From Coq Require Import List Bool Arith.
From Verif Require Import Task_Model Task_Spec Task_Final.
Import ListNotations.

Section Props.
Context {V E : Type}.
Variables (ls : list (label V E)) (s : state V E) (tr : list (event V E)).
Hypothesis C : correct init ls.
Hypothesis R : run init ls = Some (s, tr).

(** C23: nothing undefined happens. *)
Theorem C23_defined_partial : ~ undefined tr.
Proof. exact (no_ub ls s tr C R). Qed.
(** C23: the body of a task starts only after a handle that stood for it was awaited
    or spawned. *)
Theorem C23_lazy_partial : forall a c b, tr = a ++ EBegin c :: b -> asked (view_of a) c = true.
Proof. exact (lazy ls s tr C R). Qed.
(** C23: and at most once. *)
Theorem C23_begins_once_partial : forall a c b, tr = a ++ EBegin c :: b -> ~ In (EBegin c) a /\ ~ In (EBegin c) b.
Proof. exact (begin_once ls s tr C R). Qed.
(** C23: destroying a task that was not started destroys its coroutine; *)
Theorem C23_destroy_unstarted_partial : forall h s' ev c,
  own (view_of tr) h = Some c -> begun (view_of tr) c = false -> fate (view_of tr) c = None ->
  ok s (LDestroy h) = true -> step (LDestroy h) s = Some (s', ev) -> ev = [EDestroy h; EDiscard c].
Proof. exact (destroy_unstarted ls s tr C R). Qed.
(** C23: and a coroutine destroyed like this is never run. *)
Theorem C23_discarded_never_runs_partial : forall a c b, tr = a ++ EDiscard c :: b -> ~ In (EBegin c) tr.
Proof. exact (discarded ls s tr C R). Qed.
(** C23: whoever continues after awaiting a task was waiting for it and gets the
    outcome of its coroutine, or detached_exception directly after being interrupted.
    A task that stands for nothing gives moved_from or a moved-from value. *)
Theorem C23_outcome_partial : forall a w h r b, tr = a ++ EResult w h r :: b ->
  let v := view_of a in
  waits v w = Some h /\
  match own v h with
  | Some c => answers v c r \/ r = RExc XDetached /\ (exists a', a = a' ++ [EInterrupt w])
  | None => r = RExc XMoved \/ r = RVal Hollow
  end.
Proof. exact (result_right ls s tr C R). Qed.
(** C23: the value a coroutine returned is handed out intact at most once. *)
Theorem C23_value_once_partial : NoDup (gave (view_of tr)).
Proof. exact (gave_once ls s tr C R). Qed.
(** C23/C37: whoever waits can be served: there is a continuation without undefined
    behaviour in which it gets an outcome ([x] is any value to return). *)
Theorem C23_no_lost_wakeup_partial : forall (x : V) w h, waits (view_of tr) w = Some h ->
  exists ls' s' tr' r, run s ls' = Some (s', tr') /\ ~ undefined tr' /\ (In (EResult w h r) tr' \/ In (EHandler w h r) tr').
Proof. exact (fun x => can_be_served ls s tr x C R). Qed.
(** C23: cancellation only reaches coroutines that still exist. *)
Theorem C23_signal_alive_partial : forall a c t b, tr = a ++ ESignal c t :: b ->
  born (view_of a) c = true /\ over (view_of a) c = false.
Proof. exact (signal_alive ls s tr C R). Qed.
(** C23: an exception leaves a coroutine's resume() only if no handle stands for it. *)
Theorem C23_escape_only_unowned_partial : forall a c e b, tr = a ++ EEscape c e :: b -> forall h, own (view_of a) h <> Some c.
Proof. exact (escape_unowned ls s tr C R). Qed.

(** C37: the completion handler of a spawn gets the task's exception or value; *)
Theorem C37_spawn_outcome_partial : forall a w h r b, tr = a ++ EHandler w h r :: b ->
  let v := view_of a in
  waits v w = Some h /\ match own v h with Some c => answers v c r | None => r = RExc XMoved \/ r = RVal Hollow end.
Proof. exact (handler_right ls s tr C R). Qed.
(** C37: it is called at most once; *)
Theorem C37_spawn_once_partial : forall a w h r b, tr = a ++ EHandler w h r :: b -> forall h' r', ~ In (EHandler w h' r') b.
Proof. exact (handler_once ls s tr C R). Qed.
(** C37: and destroyed uncalled only when its coroutine was destroyed from outside. *)
Theorem C37_spawn_dropped_partial : forall a w b, tr = a ++ EKilled w :: b -> exists a' c, a = a' ++ [EKill c] \/ a = a' ++ [EDiscard c].
Proof. exact (killed_why ls s tr C R). Qed.
End Props.
Print Assumptions C23_defined_partial.
Print Assumptions C23_lazy_partial.
Print Assumptions C23_begins_once_partial.
Print Assumptions C23_destroy_unstarted_partial.
Print Assumptions C23_discarded_never_runs_partial.
Print Assumptions C23_outcome_partial.
Print Assumptions C23_value_once_partial.
Print Assumptions C23_no_lost_wakeup_partial.
Print Assumptions C23_signal_alive_partial.
Print Assumptions C23_escape_only_unowned_partial.
Print Assumptions C37_spawn_outcome_partial.
Print Assumptions C37_spawn_once_partial.
Print Assumptions C37_spawn_dropped_partial.

(** ** Where the English property fails *)
Notation lab := (label nat nat).
Ltac run_it := eexists; eexists; eexists; split; [|split; [reflexivity|]]; [vm_compute; reflexivity|vm_compute; tauto].

(** C23: awaiting a task that is already running (after the first awaiter was
    interrupted) resumes its coroutine as if it had not been started. *)
Theorem C23_reawait_running_refuted : exists (ls : list lab) s tr, run init ls = Some (s, tr) /\
  ls = [LCreate 0 0; LAwait 0 0; LInterrupt 0; LAwait 0 0] /\ In (EBad BResumed) tr.
Proof. run_it. Qed.
(** C23: so does a second awaiter. *)
Theorem C23_second_awaiter_refuted : exists (ls : list lab) s tr, run init ls = Some (s, tr) /\
  ls = [LCreate 0 0; LAwait 0 0; LAwait 1 0] /\ In (EBad BResumed) tr.
Proof. run_it. Qed.
(** C23: awaiting a finished task again gives a moved-from value. *)
Theorem C23_reawait_refuted : exists (ls : list lab) s tr, run init ls = Some (s, tr) /\
  ls = [LCreate 0 0; LAwait 0 0; LReturn 0 5; LFinal 0; LAwait 0 0] /\
  In (EResult 0 0 (RVal (Fresh 5))) tr /\ In (EResult 0 0 (RVal Hollow)) tr.
Proof. run_it. Qed.
(** C23: a task moved while it is awaited gives the awaiter moved_from. *)
Theorem C23_moved_while_awaited_refuted : exists (ls : list lab) s tr, run init ls = Some (s, tr) /\
  ls = [LCreate 0 0; LAwait 0 0; LMove 1 0; LReturn 0 5; LFinal 0] /\ In (EResult 0 0 (RExc XMoved)) tr.
Proof. run_it. Qed.
(** C23: a task moved from after its coroutine threw dereferences an empty optional. *)
Theorem C23_moved_after_throw_refuted : exists (ls : list lab) s tr, run init ls = Some (s, tr) /\
  ls = [LCreate 0 0; LAwait 0 0; LThrow 0 9; LMove 1 0; LAwait 0 0] /\ In (EBad BEmpty) tr.
Proof. run_it. Qed.
(** C37: the same when it is spawned. *)
Theorem C37_spawn_moved_after_throw_refuted : exists (ls : list lab) s tr, run init ls = Some (s, tr) /\
  ls = [LCreate 0 0; LAwait 0 0; LThrow 0 9; LMove 1 0; LSpawn 1 2 0] /\ In (EBad BEmpty) tr.
Proof. run_it. Qed.
(** C37: when the coroutine of a spawned task is destroyed the handler is never called. *)
Theorem C37_handler_dropped_refuted : exists (ls : list lab) s tr, run init ls = Some (s, tr) /\
  ls = [LCreate 0 0; LSpawn 0 1 0; LBegin 0; LKill 0] /\ In (EKilled 0) tr /\ waits (view_of tr) 0 = None /\ called (view_of tr) = [].
Proof. run_it. Qed.
(** C23: a task destroyed by the destructor of one of its coroutine's local variables
    leaves a dangling pointer that the end of the coroutine uses. *)
Theorem C23_destroyed_while_returning_refuted : exists (ls : list lab) s tr, run init ls = Some (s, tr) /\
  ls = [LCreate 0 0; LAwait 0 0; LInterrupt 0; LReturn 0 5; LDestroy 0; LFinal 0] /\ In (EBad BHandle) tr.
Proof. run_it. Qed.
Print Assumptions C23_reawait_running_refuted.
Print Assumptions C23_second_awaiter_refuted.
Print Assumptions C23_reawait_refuted.
Print Assumptions C23_moved_while_awaited_refuted.
Print Assumptions C23_moved_after_throw_refuted.
Print Assumptions C37_spawn_moved_after_throw_refuted.
Print Assumptions C37_handler_dropped_refuted.
Print Assumptions C23_destroyed_while_returning_refuted.

(** ** The hypotheses are met *)
Definition sample : list lab :=
  [LCreate 0 0; LMove 1 0; LAwait 0 1; LSignal 0 7; LReturn 0 5; LFinal 0;     (* awaited after a move *)
   LCreate 1 2; LSpawn 1 3 2; LSignal 1 4; LBegin 1; LThrow 1 9; LHandler 1;  (* spawned *)
   LCreate 2 4; LDestroy 4;                                                   (* never started *)
   LCreate 3 5; LAwait 0 5; LInterrupt 0; LDestroy 5; LThrow 3 8;             (* detached *)
   LNoop 4 6 3; LSpawn 2 7 6; LHandler 2;
   LCreate 5 8; LSpawn 3 9 8].
Example C23_nonvacuous : correct init sample /\ exists s tr, run init sample = Some (s, tr) /\
  In (EBegin 0) tr /\ In (EResult 0 1 (RVal (Fresh 5))) tr /\ In (EDiscard 2) tr /\ In (EResult 0 5 (RExc XDetached)) tr /\
  In (EEscape 3 8) tr /\ In (ESignal 0 7) tr /\ waits (view_of tr) 3 = Some 9.
Proof. split; [vm_compute; tauto|]. eexists. eexists. split; [vm_compute; reflexivity|]. vm_compute. tauto. Qed.
Example C37_nonvacuous : correct init sample /\ exists s tr, run init sample = Some (s, tr) /\
  In (EHandler 1 3 (RExc (XUser 9))) tr /\ In (EHandler 2 7 (RVal (Fresh 3))) tr.
Proof. split; [vm_compute; tauto|]. eexists. eexists. split; [vm_compute; reflexivity|]. vm_compute. tauto. Qed.
Example C23_destroy_nonvacuous : exists s tr, run init [LCreate 2 4 : lab] = Some (s, tr) /\ correct init [LCreate 2 4 : lab] /\
  own (view_of tr) 4 = Some 2 /\ begun (view_of tr) 2 = false /\ fate (view_of tr) 2 = None /\ ok s (LDestroy 4) = true /\
  exists s' ev, step (LDestroy 4) s = Some (s', ev).
Proof. eexists. eexists. split; [vm_compute; reflexivity|]. repeat (split; [vm_compute; tauto|]). eexists. eexists. vm_compute. reflexivity. Qed.
Example C37_killed_nonvacuous : exists s tr, run init [LCreate 0 0 : lab; LSpawn 0 1 0; LDrop 0] = Some (s, tr) /\
  correct init [LCreate 0 0 : lab; LSpawn 0 1 0; LDrop 0] /\ In (EKilled 0) tr.
Proof. eexists. eexists. split; [vm_compute; reflexivity|]. split; vm_compute; tauto. Qed.
