(** * Theorems about promises (C20-C22)

    [correct] (Promise_Spec.v) lists the uses the implementation supports; the
    [_refuted] theorems show what happens outside it. *)
From Coq Require Import List Bool Arith.
From Verif Require Import Promise_Model Promise_Spec Promise_Final.
Import ListNotations.

Section Props.
Context {V E : Type}.
Variables (ls : list (label V E)) (s : state V E) (tr : list (event V E)).
Hypothesis C : correct init ls.
Hypothesis R : run init ls = Some (s, tr).

(** C20: nothing undefined happens. *)
Theorem C20_defined_partial : ~ undefined tr.
Proof. exact (no_ub ls s tr C R). Qed.

(** C20: whoever continues after awaiting a promise was waiting for it, and gets the
    outcome of its coroutine; or detached_exception directly after being
    interrupted; or already_awaited when another coroutine waits.  A handle that
    stands for nothing (moved from) gives moved_from or a moved-from value. *)
Theorem C20_outcome_partial : forall a w h r b, tr = a ++ EResult w h r :: b ->
  let v := view_of a in
  waits v w = Some h /\
  match own v h with
  | Some c => answers v c r
              \/ r = RExc XDetached /\ (exists a', a = a' ++ [EInterrupt w])
              \/ r = RExc XAlready /\ (exists w', w' <> w /\ waits v w' = Some h) /\ running v c
  | None => r = RExc XMoved \/ r = RVal Hollow
  end.
Proof. exact (result_right ls s tr C R). Qed.
Theorem C20_get_partial : forall a h r b, tr = a ++ EGet h r :: b ->
  match own (view_of a) h with
  | Some c => answers (view_of a) c r
  | None => r = RExc XMoved \/ r = RVal Hollow
  end.
Proof. exact (get_right ls s tr C R). Qed.
(** C20: the value a coroutine returned is handed out intact at most once. *)
Theorem C20_value_once_partial : NoDup (gave (view_of tr)).
Proof. exact (gave_once ls s tr C R). Qed.
(** C20: who waits, waits for a coroutine that is still there. *)
Theorem C20_no_lost_wakeup_partial : forall w h, waits (view_of tr) w = Some h ->
  exists c, own (view_of tr) h = Some c /\ over (view_of tr) c = false.
Proof. exact (waiter_has_coroutine ls s tr C R). Qed.

(** C21: destroying a handle signals its coroutine exactly when the handle is
    attached and the coroutine still runs. *)
Theorem C21_destroy_cancels_partial : forall h s' ev, ok s (LDestroy1 h) = true -> step (LDestroy1 h) s = Some (s', ev) ->
  (attd (view_of tr) h = true -> forall c, own (view_of tr) h = Some c -> running (view_of tr) c -> ev = [ESignal c ct_all]) /\
  (attd (view_of tr) h = false \/ (forall c, own (view_of tr) h = Some c -> ~ running (view_of tr) c) -> ev = []).
Proof. exact (destroy_signals ls s tr C R). Qed.
Theorem C21_overwrite_cancels_partial : forall g h s' ev, ok s (LAssign1 g h) = true -> step (LAssign1 g h) s = Some (s', ev) ->
  (attd (view_of tr) g = true -> forall c, own (view_of tr) g = Some c -> running (view_of tr) c -> ev = [ESignal c ct_all]) /\
  (attd (view_of tr) g = false \/ (forall c, own (view_of tr) g = Some c -> ~ running (view_of tr) c) -> ev = []).
Proof. exact (assign_signals ls s tr C R). Qed.
(** C21: whatever was done to handles, a coroutine that runs can run to its end. *)
Theorem C21_coroutine_survives_partial : forall c, running (view_of tr) c -> forall v,
  exists s' ev, step (LReturn c v) s = Some (s', ev) /\ ~ undefined ev.
Proof. exact (running_can_finish ls s tr C R). Qed.
(** C21: cancellation only reaches coroutines that still exist. *)
Theorem C21_signal_alive_partial : forall a c t b, tr = a ++ ESignal c t :: b ->
  born (view_of a) c = true /\ over (view_of a) c = false.
Proof. exact (signal_alive ls s tr C R). Qed.
(** C21: an exception leaves a coroutine's resume() only if no handle stands for it. *)
Theorem C21_escape_only_unowned_partial : forall a c e b, tr = a ++ EEscape c e :: b -> forall h, own (view_of a) h <> Some c.
Proof. exact (escape_unowned ls s tr C R). Qed.

(** C22: a handle moved from by construction while its coroutine ran throws
    moved_from when awaited or asked, until it is assigned to. *)
Theorem C22_moved_from_partial : forall a g h b e d c r, tr = a ++ EMove g h :: b ++ e :: d ->
  own (view_of a) h = Some c -> running (view_of a) c -> (forall e', In e' b -> ~ leaves e' h) ->
  tells e h r -> r = RExc XMoved.
Proof. exact (moved_from_says ls s tr C R). Qed.
(** C22: a handle that stands for nothing has no effect on any coroutine when
    cancelled or destroyed. *)
Theorem C22_inert_partial : forall h, own (view_of tr) h = None ->
  forall l s' ev, (exists t, l = LCancel h t) \/ l = LDestroy1 h \/ l = LDestroy2 h ->
  ok s l = true -> step l s = Some (s', ev) -> (forall c t, ~ In (ESignal c t) ev) /\ forall c, co s' c = co s c.
Proof. exact (inert_handle ls s tr C R). Qed.
End Props.
Print Assumptions C20_defined_partial.
Print Assumptions C20_outcome_partial.
Print Assumptions C20_get_partial.
Print Assumptions C20_value_once_partial.
Print Assumptions C20_no_lost_wakeup_partial.
Print Assumptions C21_destroy_cancels_partial.
Print Assumptions C21_overwrite_cancels_partial.
Print Assumptions C21_coroutine_survives_partial.
Print Assumptions C21_signal_alive_partial.
Print Assumptions C21_escape_only_unowned_partial.
Print Assumptions C22_moved_from_partial.
Print Assumptions C22_inert_partial.

(** ** Where the English property fails *)
Notation lab := (label nat nat).

(** C20: the second await of the same promise gives a moved-from value. *)
Theorem C20_reawait_refuted : exists (ls : list lab) s tr, correct init ls /\ run init ls = Some (s, tr) /\
  In (EResult 0 0 (RVal (Fresh 5))) tr /\ In (EResult 0 0 (RVal Hollow)) tr.
Proof.
  exists [LStart 0 0; LReturn 0 5; LFinal 0; LAwait 0 0; LAwait 0 0]. eexists. eexists.
  split; [vm_compute; tauto|]. split; [vm_compute; reflexivity|]. split; vm_compute; tauto.
Qed.
(** C20: moving a handle while a coroutine awaits it gives that coroutine moved_from
    instead of the value. *)
Theorem C20_moved_while_awaited_refuted : exists (ls : list lab) s tr, run init ls = Some (s, tr) /\
  ls = [LStart 0 0; LAwait 0 0; LMove 1 0; LReturn 0 5; LFinal 0] /\
  ~ undefined tr /\ In (EResult 0 0 (RExc XMoved)) tr.
Proof.
  eexists. eexists. eexists. split; [|split; [reflexivity|]]. { vm_compute. reflexivity. }
  split; [intros (b & H); vm_compute in H; intuition discriminate|vm_compute; tauto].
Qed.
(** C21: a handle destroyed by the destructor of one of its coroutine's local
    variables leaves a dangling pointer that the end of the coroutine uses. *)
Theorem C21_destroyed_while_returning_refuted : exists (ls : list lab) s tr, run init ls = Some (s, tr) /\
  ls = [LStart 0 0; LReturn 0 5; LDestroy1 0; LDestroy2 0; LFinal 0] /\ In (EBad BHandle) tr.
Proof. eexists. eexists. eexists. split; [|split; [reflexivity|]]. { vm_compute. reflexivity. } vm_compute. tauto. Qed.
(** C21/C22: assigning to a promise whose coroutine has finished reads its freed
    frame (p = f(); co_await p; p = f();). *)
Theorem C21_assign_finished_refuted : exists (ls : list lab) s tr, run init ls = Some (s, tr) /\
  ls = [LStart 0 0; LAwait 0 0; LReturn 0 5; LFinal 0; LStart 1 1; LAssign1 0 1; LAssign2 0] /\ In (EBad BFrame) tr.
Proof. eexists. eexists. eexists. split; [|split; [reflexivity|]]. { vm_compute. reflexivity. } vm_compute. tauto. Qed.
(** C22: a handle moved from by assignment is not done: awaiting it waits for ever,
    even though the coroutine ends. *)
Theorem C22_assigned_from_hangs_refuted : exists (ls : list lab) s tr, run init ls = Some (s, tr) /\
  ls = [LStart 0 0; LStart 1 1; LAssign1 0 1; LAssign2 0; LAwait 0 1; LReturn 1 5; LFinal 1] /\
  waits (view_of tr) 0 = Some 1 /\ own (view_of tr) 1 = None /\ over (view_of tr) 1 = true.
Proof. eexists. eexists. eexists. split; [|split; [reflexivity|]]. { vm_compute. reflexivity. } vm_compute. tauto. Qed.
(** C22: and destroying it after the coroutine ended reads the freed frame. *)
Theorem C22_assigned_from_destroyed_refuted : exists (ls : list lab) s tr, run init ls = Some (s, tr) /\
  ls = [LStart 0 0; LStart 1 1; LAssign1 0 1; LAssign2 0; LReturn 1 5; LFinal 1; LDestroy1 1; LDestroy2 1] /\ In (EBad BFrame) tr.
Proof. eexists. eexists. eexists. split; [|split; [reflexivity|]]. { vm_compute. reflexivity. } vm_compute. tauto. Qed.
(** C22: a handle moved from after its coroutine threw is an empty optional. *)
Theorem C22_moved_after_throw_refuted : exists (ls : list lab) s tr, run init ls = Some (s, tr) /\
  ls = [LStart 0 0; LThrow 0 9; LMove 1 0; LAwait 0 0] /\ In (EBad BEmpty) tr.
Proof. eexists. eexists. eexists. split; [|split; [reflexivity|]]. { vm_compute. reflexivity. } vm_compute. tauto. Qed.
(** C22: moved from after it finished, it gives a moved-from value, not moved_from. *)
Theorem C22_moved_after_return_refuted : exists (ls : list lab) s tr, correct init ls /\ run init ls = Some (s, tr) /\
  ls = [LStart 0 0; LReturn 0 5; LFinal 0; LMove 1 0; LAwait 0 0] /\ In (EResult 0 0 (RVal Hollow)) tr.
Proof.
  eexists. eexists. eexists. split; [|split; [|split; [reflexivity|]]]; [vm_compute; tauto|vm_compute; reflexivity|vm_compute; tauto].
Qed.

(** ** The hypotheses are met *)
(** A promise awaited by two coroutines in turn, one interrupted, moved, cancelled,
    detached and destroyed. *)
Example C20_nonvacuous : exists (ls : list lab) s tr, correct init ls /\ run init ls = Some (s, tr) /\
  ls = [LStart 0 0; LStart 1 1; LAwait 0 0; LAwait 1 0; LSignal 0 1; LInterrupt 0; LMove 2 0; LAwait 0 2; LAwait 1 0;
        LReturn 0 5; LFinal 0; LGet 2; LAwait 1 1; LThrow 1 9; LDestroy1 2; LDestroy2 2; LDestroy1 0; LDestroy2 0] /\
  In (EResult 1 0 (RExc XAlready)) tr /\ In (EResult 0 0 (RExc XDetached)) tr /\ In (ESignal 0 1) tr /\
  In (EResult 1 0 (RExc XMoved)) tr /\ In (EResult 0 2 (RVal (Fresh 5))) tr /\ In (EGet 2 (RVal Hollow)) tr /\
  In (EResult 1 1 (RExc (XUser 9))) tr.
Proof.
  eexists. eexists. eexists. split; [|split; [|split; [reflexivity|]]]; [vm_compute; tauto|vm_compute; reflexivity|vm_compute; tauto].
Qed.
Example C21_nonvacuous : exists (ls : list lab) s tr, correct init ls /\ run init ls = Some (s, tr) /\
  ls = [LStart 0 0; LDestroy1 0; LDestroy2 0; LStart 1 1; LAttach 1 false; LDestroy1 1; LDestroy2 1; LThrow 1 9;
        LStart 2 2; LStart 3 3; LAssign1 2 3; LAssign2 2; LReturn 0 5; LFinal 0] /\
  In (ESignal 0 ct_all) tr /\ ~ In (ESignal 1 ct_all) tr /\ In (EEscape 1 9) tr /\ In (ESignal 2 ct_all) tr /\
  running (view_of tr) 2 /\ running (view_of tr) 3 /\ own (view_of tr) 2 = Some 3.
Proof.
  eexists. eexists. eexists. split; [|split; [|split; [reflexivity|]]]; [vm_compute; tauto|vm_compute; reflexivity|].
  vm_compute. repeat split; try tauto. intuition discriminate.
Qed.
Example C22_nonvacuous : exists (ls : list lab) s tr a b d, correct init ls /\ run init ls = Some (s, tr) /\
  ls = [LStart 0 0; LMove 1 0; LCancel 0 1; LAwait 0 0; LDestroy1 0; LDestroy2 0; LAwait 0 1; LReturn 0 5; LFinal 0] /\
  tr = a ++ EMove 1 0 :: b ++ EResult 0 0 (RExc XMoved) :: d /\ own (view_of a) 0 = Some 0 /\ running (view_of a) 0 /\
  b = [EAwait 0 0] /\ In (EResult 0 1 (RVal (Fresh 5))) d.
Proof.
  eexists. eexists. eexists. exists [EStart 0 0], [EAwait 0 0]. eexists.
  split; [|split; [|split; [reflexivity|]]]; [vm_compute; tauto|vm_compute; reflexivity|].
  split; [reflexivity|]. vm_compute. repeat split; tauto.
Qed.
