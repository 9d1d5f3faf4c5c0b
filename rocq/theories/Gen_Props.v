(** * Theorems about generators (C24, C25, C26)

    [correct] (Gen_Spec.v) lists the uses the implementation supports; the
    [_refuted] theorems show what happens outside it, and what remains wrong inside. *)
From Coq Require Import List Bool Arith.
From Verif Require Import Gen_Model Gen_Spec Gen_Final Gen_Thrown.
Import ListNotations.

Section Props.
Context {Y P E : Type}.
(** [nv]: the generator takes no pushed value. *)
Variables (nv : bool) (ls : list (label Y P E)) (s : state Y P E) (tr : list (event Y P E)).
Hypothesis C : correct nv init ls.
Hypothesis R : run nv init ls = Some (s, tr).

(** C24-C26: nothing undefined happens. *)
Theorem C24_defined_partial : ~ undefined tr.
Proof. exact (no_ub nv ls s tr C R). Qed.
(** C24: what the consumers got is a prefix of what the coroutine yielded and returned:
    nothing is skipped, repeated or reordered.  What is missing is what the generator
    holds, at most two values. *)
Theorem C24_in_order_partial : exists held, yielded tr = taken tr ++ held /\ length held <= 2.
Proof. exact (in_order nv ls s tr C R). Qed.
(** C24: an error that a co_await gives is the exception of the coroutine; or it is
    "returned void", and then the coroutine has ended and everything it yielded was
    taken; or completed_unexpected, and it was destroyed; or detached, and the await was
    interrupted just before. *)
Theorem C24_errors_partial : forall a w x b, tr = a ++ EResult w (RExc x) :: b ->
  match x with
  | XUser e => In (EThrow e) a
  | XUnexpected => In EKill a
  | XDetached => exists a', a = a' ++ [EInterrupt w]
  | XVoid => ended a /\ taken a = yielded a
  | XAlready => False
  end.
Proof. exact (error_right nv ls s tr C R). Qed.
(** C24: the exception of the coroutine is given to one co_await only. *)
Theorem C24_exception_once_partial : failures tr <= 1.
Proof. exact (failure_once nv ls s tr C R). Qed.
(** C24: with a pushed value, or if no await is interrupted and get() is not used, or if the
    generator is eager, it comes after all the values. *)
Theorem C24_exception_last_partial : nv = false \/ forallb calm ls = true \/ eager ls ->
  forall a w e b, tr = a ++ EResult w (RExc (XUser e)) :: b -> taken a = yielded a.
Proof. exact (error_last nv ls s tr C R). Qed.
(** C24: so does completed_unexpected. *)
Theorem C24_unexpected_last_partial : nv = false \/ forallb calm ls = true \/ eager ls ->
  forall a w b, tr = a ++ EResult w (RExc XUnexpected) :: b -> taken a = yielded a.
Proof. exact (error_last' nv ls s tr C R). Qed.
(** C24: values are only dropped after the generator was destroyed. *)
Theorem C24_dropped_partial : forall a y b, tr = a ++ ELost y :: b -> In EDestroy a.
Proof. exact (lost_after_destroy nv ls s tr C R). Qed.
(** C24: whoever waits can be served: the coroutine can go on such that it gets an
    outcome ([y] is any value to return). *)
Theorem C24_no_lost_wakeup_partial : forall (y : Y) w tp, ws s w = WSusp tp ->
  exists ls' s' tr' r, correct nv s ls' /\ run nv s ls' = Some (s', tr') /\ In (EResult w r) tr'.
Proof. exact (served nv ls s tr C R). Qed.
(** C24: and, with the same restriction, nobody waits although there is a value, except
    while a returning coroutine destroys its local variables. *)
Theorem C24_prompt_partial : nv = false \/ forallb calm ls = true \/ eager ls ->
  forall w tp, ws s w = WSusp tp -> cst s <> Returning -> taken tr = yielded tr.
Proof. exact (prompt nv ls s tr C R). Qed.
(** C24: when the generator converts to false, the coroutine has ended and everything was
    taken; then co_await gives "returned void", and it does not if it converts to true. *)
Theorem C24_bool_false_partial : truthy s = false ->
  ended tr /\ taken tr = yielded tr /\
  forall w p s' ev, step nv (LAwait w p) s = Some (s', ev) -> ev = [EAwait w p; EResult w (RExc XVoid)].
Proof. exact (falsy nv ls s tr C R). Qed.
Theorem C24_bool_true_partial : forall w p s' ev, truthy s = true ->
  step nv (LAwait w p) s = Some (s', ev) -> ~ In (EResult w (RExc XVoid)) ev.
Proof. exact (truthy_more nv ls s tr C R). Qed.

(** C25: if no await is interrupted and get() is not used, the coroutine receives the
    pushed values in order, none skipped or repeated; *)
Theorem C25_in_order_partial : forallb calm ls = true -> exists rest, pushes tr = received tr ++ rest.
Proof. exact (pushes_in_order nv ls s tr C R). Qed.
(** C25: it received all of them while it runs and nobody waits; *)
Theorem C25_all_partial : forallb calm ls = true ->
  cst s = Running -> rec s = true -> aw s = None -> received tr = pushes tr.
Proof. exact (pushes_all nv ls s tr C R). Qed.
(** C25: and none is overwritten. *)
Theorem C25_none_overwritten_partial : forallb calm ls = true -> forall p, ~ In (EOverwrite p) tr.
Proof. exact (no_overwrite nv ls s tr C R). Qed.
(** C25: the n-th received value is the result of the n-th co_yield (or initial). *)
Theorem C25_aligned_partial : length (received tr) <= points tr <= S (length (received tr)).
Proof. exact (aligned nv ls s tr C R). Qed.

(** C26: with a pushed value, or if no await is interrupted and get() is not used, or if the
    generator is eager, at most one value is outstanding. *)
Theorem C26_one_outstanding_partial : nv = false \/ forallb calm ls = true \/ eager ls ->
  length (yielded tr) <= S (length (taken tr)).
Proof. exact (one_ahead nv ls s tr C R). Qed.
(** C26: in any case the coroutine yields at most one value more than it was awaited, *)
Theorem C26_one_ahead_partial : length (yielded tr) <= S (length (pushes tr)).
Proof. exact (ahead nv ls s tr C R). Qed.
(** C26: and none more if it is lazy. *)
Theorem C26_lazy_partial : In EInitial tr -> length (yielded tr) <= length (pushes tr).
Proof. exact (lazy_ahead nv ls s tr C R). Qed.
End Props.

Print Assumptions C24_defined_partial.
Print Assumptions C24_in_order_partial.
Print Assumptions C24_errors_partial.
Print Assumptions C24_exception_once_partial.
Print Assumptions C24_exception_last_partial.
Print Assumptions C24_unexpected_last_partial.
Print Assumptions C24_dropped_partial.
Print Assumptions C24_no_lost_wakeup_partial.
Print Assumptions C24_prompt_partial.
Print Assumptions C24_bool_false_partial.
Print Assumptions C24_bool_true_partial.
Print Assumptions C25_in_order_partial.
Print Assumptions C25_all_partial.
Print Assumptions C25_none_overwritten_partial.
Print Assumptions C25_aligned_partial.
Print Assumptions C26_one_outstanding_partial.
Print Assumptions C26_one_ahead_partial.
Print Assumptions C26_lazy_partial.

Notation lbl := (label nat nat nat).

(** An eager generator without pushed values; an await is interrupted and repeated while the
    coroutine runs, and the exception still comes last. *)
Example C24_eager_nonvacuous :
  let ls := [LStart; LAwait 0 0; LInterrupt 0; LAwait 0 0; LYield 1; LJob; LAwait 0 0; LInterrupt 0; LThrow 9; LAwait 0 0] : list lbl in
  correct true init ls /\ forallb calm ls = false /\ eager ls /\
  exists s tr, run true init ls = Some (s, tr) /\ taken tr = [1] /\ In (EResult 0 (RExc (XUser 9))) tr.
Proof.
  split; [vm_compute; repeat split|split; [reflexivity|]]. split; [vm_compute; intuition discriminate|].
  eexists _, _. split; [vm_compute; reflexivity|vm_compute; repeat split; tauto].
Qed.

(** An eager generator that yields 1 and 2, throws 9; and one push in flight. *)
Example C24_nonvacuous :
  let ls := [LStart; LYield 1; LAwait 0 10; LJob; LAwait 0 20; LYield 2; LJob; LThrow 9; LAwait 0 30; LAwait 0 40] : list lbl in
  correct false init ls /\ forallb calm ls = true /\
  exists s tr, run false init ls = Some (s, tr) /\
    yielded tr = [1; 2] /\ taken tr = [1; 2] /\ received tr = [10; 20] /\ failures tr = 1 /\ truthy s = false /\
    In (EResult 0 (RExc (XUser 9))) tr /\ In (EResult 0 (RExc XVoid)) tr.
Proof.
  split; [vm_compute; repeat split|split; [reflexivity|]]. eexists _, _. split; [vm_compute; reflexivity|vm_compute; repeat split; tauto].
Qed.
(** A waiting consumer, of a lazy generator. *)
Example C25_nonvacuous :
  let ls := [LStart; LInitial; LAwait 0 10; LYield 1; LAwait 0 20] : list lbl in
  correct false init ls /\ forallb calm ls = true /\
  exists s tr, run false init ls = Some (s, tr) /\ ws s 0 = WSusp None /\ received tr = [10; 20] /\ yielded tr = [1] /\ In EInitial tr.
Proof.
  split; [vm_compute; repeat split|split; [reflexivity|]]. eexists _, _. split; [vm_compute; reflexivity|vm_compute; repeat split; tauto].
Qed.
Example C26_nonvacuous :
  let ls := [LStart; LYield 1; LAwait 0 10; LJob; LYield 2; LDestroy1; LDestroy2] : list lbl in
  correct false init ls /\ forallb calm ls = true /\
  exists s tr, run false init ls = Some (s, tr) /\ yielded tr = [1; 2] /\ taken tr = [1] /\ pushes tr = [10].
Proof.
  split; [vm_compute; repeat split|split; [reflexivity|]]. eexists _, _. split; [vm_compute; reflexivity|vm_compute; repeat split; tauto].
Qed.

(** ** What does not hold *)

(** C26: a lazy generator without pushed values produces a second value before the first
    was taken if an await was interrupted and the generator awaited again meanwhile. *)
Theorem C26_two_outstanding_refuted :
  exists ls (s : state nat nat nat) tr,
    ls = [LStart; LInitial; LAwait 0 0; LInterrupt 0; LAwait 0 0; LYield 1; LInterrupt 0; LYield 2] /\
    correct true init ls /\ run true init ls = Some (s, tr) /\ yielded tr = [1; 2] /\ taken tr = [].
Proof. eexists _, _, _. split; [reflexivity|]. split; [vm_compute; repeat split|]. split; [vm_compute; reflexivity|vm_compute; tauto]. Qed.
(** C24: and then its exception arrives before a value yielded earlier. *)
Theorem C24_exception_first_refuted :
  exists ls (s : state nat nat nat) tr a b c,
    ls = [LStart; LInitial; LAwait 0 0; LInterrupt 0; LAwait 0 0; LYield 1; LThrow 9; LAwait 0 0] /\
    correct true init ls /\ run true init ls = Some (s, tr) /\
    tr = a ++ EYield 1 :: b ++ [EResult 0 (RExc (XUser 9)); c; EResult 0 (RVal 1)].
Proof.
  eexists _, _, _, [_; _; _; _; _; _], [_; _; _], _. split; [reflexivity|]. split; [vm_compute; repeat split|].
  split; [vm_compute; reflexivity|vm_compute; reflexivity].
Qed.
(** C24: meanwhile its consumer waits although there is a value. *)
Theorem C24_waits_with_value_refuted :
  exists ls (s : state nat nat nat) tr,
    ls = [LStart; LInitial; LAwait 0 0; LInterrupt 0; LAwait 0 0; LYield 1] /\
    correct true init ls /\ run true init ls = Some (s, tr) /\ ws s 0 = WSusp None /\ cst s = Running /\
    yielded tr = [1] /\ taken tr = [].
Proof. eexists _, _, _. split; [reflexivity|]. split; [vm_compute; repeat split|]. split; [vm_compute; reflexivity|vm_compute; tauto]. Qed.
(** C25: a lazy generator loses a pushed value if awaits are interrupted: 20 is
    overwritten by 30 (a failed assertion in debug builds), although 10, whose await was
    interrupted as well, arrived. *)
Theorem C25_overwritten_refuted :
  exists ls (s : state nat nat nat) tr,
    ls = [LStart; LInitial; LAwait 0 10; LInterrupt 0; LAwait 0 20; LInterrupt 0; LYield 1; LAwait 0 30; LAwait 0 40] /\
    correct false init ls /\ run false init ls = Some (s, tr) /\
    pushes tr = [10; 20; 30; 40] /\ received tr = [10; 30] /\ In (EOverwrite 20) tr.
Proof. eexists _, _, _. split; [reflexivity|]. split; [vm_compute; repeat split|]. split; [vm_compute; reflexivity|vm_compute; tauto]. Qed.
(** C25: an eager one drops the value of an interrupted await. *)
Theorem C25_interrupted_refuted :
  exists ls (s : state nat nat nat) tr,
    ls = [LStart; LAwait 0 10; LInterrupt 0; LYield 1; LAwait 0 20; LJob] /\
    correct false init ls /\ run false init ls = Some (s, tr) /\ pushes tr = [10; 20] /\ received tr = [20].
Proof. eexists _, _, _. split; [reflexivity|]. split; [vm_compute; repeat split|]. split; [vm_compute; reflexivity|vm_compute; tauto]. Qed.
(** C25: after get() on an eager generator the next co_await makes the coroutine read a
    pushed value that is not there. *)
Theorem C25_get_eager_refuted :
  exists ls (s : state nat nat nat) tr,
    ls = [LStart; LYield 1; LGet; LAwait 0 10] /\ run false init ls = Some (s, tr) /\ In (EBad BNoPush) tr.
Proof. eexists _, _, _. split; [reflexivity|]. split; [vm_compute; reflexivity|vm_compute; tauto]. Qed.
(** C24: awaited before it awaits initial, a generator answers "returned void" although
    its coroutine goes on and has yielded nothing. *)
Theorem C24_initial_awaited_refuted :
  exists ls (s : state nat nat nat) tr,
    ls = [LStart; LAwait 0 10; LInitial] /\ run false init ls = Some (s, tr) /\
    In (EResult 0 (RExc XVoid)) tr /\ yielded tr = [] /\ cst s = Yielding.
Proof. eexists _, _, _. split; [reflexivity|]. split; [vm_compute; reflexivity|vm_compute; tauto]. Qed.

Print Assumptions C26_two_outstanding_refuted.
Print Assumptions C24_exception_first_refuted.
Print Assumptions C24_waits_with_value_refuted.
Print Assumptions C25_overwritten_refuted.
Print Assumptions C25_interrupted_refuted.
Print Assumptions C25_get_eager_refuted.
Print Assumptions C24_initial_awaited_refuted.

(** C24: no exception of the coroutine is lost: it escapes (to whoever resumed the
    coroutine), or an await has given it, or the next await gives it at once. *)
Theorem C24_exception_not_lost : forall Y P E nv ls (s : state Y P E) tr, run nv init ls = Some (s, tr) ->
  forall e, In (EThrow e) tr ->
    In (EEscape e) tr \/ (exists w, In (EResult w (RExc (XUser e))) tr) \/
    forall w p s' ev, step nv (LAwait w p) s = Some (s', ev) -> In (EResult w (RExc (XUser e))) ev.
Proof. exact (fun Y P E => @exception_not_lost Y P E). Qed.

(** Beside it: thrown before the await, given by it. *)
Example C24_exception_not_lost_nonvacuous :
  exists (s : state nat nat nat) tr s' ev, run false init [LStart; LThrow 7] = Some (s, tr) /\ In (EThrow 7) tr /\
    ~ In (EEscape 7) tr /\ step false (LAwait 0 10) s = Some (s', ev) /\ In (EResult 0 (RExc (XUser 7))) ev.
Proof. eexists _, _, _, _. split; [vm_compute; reflexivity|]. split; [vm_compute; tauto|]. split; [vm_compute; intuition discriminate|]. split; [vm_compute; reflexivity|vm_compute; tauto]. Qed.
Print Assumptions C24_exception_not_lost.
Print Assumptions C24_exception_not_lost_nonvacuous.
