(** * Property theorems about wait_group (C28) *)
From Coq Require Import List Bool Arith Lia.
From Verif Require Import Wg_Model Wg_Spec Wg_Final.
Import ListNotations.

(** C28: size() and the contents: what was pushed and not removed, in order. *)
Theorem C28_contents :
  forall c ls s tr, run c init ls = Some (s, tr) -> members s = group tr /\ NoDup (members s).
Proof. exact size_right. Qed.
Print Assumptions C28_contents.

(** C28, wait_one: when it returns, it removed exactly one promise, which was in
    the group and had finished; on an empty group it removes nothing.
    Partial: nothing is said of a promise that finished with an exception. *)
Theorem C28_wait_one_removes_reported_partial :
  forall c ls s tr, run c init ls = Some (s, tr) ->
  (forall pre p rm post, tr = pre ++ EOne (Some (p, true)) rm :: post ->
     rm = [p] /\ In p (group pre) /\ In (EFinish p true) pre) /\
  (forall pre rm post, tr = pre ++ EOne None rm :: post -> rm = [] /\ group pre = []).
Proof. intros c ls s tr R. exact (conj (one_reports c ls s tr R) (one_empty c ls s tr R)). Qed.
Print Assumptions C28_wait_one_removes_reported_partial.

(** C28, wait_one: a promise reported without exception is not reported again. *)
Theorem C28_wait_one_reports_once_partial :
  forall c ls s tr, run c init ls = Some (s, tr) ->
  forall a p rm b o rm' d, tr <> a ++ EOne (Some (p, true)) rm :: b ++ EOne (Some (p, o)) rm' :: d.
Proof. exact reported_once. Qed.
Print Assumptions C28_wait_one_reports_once_partial.

(** C28, wait_one: if it throws, a promise of the group had finished with that
    exception; and it removes nothing. *)
Theorem C28_wait_one_throws_partial :
  forall c ls s tr, run c init ls = Some (s, tr) ->
  forall pre p rm post, tr = pre ++ EOne (Some (p, false)) rm :: post ->
  rm = [] /\ In p (group pre) /\ In (EFinish p false) pre.
Proof. exact one_throws. Qed.
Print Assumptions C28_wait_one_throws_partial.

(** Hence the full claim about wait_one is false: a promise that failed stays,
    reap does not remove it, and wait_one reports it again. *)
Theorem C28_failed_promise_stays_refuted :
  exists c ls s tr, run c init ls = Some (s, tr) /\
  tr = [EPush 0; EFinish 0 false; EOneBegin; EOne (Some (0, false)) []; EReap []; EOneBegin; EOne (Some (0, false)) []] /\
  members s = [0].
Proof.
  exists (mkc 0 7), [LPush 0 None; LFinish 0 false; LWaitOne 0; LReap; LWaitOne 0]. eexists _, _.
  split; [reflexivity|]. split; reflexivity.
Qed.
Print Assumptions C28_failed_promise_stays_refuted.

(** C28, reap removes exactly the promises that have finished and whose result
    nobody has taken. *)
Theorem C28_reap_exact :
  forall c ls s tr, run c init ls = Some (s, tr) ->
  forall pre rm post, tr = pre ++ EReap rm :: post ->
  rm = filter (fun p => finished pre p && negb (consumed pre p)) (group pre).
Proof. exact reap_right. Qed.
Print Assumptions C28_reap_exact.

(** C28, wait: it ends only when all promises that were in the group when it
    began have finished, and empties the group.
    Partial: promises pushed meanwhile are removed too. *)
Theorem C28_wait_all_finished_partial :
  forall c ls s tr, run c init ls = Some (s, tr) ->
  forall pre rm post, tr = pre ++ EAll rm :: post ->
  rm = group pre /\ exists snap later, open_wait pre = WAll snap /\ group pre = snap ++ later /\
  forall p, In p snap -> finished pre p = true.
Proof. exact wait_right. Qed.
Print Assumptions C28_wait_all_finished_partial.

Theorem C28_wait_drops_unfinished_refuted :
  exists c ls s tr, run c init ls = Some (s, tr) /\
  exists pre post, tr = pre ++ EAll [0; 1] :: post /\ finished tr 1 = false /\ In (ECancel 1 ct_all) post.
Proof.
  exists (mkc 0 7), [LPush 0 None; LWait; LPush 1 None; LFinish 0 true]. eexists _, _.
  split; [reflexivity|]. exists [EPush 0; EAllBegin [0]; EPush 1; EFinish 0 true], [ECancel 1 7].
  split; [reflexivity|]. split; [reflexivity|left; reflexivity].
Qed.
Print Assumptions C28_wait_drops_unfinished_refuted.

(** C28, no lost wake-up: a pending wait_one means that none of the promises it
    waits for has finished, a pending wait that one has not. *)
Theorem C28_prompt :
  forall c ls s tr, run c init ls = Some (s, tr) ->
  (forall snap, open_wait tr = WOne snap -> forall p, In p snap -> finished tr p = false) /\
  (forall snap, open_wait tr = WAll snap -> exists p, In p snap /\ finished tr p = false).
Proof. intros c ls s tr R. exact (conj (one_prompt c ls s tr R) (wait_prompt c ls s tr R)). Qed.
Print Assumptions C28_prompt.

(** C28, leaving the scope: every promise that has not finished gets exactly one
    signal of the configured type (none if the type is none), then everything is
    waited for. *)
Theorem C28_exit_cancels_then_waits :
  forall c ls s tr pre ep post, run c init ls = Some (s, tr) -> tr = pre ++ EExit ep :: post ->
  let ct := if ep then ct_except c else ct_normal c in
  exists rest, post = (if ct =? ct_none then [] else
                         map (fun p => ECancel p ct) (filter (fun p => negb (finished pre p)) (group pre))) ++
                      EAllBegin (group pre) :: rest.
Proof. exact exit_right. Qed.
Print Assumptions C28_exit_cancels_then_waits.

(** ** The hypotheses are met *)
Example C28_nonvacuous :
  exists c ls s tr, run c init ls = Some (s, tr) /\
  tr = [EPush 0; EPush 1; EPush 2; EOneBegin; EFinish 1 true; EOne (Some (1, true)) [1]; EFinish 3 true; EPush 3;
        EReap [3]; EExit true; ECancel 0 7; ECancel 2 7; EAllBegin [0; 2]; EFinish 2 false; EFinish 0 true; EAll [0; 2]].
Proof.
  exists (mkc 0 7), [LPush 0 None; LPush 1 None; LPush 2 None; LWaitOne 0; LFinish 1 true; LPush 3 (Some true); LReap;
    LExit true; LFinish 2 false; LFinish 0 true].
  eexists _, _. split; reflexivity.
Qed.
