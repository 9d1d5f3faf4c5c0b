(** * Property theorems for with() (C27) *)
From Coq Require Import List Bool Arith.
From Verif Require Import With_Model With_Spec With_Proofs.
Import ListNotations.

(** C27: in every history the effects are, in this order and each at most once:
    func is called, it ends, teardown is called with func's exception (null if there is
    none), it ends, the coroutine is destroyed, and co_await gives func's exception, else
    teardown's, else func's value.
    Partial: nobody destroys a suspended coroutine, there is an executor, and moving the
    value does not throw. *)
Theorem C27_order_and_result_partial : forall V E (ls : list (label V E)) s tr,
  Forall calm ls -> Forall has_executor ls -> Forall nothrow_move ls -> run init ls = Some (s, tr) ->
  prefix tr [EFunc] \/
  exists o x, prefix tr [EFunc; EFuncEnd o; ETear (error_of o); ETearEnd x; EFree; EResult (expected o x)].
Proof. exact (fun V E => @with_result V E). Qed.

(** C27: with values whose move may throw: still no undefined behaviour, teardown at most
    once, before any result and with func's exception; the result is the one above or, when
    both succeed, the exception of the move. *)
Theorem C27_teardown_once_partial : forall V E (ls : list (label V E)) s tr,
  Forall calm ls -> Forall has_executor ls -> run init ls = Some (s, tr) ->
  length (tears tr) <= 1 /\ ~ In EUb tr /\
  (forall r, In r (results tr) -> exists o x, tears tr = [error_of o] /\ In (EFuncEnd o) tr /\ In (ETearEnd x) tr /\
     (r = expected o x \/ exists v m, o = Val v /\ x = None /\ r = Exn m)).
Proof. exact (fun V E => @with_any_move V E). Qed.

(** C27: the awaiting coroutine is not forgotten: from every such history without a result
    yet, func ending with o (unless it has ended) and teardown ending with x lead to the
    expected result, with the coroutine destroyed once. *)
Theorem C27_finishes_partial : forall V E (ls : list (label V E)) s tr o x,
  Forall calm ls -> Forall has_executor ls -> run init ls = Some (s, tr) -> results tr = [] ->
  exists ls' s' tr' o', run init (ls ++ ls') = Some (s', tr ++ tr') /\ Forall calm ls' /\
    In (EFuncEnd o') (tr ++ tr') /\ results (tr ++ tr') = [expected o' x] /\ frees (tr ++ tr') = 1 /\
    ((forall o0, ~ In (EFuncEnd o0) tr) -> o' = o).
Proof. exact (fun V E => @with_finishes V E). Qed.

(** C27: in every history, whatever is destroyed or throws, the coroutine is destroyed at most once,
    teardown is called at most once and func at most once. *)
Theorem C27_destroyed_once : forall V E (ls : list (label V E)) s tr,
  run init ls = Some (s, tr) ->
  frees tr <= 1 /\ length (tears tr) <= 1 /\ length (results tr) <= 1 /\
  length (filter (fun e => match e with EFunc => true | _ => false end) tr) <= 1.
Proof. exact (fun V E => @with_once V E). Qed.

(** Beside them: func throws 7 and teardown throws 8; func gives 5, teardown throws; both succeed. *)
Example C27_nonvacuous :
  (exists s, run (V := nat) (E := nat) init [LAwait None; LFunc (Exn 7); LTear (Some 8) None None] =
     Some (s, [EFunc; EFuncEnd (Exn 7); ETear (Some 7); ETearEnd (Some 8); EFree; EResult (Exn 7)])) /\
  (exists s, run (V := nat) (E := nat) init [LAwait None; LFunc (Val 5); LTear (Some 8) None None] =
     Some (s, [EFunc; EFuncEnd (Val 5); ETear None; ETearEnd (Some 8); EFree; EResult (Exn 8)])) /\
  (exists s, run (V := nat) (E := nat) init [LAwait None; LFunc (Val 5); LTear None None None] =
     Some (s, [EFunc; EFuncEnd (Val 5); ETear None; ETearEnd None; EFree; EResult (Val 5)])) /\
  Forall (@calm nat nat) [LAwait None; LFunc (Val 5); LTear None None None] /\
  Forall (@has_executor nat nat) [LAwait None; LFunc (Val 5); LTear None None None] /\
  Forall (@nothrow_move nat nat) [LAwait None; LFunc (Val 5); LTear None None None].
Proof. repeat split; try (eexists; reflexivity); repeat constructor. Qed.

(** C27: the coroutine is destroyed while func is suspended: no teardown at all. *)
Theorem C27_destroyed_in_func_refuted : exists (ls : list (label nat nat)) s tr,
  ls = [LAwait None; LKill] /\ run init ls = Some (s, tr) /\ In EFunc tr /\ tears tr = [] /\ frees tr = 1 /\
  forall l, step s l = None \/ l = LKillAwaiter.
Proof. eexists _, _, _. split; [reflexivity|]. split; [reflexivity|]. cbn. repeat split; auto.
  intros [[x|]|o|x m1 m2| |]; auto.
Qed.

(** C27: the awaiting coroutine is destroyed meanwhile: with()'s own coroutine goes on and
    resumes the destroyed one. *)
Theorem C27_awaiter_destroyed_refuted : exists (ls : list (label nat nat)) s tr,
  ls = [LAwait None; LKillAwaiter; LFunc (Val 5); LTear None None None] /\ run init ls = Some (s, tr) /\
  In EUb tr /\ frees tr = 0.
Proof. eexists _, _, _. split; [reflexivity|]. split; [reflexivity|]. cbn. intuition auto. Qed.

(** C27: the value's move throws in await_resume: the coroutine is never destroyed, and the
    exception is the move's although neither func nor teardown failed. *)
Theorem C27_throwing_move_leaks_refuted : exists (ls : list (label nat nat)) s tr,
  ls = [LAwait None; LFunc (Val 5); LTear None None (Some 9)] /\ run init ls = Some (s, tr) /\
  results tr = [Exn 9] /\ frees tr = 0 /\ forall l, step s l = None.
Proof.
  eexists _, _, _. split; [reflexivity|]. split; [reflexivity|]. cbn. repeat split.
  intros [[x|]|o|x m1 m2| |]; reflexivity.
Qed.

(** C27: no executor: co_await throws, neither func nor teardown runs and the coroutine,
    with the argument in it, is never destroyed. *)
Theorem C27_no_executor_refuted : exists (ls : list (label nat nat)) s tr,
  ls = [LAwait (Some 9)] /\ run init ls = Some (s, tr) /\ results tr = [Exn 9] /\ tears tr = [] /\ frees tr = 0 /\
  forall l, step s l = None.
Proof.
  eexists _, _, _. split; [reflexivity|]. split; [reflexivity|]. cbn. repeat split.
  intros [[x|]|o|x m1 m2| |]; reflexivity.
Qed.

Print Assumptions C27_order_and_result_partial.
Print Assumptions C27_teardown_once_partial.
Print Assumptions C27_destroyed_once.
Print Assumptions C27_finishes_partial.
Print Assumptions C27_nonvacuous.
Print Assumptions C27_destroyed_in_func_refuted.
Print Assumptions C27_awaiter_destroyed_refuted.
Print Assumptions C27_throwing_move_leaks_refuted.
Print Assumptions C27_no_executor_refuted.
