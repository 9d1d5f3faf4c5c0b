(** * What is asked of awaiting a thread, on histories *)
From Coq Require Import List Arith.
From Verif Require Import Thread_Model.
Import ListNotations.

(** the results the awaiting coroutine got, and how the worker's context ended *)
Definition results (tr : list event) : list (option exn) :=
  flat_map (fun e => match e with EResult r => [r] | _ => [] end) tr.
Definition ends (tr : list event) : list (option exn) :=
  flat_map (fun e => match e with EEnd ep => [ep] | _ => [] end) tr.

(** what the two threads do by themselves once the work is over *)
Definition internal (l : label) : Prop :=
  l = LSetDone \/ l = LFinish \/ l = LAwaitSuspend \/ l = LDeliver \/ l = LJoin.

(** co_await has begun and is not over *)
Definition awaiting (s : state) : Prop :=
  match aw s with Checked | Waiting | Posted _ | Joining _ => True | _ => False end.

(** the coroutine of the thread suspends before it returns *)
Definition suspends_first (ls : list label) : Prop :=
  forall a b, ls = a ++ LReturn :: b -> In LSuspend a.
