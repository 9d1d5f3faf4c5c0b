(** * Model of a coroutine's cancellation state and throw_if_cancelled
    /repo/include/boost/cobalt/this_coro.hpp lines 89-331 (promise_cancellation_base,
    promise_throw_if_cancelled_base), /repo/include/boost/cobalt/concepts.hpp lines 38-60
    (enable_awaitables), /repo/include/boost/cobalt/op.hpp lines 197-216 (enable_await_deferred),
    /repo/include/boost/cobalt/detail/detached.hpp lines 52-57.

    asio's part is modelled after its documentation and source (asio/cancellation_state.hpp, not
    in /repo): a cancellation_state of a connected slot installs a handler that holds a mask
    (initially none); on a signal the mask becomes in_filter(type), and out_filter of
    that is emitted to the operation the coroutine waits for unless it is none.  A state of
    an unconnected slot stays empty.

    Simplifications: a signal is one of the current source; sources replaced before
    (detached.hpp) are not looked at any more.  Filters are arbitrary functions. *)
From Coq Require Import List Bool NArith.
Import ListNotations.
Local Open Scope N_scope.

(** asio::cancellation_type (this_coro.hpp:140): a set of bits; none is 0 *)
Definition ctype := N.
Definition terminal : ctype := 1.
Definition partial : ctype := 2.
Definition total : ctype := 4.
Definition filter := ctype -> ctype.
(** asio::cancellation_filter<Mask>; enable_total is the DefaultFilter of the promises
    (this_coro.hpp:90; promise.hpp, task.hpp, generator.hpp, detached.hpp:36 pass
    enable_total_cancellation) *)
Definition mask (m : ctype) : filter := fun t => N.land t m.
Definition enable_total : filter := mask 7.
Definition enable_partial : filter := mask 3.
Definition enable_terminal : filter := mask 1.

(** this_coro.hpp:157-158, 291 *)
Record state := mk
  { source : bool;                          (** source_ is connected *)
    st : option (filter * filter * ctype);  (** state_: filters and mask; None: no slot *)
    throws : bool }.                        (** throw_if_cancelled_ *)

(** what happens to a coroutine: this_coro.hpp:101-137, 147-152, 276-288; concepts.hpp:41-59 *)
Inductive label :=
| LSignal (t : ctype)              (** the source emits *)
| LReset0                          (** co_await reset_cancellation_state() *)
| LReset1 (f : filter)
| LReset2 (i o : filter)
| LSource (connected : bool)       (** co_await reset_cancellation_source(slot) *)
| LClear                           (** (co_await cancellation_state).clear() *)
| LThrowIf (b : bool)              (** co_await throw_if_cancelled(b) *)
| LThrows                          (** co_await throw_if_cancelled() *)
| LCancelled                       (** co_await cancelled *)
| LAwait                           (** co_await of an awaitable *)
| LAwaitDeferred.                  (** co_await of an asio operation (asio::deferred) *)

(** this_coro.hpp:104, 279; concepts.hpp:52-58 *)
Inductive event :=
| EForward (t : ctype)     (** the operation waited for gets a cancellation *)
| EIs (t : ctype)          (** result of co_await cancelled *)
| EBool (b : bool)         (** result of co_await throw_if_cancelled() *)
| EAborted                 (** operation_aborted is thrown *)
| EProceeds.

(** asio::cancellation_state(slot, in, out), as constructed at this_coro.hpp:150, 214, 236-238, 262-265 *)
Definition new_state (connected : bool) (i o : filter) : option (filter * filter * ctype) :=
  if connected then Some (i, o, 0) else None.
(** asio::cancellation_state::cancelled(), this_coro.hpp:140-143 *)
Definition cancelled (s : state) : ctype := match st s with Some (_, _, m) => m | None => 0 end.

Definition step (s : state) (l : label) : state * list event :=
  match l with
  | LSignal t => match st s with
                 | Some (i, o, _) =>
                     let m := i t in
                     (mk (source s) (Some (i, o, m)) (throws s), if o m =? 0 then [] else [EForward (o m)])
                 | None => (s, [])
                 end
  (* this_coro.hpp:114-117, 198-216; the filter of both directions is the same *)
  | LReset0 => (mk (source s) (new_state (source s) enable_total enable_total) (throws s), [])
  (* this_coro.hpp:120-125, 218-240 *)
  | LReset1 f => (mk (source s) (new_state (source s) f f) (throws s), [])
  (* this_coro.hpp:128-137, 242-267 *)
  | LReset2 i o => (mk (source s) (new_state (source s) i o) (throws s), [])
  (* this_coro.hpp:147-152; detached.hpp:52-57 *)
  | LSource c => (mk c (new_state c enable_total enable_total) (throws s), [])
  (* this_coro.hpp:108-111, 179-196: a copy that shares the handler *)
  | LClear => (mk (source s) (match st s with Some (i, o, _) => Some (i, o, 0) | None => None end) (throws s), [])
  (* this_coro.hpp:284-288, 312-330 *)
  | LThrowIf b => (mk (source s) (st s) b, [])
  (* this_coro.hpp:276-280, 293-310 *)
  | LThrows => (s, [EBool (throws s)])
  (* this_coro.hpp:102-105, 160-177 *)
  | LCancelled => (s, [EIs (cancelled s)])
  (* concepts.hpp:42-59 *)
  | LAwait => (s, [if negb (cancelled s =? 0) && throws s then EAborted else EProceeds])
  (* op.hpp:199-215 *)
  | LAwaitDeferred => (s, [EProceeds])
  end.

(** this_coro.hpp:96-98, 147-152, 270-272; promise.hpp:346, task.hpp:327, generator.hpp:380 connect their
    own signal; a detached coroutine starts unconnected *)
Definition init (connected : bool) : state := mk connected (new_state connected enable_total enable_total) true.

(** a history *)
Fixpoint run (s : state) (ls : list label) : state * list event :=
  match ls with
  | [] => (s, [])
  | l :: r => let '(s1, e1) := step s l in let '(s2, e2) := run s1 r in (s2, e1 ++ e2)
  end.
