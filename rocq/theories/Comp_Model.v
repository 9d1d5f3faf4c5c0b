(** * Model of a composed operation
    /repo/include/boost/cobalt/composition.hpp lines 19-176 (composition_promise),
    awaited through /repo/include/boost/cobalt/op.hpp lines 59-85, with
    /repo/include/boost/cobalt/detail/util.hpp lines 125-153 (self_destroy).

    An op whose initiate function is a coroutine.  There are two coroutines: the
    outer one awaits the op, the inner one is the composition.  The composition's
    body is arbitrary: it suspends any number of times and ends with a value or an
    exception.  An inner await that completes immediately is no step at all.

    Undefined behaviour is an event; what follows it in a run is what happens if
    the memory is still readable and unchanged.

    Simplifications: the handler's arguments are one number; allocation of the
    frame is in Frame_Model. *)
From Coq Require Import List Bool Arith.
Import ListNotations.

Definition args := nat.
Definition exn := nat.

(** detail/handler.hpp:28-31 *)
Inductive ci_t := no | maybe | yes | initiating.

(** the coroutine that awaits the op *)
Inductive outer_t :=
| Suspending        (** its await_suspend is running *)
| Suspended
| Going             (** co_await is over; the awaitable is gone *)
| Destroyed.

(** the composition *)
Inductive inner_t :=
| NotYet
| Run (inside : bool)    (** inside: below await_suspend of the outer one *)
| Susp
| Stuck                  (** at its end, with an exception *)
| ToDelete               (** at its end; its deletion is posted *)
| Freed.

Record state := mk { ci : ci_t; outer : outer_t; inner : inner_t; imm : bool }.

Inductive outcome := RArgs (a : args) | RExn (e : exn).

Inductive ub :=
| UFreedHandler     (** final_awaitable::handler is read after the frame with it was destroyed *)
| ULateFree         (** the frame is deleted after the awaitable with its memory is gone *)
| UDead             (** the composition goes on after the awaitable with its memory is gone *)
| UReentered.       (** the outer coroutine is resumed inside its own await_suspend *)

Inductive event :=
| ECompleted (a : args)     (** the handler's result is set *)
| EContinue                 (** the outer coroutine goes on without having been suspended *)
| ESuspend                  (** it is suspended *)
| EResume                   (** it is resumed *)
| EResult (o : outcome)     (** what co_await gives *)
| EFree                     (** the composition's frame is destroyed *)
| EEscape (e : exn)         (** an exception reaches the event loop *)
| EDestroyed                (** the outer coroutine is destroyed *)
| EUb (u : ub).

Inductive label :=
| LBegin (viaimm : bool)    (** op::initiate; viaimm: it calls the coroutine from its handler's immediate executor *)
| LSuspend                  (** the composition suspends in an inner await *)
| LResume                   (** the inner operation resumes it *)
| LReturn (a : args)        (** co_return *)
| LThrow (e : exn)
| LKill                     (** the inner operation is abandoned and destroys the composition *)
| LKillOuter                (** the outer coroutine is destroyed while suspended *)
| LDelete.                  (** the posted deletion is run *)

Definition gone (s : state) : bool := match outer s with Going | Destroyed => true | _ => false end.

(** op.hpp:75-77  the end of await_suspend, after initiate has returned.
    With viaimm the immediate executor (handler.hpp:38-58) puts the state from
    maybe back to initiating before. *)
Definition back (s : state) (a : option args) : state * list event :=
  match ci s with
  | yes => (mk yes Going (inner s) false,
            EContinue :: match a with Some a => [EResult (RArgs a)] | None => [] end)
  | _ => (mk no Suspended (inner s) false, [ESuspend])
  end.

(** [selfdel]: BOOST_COBALT_NO_SELF_DELETE is not set *)
Definition step (selfdel : bool) (s : state) (l : label) : option (state * list event) :=
  match l, inner s with
  (* op.hpp:68-73; composition.hpp:131 the handler moves into the promise, 137 the
     coroutine starts at once *)
  | LBegin v, NotYet => Some (mk (if v then maybe else initiating) Suspending (Run true) v, [])
  (* an inner await; inside, initiate returns to await_suspend *)
  | LSuspend, Run inside =>
      if inside then Some (back (mk (ci s) (outer s) Susp (imm s)) None)
      else Some (mk (ci s) (outer s) Susp (imm s), [])
  | LResume, Susp =>
      Some (mk (ci s) (outer s) (Run false) (imm s), if gone s then [EUb UDead] else [])
  (* composition.hpp:139-142 return_value, 172-175 final_suspend, 151-166 await_suspend;
     util.hpp:147-151, or 127-128 and src/detail/util.cpp:19-32 *)
  | LReturn a, Run inside =>
      let i := if selfdel then Freed else ToDelete in
      let es := ECompleted a :: if selfdel then [EFree; EUb UFreedHandler] else [] in
      match ci s with
      | initiating =>
          let '(s1, es1) := back (mk yes (outer s) i (imm s)) (Some a) in Some (s1, es ++ es1)
      | _ =>
          if inside
          then Some (mk (ci s) Going i (imm s), es ++ [EResume; EUb UReentered])
          else Some (mk (ci s) Going i (imm s), es ++ [EResume; EResult (RArgs a)])
      end
  (* composition.hpp:136; inside: op.hpp:79-83.  The coroutine is left at its final
     suspension point, with the handler in its promise. *)
  | LThrow e, Run inside =>
      if inside then Some (mk (ci s) Going Stuck (imm s), [EContinue; EResult (RExn e)])
      else Some (mk (ci s) (outer s) Stuck (imm s), [EEscape e])
  (* the promise's handler owns the outer coroutine (handler.hpp:271-279) *)
  | LKill, Susp =>
      if gone s then Some (mk (ci s) (outer s) Freed (imm s), [EUb UDead])
      else Some (mk (ci s) Destroyed Freed (imm s), [EFree; EDestroyed])
  | LKillOuter, _ =>
      match outer s with
      | Suspended => Some (mk (ci s) Destroyed (inner s) (imm s), [EDestroyed])
      | _ => None
      end
  (* src/detail/util.cpp:24-29; the frame is in the awaitable's resource *)
  | LDelete, ToDelete =>
      Some (mk (ci s) (outer s) Freed (imm s), (if gone s then [EUb ULateFree] else []) ++ [EFree])
  | _, _ => None
  end.

(** Before the op is awaited. *)
Definition init : state := mk no Suspending NotYet false.

(** A history. *)
Fixpoint run (selfdel : bool) (s : state) (ls : list label) : option (state * list event) :=
  match ls with
  | [] => Some (s, [])
  | l :: r => match step selfdel s l with
              | Some (s1, es) => match run selfdel s1 r with
                                 | Some (s2, es') => Some (s2, es ++ es')
                                 | None => None
                                 end
              | None => None
              end
  end.
