(** * Model of with()
    /repo/include/boost/cobalt/with.hpp lines 33-69, 72-110, 113-152, 155-196 (the four
    overloads; 200-208 is the one whose teardown is await_exit) and
    /repo/include/boost/cobalt/detail/with.hpp lines 16-151 (with_impl).

    The four overloads differ in whether func is awaited and whether it has a
    value; the control flow is the same.  An overload with a synchronous func is
    the case where nothing else happens between LAwait and LFunc.
    [V] is the type of func's value (unit for void), [E] of exceptions.

    Simplification: BOOST_NO_EXCEPTIONS is not defined; moving the argument is
    part of calling teardown; storing func's value in the local variable res
    (with.hpp:132, 176, inside the try block) is part of func, so when that move
    throws func's outcome is the exception. *)
From Coq Require Import List Bool Arith.
Import ListNotations.

Section With.
Context {V E : Type}.

Inductive outcome := Val (v : V) | Exn (e : E).

(** Where the coroutine of with() is: suspended at its beginning
    (initial_suspend, detail/with.hpp:83), in func, in teardown (with what it
    has in the local variables e and res), destroyed. *)
Inductive phase :=
| Created
| InFunc
| InTear (e : option E) (res : option V)
| AtEnd            (* at final_suspend, not destroyed *)
| Freed.

(** The coroutine that awaits with(). *)
Inductive awaiter := Before | Waiting | Resumed | Destroyed.

Record state := mk { ph : phase; aw : awaiter }.

Inductive event :=
| EFunc                          (** func is called *)
| EFuncEnd (o : outcome)         (** what it gives *)
| ETear (e : option E)           (** teardown is called with e *)
| ETearEnd (x : option E)        (** it ends, with an exception or not *)
| EFree                          (** the coroutine of with() is destroyed *)
| EResult (o : outcome)          (** what co_await with(...) gives *)
| EUb.

Inductive label :=
| LAwait (x : option E)
   (** co_await with(arg, func, teardown); Some: the awaiting coroutine has no
       executor and the thread has none either, so await_suspend throws *)
| LFunc (o : outcome)            (** func (and what it returned, if awaited) ends *)
| LTear (x : option E) (m1 m2 : option E)
   (** teardown ends; m1, m2: moving the value into the promise, out of the
       promise throws *)
| LKillAwaiter                   (** the awaiting coroutine is destroyed *)
| LKill.                         (** whatever with() waits for destroys its coroutine *)

(** detail/with.hpp:116-126 (void: 128-135)  await_resume: the exception and the
    value are fetched, the coroutine destroyed, then the exception thrown or the value
    given; [pe], [pres] are promise.e and promise.result. *)
Definition await_resume (pe : option E) (pres : option V) (m2 : option E) : phase * list event :=
  match pres, m2 with
  | Some _, Some x => (AtEnd, [EResult (Exn x)])     (* get_result() throws: no destroy *)
  | _, _ =>
      (Freed, EFree :: match pe with
                       | Some e => [EResult (Exn e)]
                       | None => match pres with Some v => [EResult (Val v)] | None => [EUb] end
                       end)
  end.

Definition step (s : state) (l : label) : option (state * list event) :=
  match l, ph s, aw s with
  (* detail/with.hpp:137-151 await_suspend, then with.hpp:48-50 (89-91, 130-132, 174-176):
     func is called in the try block *)
  | LAwait None, Created, Before => Some (mk InFunc Waiting, [EFunc])
  (* detail/with.hpp:144: get_executor() throws; nobody destroys the coroutine *)
  | LAwait (Some x), Created, Before => Some (mk Created Resumed, [EResult (Exn x)])
  (* with.hpp:50-59 (91-100, 132-141, 176-185): the value is kept, or the exception
     stored in e; then teardown is called with e *)
  | LFunc o, InFunc, a =>
      let '(e, res) := match o with Val v => (None, Some v) | Exn e => (Some e, None) end in
      Some (mk (InTear e res) a, [EFuncEnd o; ETear e])
  (* with.hpp:61-69 (102-110, 143-152, 187-196): teardown's exception only if there is
     none yet; rethrow, or co_return; detail/with.hpp:38-42 return_value, 78-81
     unhandled_exception, 94-97 final_suspend resumes the awaiting coroutine *)
  | LTear x m1 m2, InTear e res, a =>
      let e' := match e with Some y => Some y | None => x end in
      let '(pe, pres) := match e' with
                         | Some y => (Some y, None)
                         | None => match res, m1 with
                                   | Some _, Some y => (Some y, None)
                                   | r, _ => (None, r)
                                   end
                         end in
      match a with
      | Waiting => let '(p, es) := await_resume pe pres m2 in Some (mk p Resumed, ETearEnd x :: es)
      | _ => Some (mk AtEnd a, [ETearEnd x; EUb])          (* resumes a destroyed coroutine *)
      end
  (* with_impl has no destructor (detail/with.hpp:16-31) *)
  | LKillAwaiter, _, Waiting => Some (mk (ph s) Destroyed, [])
  | LKill, (InFunc | InTear _ _), a => Some (mk Freed a, [EFree])
  | _, _, _ => None
  end.

(** detail/with.hpp:72-75, 83  the coroutine is created suspended. *)
Definition init : state := mk Created Before.

(** A history: the labels, in order. *)
Fixpoint run (s : state) (ls : list label) : option (state * list event) :=
  match ls with
  | [] => Some (s, [])
  | l :: r => match step s l with
              | Some (s1, es) => match run s1 r with Some (s2, es') => Some (s2, es ++ es') | None => None end
              | None => None
              end
  end.
End With.
Arguments state V E : clear implicits.
Arguments event V E : clear implicits.
Arguments label V E : clear implicits.
Arguments outcome V E : clear implicits.
