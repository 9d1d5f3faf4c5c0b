(** * Model of experimental::make_context: a fiber behind a coroutine handle

    Sources modelled (paths relative to /repo/include/boost/cobalt):
      experimental/context.hpp (27-110 the frame, 181-192 do_return, 266-271 yield,
      285-361 make_context)
      experimental/frame.hpp   (17-30)
    boost::context::fiber is modelled after its documentation: resuming a moved fiber
    enters it and returns the fiber to go on with when it switches back (empty if its function
    has returned); destroying a suspended fiber unwinds its stack; when its function returns or
    its stack is unwound, the stack is deallocated.  The frame (with the promise) is placed on
    that stack (context.hpp:291, 301).

    [irun] is the model of the code.  [crun] (Ctx_Spec.v) is a compiler-made coroutine.  Both are
    driven by the same labels, which say what the body, the awaitables and the rest of the
    program do. *)
From Coq Require Import List Bool Arith.
Import ListNotations.

Section Ctx.
Context {V X : Type}.   (* values; exceptions *)

(** What a coroutine is suspended at: the initial suspend, an await (flag: ctx.yield / co_yield),
    the final suspend. *)
Inductive point := PInit | PAt (k : nat) (y : bool) | PFinal.
(** What await_resume does: returns ([None]: void) or throws. *)
Inductive outcome := Val (w : option V) | Exc (x : X).
(** How await_suspend ends: void or true; false; a handle to resume; an exception. *)
Inductive rv := RetVoid | RetFalse | RetHandle | RetThrow (x : X).

(** The promise type: [lazy]: initial_suspend is suspend_always and noexcept (context.hpp:305-307);
    [never]: final_suspend does not suspend; [rethrow]: unhandled_exception throws. *)
Record cfg := mkCfg { lazy : bool; never : bool; rethrow : bool }.

Inductive label :=
| LStart (ready : bool)                           (* the coroutine is called; ready: the initial awaitable is (if not lazy) *)
| LAwait (k : nat) (y : bool) (r : option outcome) (* the body awaits; Some: await_ready is true *)
| LReturn (v : option V)                          (* the body returns *)
| LThrow (x : X)                                  (* an exception leaves the body *)
| LResume (o : outcome)                           (* h.resume(); o: what await_resume will do *)
| LEnds (r : rv) (o : outcome)                    (* the running await_suspend ends *)
| LOther                                          (* the coroutine resumed in its place returns or suspends *)
| LDestroy                                        (* h.destroy() *)
| LDone.                                          (* h.done() *)

Inductive event :=
| EBegin                     (* the body starts *)
| EReady (k : nat)           (* await_ready is called *)
| ESusp (p : point)          (* await_suspend is called *)
| ESuspThrew (x : X)         (* ... and throws *)
| EGot (p : point) (o : outcome) (* the body goes on with what await_resume gave *)
| ERet (v : option V)        (* promise.return_value / return_void *)
| EUnh (x : X)               (* promise.unhandled_exception *)
| EFin                       (* promise.final_suspend *)
| EFlow                      (* the coroutine goes on behind its final suspend *)
| EBack                      (* the call that resumed (or started) it returns *)
| EThrown (x : X)            (* ... or throws *)
| ELocals                    (* the body's local variables are destroyed *)
| EPromise                   (* the promise is destroyed *)
| EFree                      (* the memory is released *)
| EDone (b : bool).

(** Where the fiber is: not entered (context.hpp:351-353), in the resume() of do_await (99),
    running, at its end. *)
Inductive fstate := FNone | FEntry | FIn (p : point) | FRun | FDead.
(** C++ calls in progress: resume() has entered the fiber (45); resume() runs await_suspend through
    after_resume (46-47, 58-63); do_resume(bool) resumes the fiber again (73-74); the handle
    returned by await_suspend is resumed (85). *)
Inductive iframe := IFiber | IAfter (p : point) | ITail | IOther.

Record istate := mkI {
  fib : fstate;
  callee : bool;            (* frame.callee holds the fiber (context.hpp:30) *)
  alive : bool;             (* the frame exists *)
  istk : list iframe;
  bad : bool }.             (* freed memory is used or the program is terminated *)
Definition iinit : istate := mkI FNone false false [] false.

(** Returning from resume() into do_resume(bool) ends that one, too (context.hpp:74-75). *)
Fixpoint back (st : list iframe) : list iframe := match st with ITail :: t => back t | _ => st end.

(** context.hpp:43-48, the first half: the fiber is entered. *)
Definition enter (s : istate) : istate :=
  mkI FRun false (alive s) (IFiber :: istk s) (bad s || negb (alive s && callee s)).

(** context.hpp:93-100 and the second half of 43-48: do_await switches to the resumer, which
    calls await_suspend. *)
Definition leave (p : point) (s : istate) : istate :=
  match istk s with
  | IFiber :: t => mkI (FIn p) true (alive s) (IAfter p :: t) (bad s)
  | st => mkI (fib s) (callee s) (alive s) st true
  end.

(** context.hpp:346: the fiber's function returns; the stack is deallocated, and with it the
    frame; 45: the resumer assigns to the frame's callee. *)
Definition fall_off (s : istate) : istate :=
  mkI FDead (callee s) false (match istk s with _ :: t => back t | [] => [] end) true.

(** context.hpp:344-345. *)
Definition at_end (cf : cfg) (s : istate) (e : list event) : istate * list event :=
  if never cf then (fall_off s, e ++ [EFin; EFlow; EFree; EBack])
  else (leave PFinal s, e ++ [EFin; ESusp PFinal]).

(** What the body gets from an await: do_await returns it (101), yield does not (268-271). *)
Definition given (p : point) (o : outcome) : outcome :=
  match p, o with PAt _ true, Val _ => Val None | _, _ => o end.

(** The body goes on. *)
Definition goes_on (p : point) (o : outcome) : list event :=
  match p with PInit => [EBegin] | _ => [EGot p (given p o)] end.

Definition istep (cf : cfg) (s : istate) (l : label) : option (istate * list event) :=
  if bad s then None else
  match l, istk s with
  | LStart ready, [] =>
      match fib s with
      | FNone =>
          if lazy cf then Some (mkI FEntry true true [] false, [EBack])              (* 355-356 *)
          else                                                                       (* 357-358, 327-328 *)
            let s1 := enter (mkI FEntry true true [] false) in
            if ready then Some (s1, [EBegin]) else Some (leave PInit s1, [ESusp PInit])
      | _ => None
      end
  | LAwait k y r, IFiber :: _ =>                                                     (* 90-102 *)
      match r with
      | Some o => Some (s, [EReady k; EGot (PAt k y) (given (PAt k y) o)])
      | None => Some (leave (PAt k y) s, [EReady k; ESusp (PAt k y)])
      end
  | LReturn v, IFiber :: _ => Some (at_end cf s [ELocals; ERet v])                   (* 181-192 *)
  | LThrow x, IFiber :: t =>                                                         (* 342 *)
      if rethrow cf then Some (mkI (fib s) (callee s) (alive s) t true, [ELocals; EUnh x])
      else Some (at_end cf s [ELocals; EUnh x])
  | LEnds r o, IAfter p :: t =>
      match r with
      | RetVoid => Some (mkI (fib s) (callee s) (alive s) (back t) (bad s), [EBack])       (* 58-63 *)
      | RetFalse =>                                                                  (* 69-75 *)
          let s1 := enter (mkI (fib s) (callee s) (alive s) (ITail :: t) (bad s)) in
          match p with
          | PFinal => Some (fall_off s1, [EFlow; EFree; EBack])
          | _ => Some (s1, goes_on p o)
          end
      | RetHandle => Some (mkI (fib s) (callee s) (alive s) (IOther :: t) (bad s), [])   (* 85 *)
      | RetThrow x =>                                      (* leaves resume(): nothing catches it *)
          Some (mkI (fib s) (callee s) (alive s) (back t) (bad s), [ESuspThrew x; EThrown x])
      end
  | LOther, IOther :: t => Some (mkI (fib s) (callee s) (alive s) (back t) (bad s), [EBack])
  | LResume _, IFiber :: _ => None
  | LResume o, _ =>
      match fib s with
      | FEntry => Some (enter s, [EBegin])
      | FIn PFinal => None
      | FIn p => Some (enter s, goes_on p o)
      | _ => None
      end
  | LDestroy, IFiber :: _ => None
  | LDestroy, _ =>                                         (* 49-53: the promise, then the stack is unwound *)
      match fib s with
      | FEntry => Some (mkI FDead false false (istk s) (bad s), [EPromise; EFree])
      | FIn p => Some (mkI FDead false false (istk s) (bad s), EPromise :: match p with PAt _ _ => [ELocals] | _ => [] end ++ [EFree])
      | _ => None
      end
  | LDone, IFiber :: _ => None
  | LDone, _ =>                                            (* frame.hpp:20: resume_ is never cleared *)
      match fib s with FEntry | FIn _ => Some (s, [EDone false]) | _ => None end
  | _, _ => None
  end.

Fixpoint irun (cf : cfg) (s : istate) (ls : list label) : option (istate * list event) :=
  match ls with
  | [] => Some (s, [])
  | l :: t =>
      match istep cf s l with
      | None => None
      | Some (s1, e1) => match irun cf s1 t with None => None | Some (s2, e2) => Some (s2, e1 ++ e2) end
      end
  end.
End Ctx.
Arguments label : clear implicits.
Arguments event : clear implicits.
Arguments outcome : clear implicits.
