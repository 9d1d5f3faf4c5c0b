(** * Model of [cobalt::generator]

    Sources (paths relative to /repo/include/boost/cobalt): detail/generator.hpp,
    generator.hpp.  Line numbers without a file name are those of detail/generator.hpp.

    Conventions.
    - One generator object with its coroutine; the object is not moved.  Any number
      of coroutines (numbered) await it, each [co_await g(p)] with a new awaitable.
    - [novalue] is true for [generator<Yield, void>]; then the pushed values carry no
      information (take [P] to be unit).
    - A step is what happens between two points at which other code can run.  The end
      of the coroutine has two, because the destructors of its local variables run
      between return_value and final_suspend; so has the destructor of the generator,
      because cancelling runs handlers.
    - [EBad] is undefined behaviour or a failed BOOST_ASSERT; the state is left as it is.
      The assertion in await_resume (line 280) is modelled without stopping: release
      builds overwrite the pushed value ([EOverwrite]). *)
From Coq Require Import List Bool Arith.
Import ListNotations.

Section Gen.
Context {Y P E : Type}.

(** XVoid: "cobalt::generator returned void" (276). *)
Inductive exn := XUser (e : E) | XDetached | XAlready | XUnexpected | XVoid.
Inductive outcome := RVal (y : Y) | RExc (x : exn).
Inductive life := Absent | Live | Dying | Gone.

Inductive cstate :=
| NotYet
| Running      (* executing, or suspended in something that is not the generator *)
| Yielding     (* suspended in co_yield or initial; its handle is in yield_from *)
| Posted       (* its handle is in the posted function of lines 306-314 *)
| Returning    (* return_value done, local variables are being destroyed *)
| Dead
| Leaked.      (* unhandled_exception threw *)

Inductive wstate :=
| WIdle
| WSusp (to_push : option P)    (* suspended in the generator's awaitable *)
| WKilled.

Inductive bad :=
| BNoPush     (* co_yield continues without a pushed value (539-540, 584) *)
| BFrame      (* access to a destroyed coroutine frame *)
| BNull       (* resumption of something that is not suspended *)
| BEmpty      (* get() without a value *)
| BBuffer.    (* 173: a third value *)

Inductive event :=
| EInitial                                 (* the coroutine awaits this_coro::initial *)
| EYield (y : Y)                           (* co_yield of a coroutine that has its generator *)
| EReturn (y : Y)
| ELost (y : Y)                            (* co_yield or co_return without one *)
| EThrow (e : E)
| EFinal                                   (* frame destroyed after the end *)
| EKill                                    (* running coroutine destroyed from outside *)
| EDiscard                                 (* suspended coroutine destroyed with its generator *)
| EEscape (e : E)
| EAwait (w : nat) (p : P)                 (* co_await g(p) *)
| EReject (w : nat)                        (* co_await throws already_awaited *)
| EResult (w : nat) (r : outcome)          (* co_await gives r *)
| EGet (r : outcome)                       (* get() gives r *)
| EInterrupt (w : nat)
| EKilled (w : nat)                        (* awaiting coroutine destroyed *)
| EPush (p : P)                            (* co_yield or initial gives p *)
| EOverwrite (p : P)                       (* a pushed value is overwritten *)
| ESignal (t : nat)                        (* cancellation delivered to the coroutine *)
| EDestroy
| EBad (b : bad).

Inductive label :=
| LStart | LNoop (y : Y)
| LInitial | LYield (y : Y) | LReturn (y : Y) | LThrow (e : E) | LFinal | LKill
| LJob
| LAwait (w : nat) (p : P) | LInterrupt (w : nat) | LSignal (w t : nat)
| LGet | LCancel (t : nat) | LDestroy1 | LDestroy2.

(** generator_receiver (72-342) and what matters of generator_promise (344-493):
    [rec]: its member [receiver] is not null, i.e. points to the one generator. *)
Record state := mkS {
  lifeof : life;
  res : option Y; buf : option Y;      (* 76 *)
  exc : option exn;                    (* 75 *)
  done : bool;                         (* 89 *)
  aw : option nat;                     (* 90: awaited_from *)
  lazy : bool;                         (* 93 *)
  pushed : option P;                   (* 44, 60 *)
  cst : cstate;
  rec : bool;
  ws : nat -> wstate }.

Definition upd {A} (f : nat -> A) (i : nat) (a : A) : nat -> A :=
  fun j => if j =? i then a else f j.
Definition set_life x s := mkS x (res s) (buf s) (exc s) (done s) (aw s) (lazy s) (pushed s) (cst s) (rec s) (ws s).
Definition set_vals x y s := mkS (lifeof s) x y (exc s) (done s) (aw s) (lazy s) (pushed s) (cst s) (rec s) (ws s).
Definition set_exc x s := mkS (lifeof s) (res s) (buf s) x (done s) (aw s) (lazy s) (pushed s) (cst s) (rec s) (ws s).
Definition set_done x s := mkS (lifeof s) (res s) (buf s) (exc s) x (aw s) (lazy s) (pushed s) (cst s) (rec s) (ws s).
Definition set_aw x s := mkS (lifeof s) (res s) (buf s) (exc s) (done s) x (lazy s) (pushed s) (cst s) (rec s) (ws s).
Definition set_lazy x s := mkS (lifeof s) (res s) (buf s) (exc s) (done s) (aw s) x (pushed s) (cst s) (rec s) (ws s).
Definition set_pushed x s := mkS (lifeof s) (res s) (buf s) (exc s) (done s) (aw s) (lazy s) x (cst s) (rec s) (ws s).
Definition set_cst x s := mkS (lifeof s) (res s) (buf s) (exc s) (done s) (aw s) (lazy s) (pushed s) x (rec s) (ws s).
Definition set_rec x s := mkS (lifeof s) (res s) (buf s) (exc s) (done s) (aw s) (lazy s) (pushed s) (cst s) x (ws s).
Definition set_w w x s := mkS (lifeof s) (res s) (buf s) (exc s) (done s) (aw s) (lazy s) (pushed s) (cst s) (rec s) (upd (ws s) w x).

Definition init : state := mkS Absent None None None false None false None NotYet false (fun _ => WIdle).

Definition is_some {A} (o : option A) : bool := match o with Some _ => true | None => false end.
Definition live s := match lifeof s with Live | Dying => true | _ => false end.
Definition frame s := match cst s with Running | Yielding | Posted | Returning | Leaked => true | _ => false end.
(** yield_from != nullptr *)
Definition yielding s := match cst s with Yielding => true | _ => false end.

(** 95 *)
Definition ready s := is_some (exc s) || is_some (res s) || done s.
(** 77-88 *)
Definition get_result s := set_vals (buf s) None s.

(** await_resume (267-318) of awaiter [w], which brings [tp]. *)
Definition await_resume w (tp : option P) s : state * list event :=
  match exc s with
  | Some e => (set_exc None s, [EResult w (RExc e)])                                 (* 273-274 *)
  | None =>
      match res s with
      | None => (s, [EResult w (RExc XVoid)])                                        (* 275-276 *)
      | Some y =>
          let (s1, ev) := match tp with                                              (* 278-299 *)
                          | Some p => (set_pushed (Some p) s, match pushed s with Some q => [EOverwrite q] | None => [] end)
                          | None => (s, [])
                          end in
          let s2 := if yielding s1 && negb (lazy s1) then set_cst Posted s1 else s1 in   (* 301-315 *)
          (get_result s2, ev ++ [EResult w (RVal y)])
      end
  end.

(** The coroutine awaiting the generator is resumed. *)
Definition resume w s : state * list event :=
  match ws s w with
  | WSusp tp => await_resume w tp (set_w w WIdle s)
  | _ => (s, [EBad BNull])
  end.

(** The coroutine continues after co_yield or initial: await_resume (536-541, 582-586). *)
Definition continue s : state * list event :=
  match pushed s with
  | Some p => (set_cst Running (set_pushed None s), [EPush p])
  | None => (s, [EBad BNoPush])
  end.

(** awaited_from.reset(nullptr): destroys the awaiting coroutine. *)
Definition kill_w (o : option nat) s : state * list event :=
  match o with
  | Some w => (set_w w WKilled s, [EKilled w])
  | None => (s, [])
  end.

Section Novalue.
Variable novalue : bool.

(** generator_yield_awaitable (495-588) in a coroutine that has its generator:
    await_ready and await_suspend. *)
Definition arrive s : state * list event :=
  if is_some (pushed s) && (novalue || negb (is_some (res s))) then continue s       (* 499-502, 548 *)
  else
    let s1 := set_aw None (set_cst Yielding s) in                                    (* 525-533, 570-579 *)
    match aw s with
    | Some w => resume w s1
    | None => (s1, [])
    end.

(** yield_value of the receiver (166-177). *)
Definition store (y : Y) s : option state :=
  match res s, buf s with
  | None, b => Some (set_vals (Some y) b s)
  | Some x, None => Some (set_vals (Some x) (Some y) s)
  | Some _, Some _ => None
  end.

(** final_suspend (385-425) and ~generator_promise (482-491). *)
Definition final s : state * list event :=
  let s1 := set_cst Dead (set_rec false s) in
  if rec s then
    let s2 := set_aw None (set_done true s1) in
    match aw s with
    | None => (s2, [EFinal])
    | Some w => let (s3, ev) := resume w s2 in (s3, EFinal :: ev)
    end
  else (s1, [EFinal]).

(** generator::cancel (generator.hpp:90-95). *)
Definition cancel t s : state * list event :=
  if done s then (s, [])
  else if frame s then (s, if rec s then [ESignal t] else [])
  else (s, [EBad BFrame]).

(** asio::cancellation_type::all *)
Definition ct_all := 7.

Definition step (l : label) (s : state) : option (state * list event) :=
  match l with
  (* the coroutine is created and starts: 123-127, 361-383, generator.hpp:58-60 *)
  | LStart =>
      match lifeof s, cst s with
      | Absent, NotYet => Some (set_life Live (set_cst Running (set_rec true s)), [])
      | _, _ => None
      end
  (* generator(noop): 97, generator.hpp:50 *)
  | LNoop y =>
      match lifeof s, cst s with
      | Absent, NotYet => Some (set_life Live (set_done true (set_cst Dead (set_vals (Some y) None s))), [EReturn y; EFinal])
      | _, _ => None
      end
  (* co_await this_coro::initial: 449-458 *)
  | LInitial =>
      match cst s with
      | Running =>
          if rec s then let (s1, ev) := arrive (set_lazy true s) in Some (s1, EInitial :: ev)
          else Some (set_cst Dead s, [EDiscard])                          (* terminator: 511-524 *)
      | _ => None
      end
  (* co_yield y: 460-471 *)
  | LYield y =>
      match cst s with
      | Running =>
          if rec s then
            match store y s with
            | None => Some (s, [EBad BBuffer])
            | Some s1 => let (s2, ev) := arrive s1 in Some (s2, EYield y :: ev)
            end
          else Some (set_cst Dead s, [ELost y; EDiscard])
      | _ => None
      end
  (* co_return y: 435-445 *)
  | LReturn y =>
      match cst s with
      | Running =>
          if rec s then
            match store y s with
            | None => Some (s, [EBad BBuffer])
            | Some s1 => Some (set_cst Returning s1, [EReturn y])
            end
          else Some (set_cst Returning s, [ELost y])
      | _ => None
      end
  (* unhandled_exception: 427-433; final_suspend follows at once *)
  | LThrow e =>
      match cst s with
      | Running =>
          if rec s then let (s1, ev) := final (set_exc (Some (XUser e)) s) in Some (s1, EThrow e :: ev)
          else Some (set_cst Leaked s, [EThrow e; EEscape e])
      | _ => None
      end
  | LFinal => match cst s with Returning => Some (final s) | _ => None end
  (* the coroutine is destroyed from outside while it does not wait in the generator: 482-491 *)
  | LKill =>
      match cst s with
      | Running =>
          let s1 := set_cst Dead (set_rec false s) in
          if rec s then
            let x := match done s, exc s with false, None => Some XUnexpected | _, x => x end in
            let (s2, ev) := kill_w (aw s) (set_aw None (set_exc x (set_done true s1))) in
            Some (s2, EKill :: ev)
          else Some (s1, [EKill])
      | _ => None
      end
  (* the posted function, 310-314 *)
  | LJob =>
      match cst s with
      | Posted => if rec s then Some (continue s) else Some (set_cst Dead s, [EDiscard])
      | _ => None
      end
  (* co_await: 200-250 *)
  | LAwait w p =>
      match ws s w, lifeof s with
      | WIdle, Live =>
          if ready s then let (s1, ev) := await_resume w (Some p) s in Some (s1, EAwait w p :: ev)
          else match aw s with
               | Some _ => Some (s, [EReject w])
               | None =>
                   let push := lazy s && negb (is_some (pushed s)) in                   (* 229-248 *)
                   let s1 := set_aw (Some w) (set_w w (WSusp (if push then None else Some p)) s) in
                   let s2 := if push then set_pushed (Some p) s1 else s1 in
                   let (s3, ev) := if yielding s then continue s2 else (s2, []) in      (* 225-227 *)
                   Some (s3, EAwait w p :: ev)
               end
      | _, _ => None
      end
  (* interrupt_await: 320-328 *)
  | LInterrupt w =>
      match ws s w with
      | WSusp _ => if live s then Some (set_aw None (set_w w WIdle s), [EInterrupt w; EResult w (RExc XDetached)]) else None
      | _ => None
      end
  (* forward_cancellation, 219-221 *)
  | LSignal w t =>
      match ws s w with
      | WSusp _ => Some (s, if frame s then [ESignal t] else [EBad BFrame])
      | _ => None
      end
  (* generator.hpp:100-106 *)
  | LGet =>
      match lifeof s with
      | Live =>
          match exc s, res s with
          | Some e, _ => Some (s, [EGet (RExc e)])
          | None, Some y => Some (get_result s, [EGet (RVal y)])
          | None, None => Some (s, [EBad BEmpty])
          end
      | _ => None
      end
  | LCancel t => match lifeof s with Live => Some (cancel t s) | _ => None end
  (* generator.hpp:108-109, then ~generator_receiver (117-121) and its members *)
  | LDestroy1 =>
      match lifeof s with
      | Live => let (s1, ev) := cancel ct_all s in Some (set_life Dying s1, ev)
      | _ => None
      end
  | LDestroy2 =>
      match lifeof s with
      | Dying =>
          if negb (done s) && negb (frame s) then Some (s, [EBad BFrame])
          else
            let s1 := if done s then s else set_rec false s in
            let (s2, ev2) := if yielding s1 then (set_cst Dead s1, [EDiscard]) else (s1, []) in
            let (s3, ev3) := kill_w (aw s2) (set_aw None s2) in
            Some (set_life Gone s3, EDestroy :: ev2 ++ ev3)
      | _ => None
      end
  end.

Fixpoint run (s : state) (ls : list label) : option (state * list event) :=
  match ls with
  | [] => Some (s, [])
  | l :: t =>
      match step l s with
      | None => None
      | Some (s1, e1) =>
          match run s1 t with
          | None => None
          | Some (s2, e2) => Some (s2, e1 ++ e2)
          end
      end
  end.
End Novalue.
End Gen.
Arguments state Y P E : clear implicits.
Arguments event Y P E : clear implicits.
Arguments label Y P E : clear implicits.
Arguments outcome Y E : clear implicits.
Arguments exn E : clear implicits.
