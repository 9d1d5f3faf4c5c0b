(** * Model of co_main's event loop: /repo/src/main.cpp and /repo/include/boost/cobalt/detail/main.hpp

    asio's signal set is modelled after its documentation and source (not in /repo): a signal
    completes the pending wait (its handler is queued); without a pending wait it is counted
    and completes the next wait at once, SIGINT before SIGTERM; cancel() completes the pending
    wait with operation_aborted and does not touch a handler that is queued already.

    Simplifications: co_main's progress between its awaits does not show here, only its end;
    a "signal" is one that asio notices.  The io_context runs one handler at a time and stops when
    there is no work left (co_main holds a work guard while its frame exists, main.cpp:32). *)
From Coq Require Import List Bool ZArith.
Import ListNotations.

Inductive sig := SIGINT | SIGTERM.
Inductive cancellation := total | terminal.

Record state := mk
  { waiting : bool;                          (** a wait is pending *)
    und_int : nat; und_term : nat;           (** signals that found no pending wait *)
    posted : option (bool * option sig);     (** the queued handler: error?, signal *)
    alive : bool;                            (** co_main's frame (and its cancellation signal) exists *)
    res : Z;                                 (** main.cpp:30 *)
    over : bool }.                           (** run_main was left *)

(** what happens: a signal arrives; the queued handler runs (main.cpp:41-50); co_main ends
    with co_return or an exception; ctx.run() runs out of work (main.cpp:61-62) *)
Inductive label :=
| LSig (s : sig) | LHandler | LReturn (v : Z) | LThrow | LExit.

Inductive event :=
| EEmit (c : cancellation)       (** co_main gets the cancellation *)
| EDangling (c : cancellation)   (** the destroyed cancellation signal is used: undefined behaviour *)
| EExit (v : Z)                  (** main returns v *)
| EEscape.                       (** the exception leaves main *)

(** main.cpp:44-47 *)
Definition cancellation_of (s : sig) : cancellation :=
  match s with SIGINT => total | SIGTERM => terminal end.

(** asio::signal_set::async_wait, main.cpp:49, 53 *)
Definition async_wait (st : state) : state :=
  match und_int st, und_term st with
  | S n, m => mk false n m (Some (false, Some SIGINT)) (alive st) (res st) (over st)
  | O, S m => mk false O m (Some (false, Some SIGTERM)) (alive st) (res st) (over st)
  | O, O => mk true O O (posted st) (alive st) (res st) (over st)
  end.

(** asio::signal_set::cancel, main.cpp:21-22 *)
Definition cancel (st : state) : state :=
  if waiting st then mk false (und_int st) (und_term st) (Some (true, None)) (alive st) (res st) (over st) else st.

(** the signal emission: main.cpp:44-47; main.hpp:34-37: the signal is part of the frame *)
Definition emit (st : state) (s : sig) : event :=
  if alive st then EEmit (cancellation_of s) else EDangling (cancellation_of s).

Definition step (st : state) (l : label) : option (state * list event) :=
  if over st then None else
  match l with
  | LSig s =>
      Some (if waiting st
            then mk false (und_int st) (und_term st) (Some (false, Some s)) (alive st) (res st) false
            else match s with
                 | SIGINT => mk false (S (und_int st)) (und_term st) (posted st) (alive st) (res st) false
                 | SIGTERM => mk false (und_int st) (S (und_term st)) (posted st) (alive st) (res st) false
                 end, [])
  | LHandler =>
      match posted st with
      | None => None
      | Some (ec, sg) =>
          let st1 := mk (waiting st) (und_int st) (und_term st) None (alive st) (res st) false in
          Some (if ec then st1 else async_wait st1,
                match sg with Some s => [emit st s] | None => [] end)
      end
  | LReturn v =>
      (* main.hpp:96-100, main.cpp:18-24: final_suspend does not suspend, the frame is destroyed *)
      if alive st then
        let st1 := cancel (mk (waiting st) (und_int st) (und_term st) (posted st) true v false) in
        Some (mk (waiting st1) (und_int st1) (und_term st1) (posted st1) false (res st1) false, [])
      else None
  | LThrow =>
      (* main.hpp:94 *)
      if alive st then Some (mk (waiting st) (und_int st) (und_term st) (posted st) true (res st) true, [EEscape])
      else None
  | LExit =>
      if alive st || waiting st || match posted st with Some _ => true | None => false end then None
      else Some (mk false (und_int st) (und_term st) None false (res st) true, [EExit (res st)])
  end.

(** main.cpp:28-59: the wait is started before co_main *)
Definition init : state := mk true 0 0 None true (-1) false.

(** a history; None: not possible *)
Fixpoint run (st : state) (ls : list label) : option (state * list event) :=
  match ls with
  | [] => Some (st, [])
  | l :: r => match step st l with
              | None => None
              | Some (s1, e1) => match run s1 r with None => None | Some (s2, e2) => Some (s2, e1 ++ e2) end
              end
  end.
