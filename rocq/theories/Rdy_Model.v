(** * Model of reading from, and waiting for, a connected stream socket (paths relative to /repo)

    - src/io/stream_socket.cpp 50-57: read_some; include/boost/cobalt/io/ops.hpp 60-93: read_op.
    - include/boost/cobalt/io/socket.hpp 87-103 and src/io/socket.cpp 190-203: wait and wait_op; 86-92: bytes_readable.
    - src/io/socket.cpp 27-39: close and cancel.
    - include/boost/cobalt/op.hpp 50-54 and 63-85: await_ready and await_suspend.

    asio (reactive sockets, e.g. with epoll), after its sources: the reading operations of a socket, reads and waits, are in one
    queue.  A read that finds the queue empty is attempted at once; a wait never is.  Otherwise an operation waits for the event that
    the descriptor is readable.  Events are fetched first (epoll_wait) and handled later, as an entry of the queue of the scheduler, so
    other completions may come in between.  Handling one performs the operations in order until one would block; a wait is
    performed without another look.  A read into empty buffers completes at once.  Operations of a closed socket fail at once.
    cancel, close and a cancellation signal remove operations that were not performed, and complete them as aborted.

    Simplifications: bytes are numbers; bytes that the socket has got stay in [avail] after close, where nothing reads them;
    an event is fetched only when an operation is queued (others have no effect); one thread. *)
From Coq Require Import List Bool Arith Lia.
Import ListNotations.

(** read_some into buffers of [n] bytes (stream_socket.cpp:50-57), wait(wait_read) (socket.hpp:100-103) *)
Inductive kind := KRead (n : nat) | KWait.

(** what an operation completes with; [Ready]: a wait without error *)
Inductive res := Data (bs : list nat) | Eof | Ready | Aborted | Bad.

(** what can be observed; [ETake] is the moment the bytes leave the socket, [EDone] the moment the coroutine goes on *)
Inductive event :=
| EArrive (bs : list nat) | EEof
| EStart (i : nat) (k : kind)
| ETake (i : nat) (bs : list nat)
| EDone (i : nat) (r : res)
| ESignal (i : nat) | ECancel | EClose.

(** one socket *)
Record state := mk
  { avail : list nat;             (** received, not read *)
    eof : bool;                   (** the peer has shut down its side *)
    isopen : bool;
    queue : list (nat * kind);    (** asio's queue of reading operations *)
    ev : bool;                    (** an event was fetched and is not handled *)
    posted : list (nat * res);    (** completions that are not delivered *)
    nops : nat }.

(** a connected socket *)
Definition init : state := mk [] false true [] false [] 0.

(** what can happen *)
Inductive label :=
| LArrive (bs : list nat)         (** the peer has sent something *)
| LEof
| LRead (n : nat) (imm : bool)    (** co_await s.read_some(...); [imm]: the immediate executor is used (op.hpp:63-85) *)
| LWait                           (** co_await s.wait() *)
| LPoll                           (** an event is fetched *)
| LReact                          (** and handled *)
| LDeliver                        (** the next completion *)
| LSignal (i : nat)               (** the coroutine that waits for operation [i] is cancelled *)
| LCancel                         (** s.cancel() *)
| LClose.

(** asio's receive without waiting; None: would block *)
Definition receive (n : nat) (s : state) : option (res * list nat) :=
  match avail s with
  | [] => if eof s then Some (Eof, []) else None
  | l => Some (Data (firstn n l), skipn n l)
  end.

(** plumbing: the fields that operations change *)
Definition set (a : list nat) (q : list (nat * kind)) (p : list (nat * res)) (s : state) : state := mk a (eof s) (isopen s) q (ev s) p (nops s).

(** the bytes taken by operation [i] with result [r] *)
Definition takes (i : nat) (r : res) : list event := match r with Data bs => [ETake i bs] | _ => [] end.

(** asio performs the queued operations in order until one would block *)
Fixpoint serve (q : list (nat * kind)) (s : state) : state * list event :=
  match q with
  | [] => (set (avail s) [] (posted s) s, [])
  | (i, KWait) :: q' => serve q' (set (avail s) q' (posted s ++ [(i, Ready)]) s)
  | (i, KRead n) :: q' =>
      match receive n s with
      | Some (r, a) => let '(s', e) := serve q' (set a q' (posted s ++ [(i, r)]) s) in (s', takes i r ++ e)
      | None => (set (avail s) q (posted s) s, [])
      end
  end.

(** the operations that [f] selects complete as aborted *)
Definition abort (f : nat -> bool) (s : state) : state :=
  set (avail s) (filter (fun p => negb (f (fst p))) (queue s))
      (posted s ++ map (fun p => (fst p, Aborted)) (filter (fun p => f (fst p)) (queue s))) s.

(** plumbing: the next operation has a number *)
Definition next (s : state) : state := mk (avail s) (eof s) (isopen s) (queue s) (ev s) (posted s) (S (nops s)).

(** the operation completes without waiting *)
Definition complete (imm : bool) (i : nat) (r : res) (s : state) : state * list event :=
  if imm then (s, [EDone i r]) else (set (avail s) (queue s) (posted s ++ [(i, r)]) s, []).

(** a label with None is not possible in this state *)
Definition step (l : label) (s : state) : option (state * list event) :=
  match l with
  | LArrive bs => if eof s || negb (isopen s) then None else Some (mk (avail s ++ bs) (eof s) (isopen s) (queue s) (ev s) (posted s) (nops s), [EArrive bs])
  | LEof => if eof s || negb (isopen s) then None else Some (mk (avail s) true (isopen s) (queue s) (ev s) (posted s) (nops s), [EEof])
  | LRead n imm =>
      let i := nops s in let s0 := next s in
      if n =? 0 then let '(s1, e) := complete imm i (Data []) s0 in Some (s1, EStart i (KRead n) :: e)
      else if negb (isopen s) then let '(s1, e) := complete imm i Bad s0 in Some (s1, EStart i (KRead n) :: e)
      else match queue s, receive n s with
           | [], Some (r, a) => let '(s1, e) := complete imm i r (set a [] (posted s) s0) in Some (s1, EStart i (KRead n) :: takes i r ++ e)
           | q, _ => Some (set (avail s) (q ++ [(i, KRead n)]) (posted s) s0, [EStart i (KRead n)])
           end
  | LWait =>
      let i := nops s in let s0 := next s in
      if negb (isopen s) then Some (s0, [EStart i KWait; EDone i Bad])                   (* bytes_readable fails, socket.cpp:194-196 *)
      else match avail s with
           | _ :: _ => Some (s0, [EStart i KWait; EDone i Ready])                        (* wait_op::ready, socket.cpp:190-198 *)
           | [] => Some (set (avail s) (queue s ++ [(i, KWait)]) (posted s) s0, [EStart i KWait])    (* socket.cpp:200-203 *)
           end
  | LPoll =>
      match queue s, (match avail s with [] => eof s | _ => true end), isopen s with
      | _ :: _, true, true => Some (mk (avail s) (eof s) (isopen s) (queue s) true (posted s) (nops s), [])
      | _, _, _ => None
      end
  | LReact =>
      if ev s then
        let s0 := mk (avail s) (eof s) (isopen s) (queue s) false (posted s) (nops s) in
        Some (serve (queue s) s0)
      else None
  | LDeliver =>
      match posted s with
      | (i, r) :: p => Some (set (avail s) (queue s) p s, [EDone i r])
      | [] => None
      end
  | LSignal i => Some (abort (Nat.eqb i) s, [ESignal i])
  | LCancel => Some (abort (fun _ => true) s, [ECancel])
  | LClose => let s1 := abort (fun _ => true) s in
      Some (mk (avail s1) (eof s1) false (queue s1) false (posted s1) (nops s1), [EClose])
  end.

Fixpoint run (ls : list label) (s : state) : option (state * list event) :=
  match ls with
  | [] => Some (s, [])
  | l :: ls' =>
      match step l s with
      | Some (s', es) => match run ls' s' with Some (s'', es') => Some (s'', es ++ es') | None => None end
      | None => None
      end
  end.
