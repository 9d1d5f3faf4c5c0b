(** * Model of several coroutines that write to one stream (paths relative to /repo)

    - include/boost/cobalt/io/write.hpp 19-37 and src/io/write.cpp 14-31: io::write, a composition that repeats write_some.
    - src/io/stream_socket.cpp 58-65 and src/io/pipe.cpp 117-124: write_some; include/boost/cobalt/io/ops.hpp 26-58: write_op.
    - src/io/socket.cpp 34-39: cancel.

    asio, after its documentation: a write_some puts some bytes, at least one, from the front of its buffers into the stream, or fails
    without having put any; cancel and a cancellation signal complete the waiting ones as aborted, but not those that
    have been performed and whose completion is on its way.

    Simplifications: bytes are numbers and the buffers one list; asio performs the waiting write_some in order and tries the first at once,
    here they are performed in any order at any time, which includes that; completions come in any order; a cancellation signal is one that the
    composition lets through; one thread. *)
From Coq Require Import List Bool Arith Lia.
Import ListNotations.

(** operation_aborted, and any other error *)
Inductive err := EAborted | EOther.

(** what can be observed; [ESent]: bytes enter the stream; [EDone i r n]: co_await write(...) gives error [r] and count [n] *)
Inductive event :=
| EStart (i : nat) (bs : list nat)
| ESent (i : nat) (bs : list nat)
| EFail (i : nat)
| EDone (i : nat) (r : option err) (n : nat)
| ESignal (i : nat) | ECancel.

(** where the composition is: in co_await step (write.cpp:19), with the write_some waiting or performed, or at its end *)
Inductive phase := Waiting | Performed (e : option err) (n : nat) | Fin.

(** write.cpp:16-29: step.buffer, m, whether this_coro::cancelled holds *)
Record writer := mkw { rest : list nat; m : nat; canc : bool; ph : phase }.

Record state := mk { ws : nat -> option writer; nops : nat }.
Definition init : state := mk (fun _ => None) 0.

(** what can happen *)
Inductive label :=
| LWrite (bs : list nat)          (** co_await write(s, bs) begins *)
| LSend (i k : nat)               (** the system takes up to [k] bytes *)
| LFail (i : nat)                 (** ... or gives an error *)
| LDeliver (i : nat)              (** the completion of the write_some *)
| LSignal (i : nat)               (** the coroutine that awaits write is cancelled *)
| LCancel.                        (** s.cancel() *)

(** plumbing *)
Definition put (i : nat) (w : writer) (s : state) : state := mk (fun j => if j =? i then Some w else ws s j) (nops s).

(** the head of the loop and what is after it: write.cpp:17 and 27-30 *)
Definition loop (i : nat) (r : list nat) (m : nat) (c : bool) : writer * list event :=
  if negb (length r =? 0) && negb c then (mkw r m c Waiting, [])
  else (mkw r m c Fin, [EDone i (if c then Some EAborted else None) m]).

(** the body of the loop after co_await step: write.cpp:19-25 *)
Definition resume (i : nat) (w : writer) (e : option err) (n : nat) : writer * list event :=
  match e with
  | Some x => (mkw (rest w) (m w + n) (canc w) Fin, [EDone i (Some x) (m w + n)])
  | None => loop i (skipn n (rest w)) (m w + n) (canc w)
  end.

(** a waiting write_some is aborted (socket.cpp:34-39) *)
Definition abort (w : writer) : writer := match ph w with Waiting => mkw (rest w) (m w) (canc w) (Performed (Some EAborted) 0) | _ => w end.

(** a label with None is not possible in this state *)
Definition step (l : label) (s : state) : option (state * list event) :=
  match l with
  | LWrite bs =>
      let '(w, e) := loop (nops s) bs 0 false in
      Some (let s1 := put (nops s) w s in mk (ws s1) (S (nops s)), EStart (nops s) bs :: e)
  | LSend i k =>
      match ws s i with
      | Some (mkw r m c Waiting) =>
          if k =? 0 then None
          else Some (put i (mkw r m c (Performed None (min k (length r)))) s, [ESent i (firstn k r)])
      | _ => None
      end
  | LFail i =>
      match ws s i with
      | Some (mkw r m c Waiting) => Some (put i (mkw r m c (Performed (Some EOther) 0)) s, [EFail i])
      | _ => None
      end
  | LDeliver i =>
      match ws s i with
      | Some w => match ph w with
                  | Performed e n => let '(w', es) := resume i w e n in Some (put i w' s, es)
                  | _ => None
                  end
      | None => None
      end
  | LSignal i =>
      match ws s i with
      | Some w => match ph w with
                  | Fin => None
                  | _ => let w1 := abort w in Some (put i (mkw (rest w1) (m w1) true (ph w1)) s, [ESignal i])
                  end
      | None => None
      end
  | LCancel => Some (mk (fun i => option_map abort (ws s i)) (nops s), [ECancel])
  end.

Fixpoint run (ls : list label) (s : state) : option (state * list event) :=
  match ls with
  | [] => Some (s, [])
  | l :: ls' =>
      match step l s with
      | Some (s', es) => match run ls' s' with Some (s'', es') => Some (s'', es ++ es') | None => None end
      | None => None
      end
  end.
