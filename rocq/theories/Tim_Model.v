(** * Model of the timers and of sleep
    /repo/include/boost/cobalt/io/steady_timer.hpp lines 20-49, system_timer.hpp
    lines 20-51, sleep.hpp lines 18-80, ops.hpp lines 173-205 (wait_op),
    /repo/src/io/steady_timer.cpp lines 13-50, system_timer.cpp lines 13-50 and
    sleep.cpp lines 13-30.

    There are any number of timers and sleep objects, on one clock, and any
    number of awaits of them.  The clock is moved by [LTick] to any value: a
    steady clock is one that is only moved forward (Tim_Spec.steady).

    Not in /repo and taken from the documentation of asio's
    basic_waitable_timer: a wait ends with success when the scheduler finds its
    expiry reached ([LFire]); cancel, expires_at, expires_after and the
    destructor end the waits that are pending with operation_aborted, but not
    those whose completion is already queued; completions are run by the
    scheduler in the order they were queued ([LRun]); expires_after saturates.

    Simplifications: integral durations only; one clock, so the steady and the
    system timer are the same code on different clocks; one thread; awaits are
    identified by numbers and not used twice. *)
From Coq Require Import List Bool Arith ZArith Lia.
Import ListNotations.
Open Scope Z_scope.

(** Clocks count in 64 bit integers. *)
Definition MAXT : Z := 9223372036854775807.
Definition MINT : Z := -9223372036854775808.
Definition in64 (z : Z) : bool := (MINT <=? z) && (z <=? MAXT).

(** The objects: timers and sleep operations. *)
Inductive key := Tm (i : nat) | Sl (i : nat).

Definition key_eqb (k k' : key) : bool :=
  match k, k' with
  | Tm i, Tm j => Nat.eqb i j
  | Sl i, Sl j => Nat.eqb i j
  | _, _ => false
  end.

(** How an expiry is given: a time point, or a duration. *)
Inductive arg := At (tp : Z) | For (du : Z).

Inductive res := Ok | Aborted.

Inductive ost := None_ | Live (e : Z) | Gone.

Record pending := mkP { p_w : nat; p_k : key; p_e : Z }.

Record st := mk
  { clk : Z;
    obj : key -> ost;            (** timer_.expiry(), or steady_sleep::tp (sleep.hpp:23) *)
    pend : list pending;         (** waits registered with the timers *)
    queue : list (nat * res);    (** completions queued *)
    used : list nat;             (** awaits started *)
    ub : bool }.

Inductive label :=
| LTick (t : Z)                  (** the clock shows t *)
| LNew (k : key) (a : arg)       (** steady_timer t{a}, or auto s = sleep(a) *)
| LReset (i : nat) (a : arg)     (** t.reset(a) *)
| LCancel (i : nat)              (** t.cancel() *)
| LDestroy (k : key)
| LExpired (i : nat)             (** t.expired() *)
| LExpiry (i : nat)              (** t.expiry() *)
| LWait (w : nat) (k : key)      (** co_await t.wait(), co_await s *)
| LSignal (w : nat)              (** the awaiting coroutine is cancelled *)
| LFire (k : key)                (** the scheduler notices that a timer has expired *)
| LRun.                          (** the scheduler runs a completion *)

Inductive event :=
| ENow (t : Z)
| ENew (k : key) (a : arg)
| EReset (i : nat) (a : arg)
| ECancel (i : nat)
| EDestroy (k : key)
| EExpired (i : nat) (b : bool)  (** expired() returns b *)
| EExpiry (i : nat) (e : Z)      (** expiry() returns e *)
| EWait (w : nat) (k : key)      (** the await begins *)
| ESuspend (w : nat) (k : key)   (** the coroutine is suspended *)
| ESignal (w : nat)
| EDone (w : nat) (r : res)      (** co_await gives r *)
| EUB.                           (** a signed integer overflows *)

(** asio: the sum of a time point and a duration, saturating. *)
Definition sat (z : Z) : Z := Z.max MINT (Z.min MAXT z).

(** steady_timer.cpp:14-15 (constructors) and 28-36 (reset) *)
Definition timer_expiry (now : Z) (a : arg) : Z :=
  match a with At tp => tp | For du => sat (now + du) end.

(** sleep.cpp:13-14: tp{now() + du}, an addition of 64 bit integers.
    [None] if it overflows. *)
Definition sleep_tp (now : Z) (a : arg) : option Z :=
  match a with
  | At tp => Some tp
  | For du => if in64 (now + du) then Some (now + du) else None
  end.

(** What the constructor leaves in the object. *)
Definition fresh_expiry (k : key) (now : Z) (a : arg) : option Z :=
  match k with
  | Tm _ => Some (timer_expiry now a)
  | Sl _ => sleep_tp now a
  end.

(** sleep.hpp:76-80 (and 64-74): std::chrono::duration_cast of [c] units of
    num/den nanoseconds to nanoseconds.  [None] if the product overflows. *)
Definition cast (num den c : Z) : option Z :=
  if in64 (c * num) then Some (Z.quot (c * num) den) else None.

Definition upd (f : key -> ost) (k : key) (v : ost) : key -> ost :=
  fun k' => if key_eqb k' k then v else f k'.

Definition set_obj (k : key) (v : ost) (s : st) : st :=
  mk (clk s) (upd (obj s) k v) (pend s) (queue s) (used s) (ub s).

Definition of_key (k : key) (p : pending) : bool := key_eqb (p_k p) k.
Definition of_wait (w : nat) (p : pending) : bool := Nat.eqb (p_w p) w.

(** asio: the pending waits that satisfy [f] are completed with [r]. *)
Definition finish (f : pending -> bool) (r : res) (s : st) : st :=
  mk (clk s) (obj s) (filter (fun p => negb (f p)) (pend s))
     (queue s ++ map (fun p => (p_w p, r)) (filter f (pend s))) (used s) (ub s).

Definition add_pend (p : pending) (s : st) : st :=
  mk (clk s) (obj s) (pend s ++ [p]) (queue s) (used s) (ub s).

Definition use (w : nat) (s : st) : st :=
  mk (clk s) (obj s) (pend s) (queue s) (w :: used s) (ub s).

(** steady_timer.cpp:47-48, sleep.hpp:27 *)
Definition is_ready (e now : Z) : bool := e <? now.

(** steady_timer.cpp:40-43 (async_wait on the timer); sleep.cpp:20-24: a new
    timer takes the place of the old one, whose waits are aborted. *)
Definition initiate (w : nat) (k : key) (e : Z) (s : st) : st :=
  match k with
  | Tm _ => add_pend (mkP w k e) s
  | Sl _ => add_pend (mkP w k e) (finish (of_key k) Aborted s)
  end.

Definition step (s : st) (l : label) : option (st * list event) :=
  if ub s then None else
  match l with
  | LTick t =>
      if in64 t then Some (mk t (obj s) (pend s) (queue s) (used s) (ub s), [ENow t]) else None
  | LNew k a =>
      match obj s k with
      | None_ =>
          match fresh_expiry k (clk s) a with
          | Some e => Some (set_obj k (Live e) s, [ENew k a])
          | None => Some (mk (clk s) (obj s) (pend s) (queue s) (used s) true, [ENew k a; EUB])
          end
      | _ => None
      end
  | LReset i a =>
      (* steady_timer.cpp:28-36: expires_at, expires_after: cancel, then set *)
      match obj s (Tm i) with
      | Live _ =>
          Some (set_obj (Tm i) (Live (timer_expiry (clk s) a)) (finish (of_key (Tm i)) Aborted s),
                [EReset i a])
      | _ => None
      end
  | LCancel i =>
      (* steady_timer.cpp:17-20 *)
      match obj s (Tm i) with
      | Live _ => Some (finish (of_key (Tm i)) Aborted s, [ECancel i])
      | _ => None
      end
  | LDestroy k =>
      match obj s k with
      | Live _ => Some (set_obj k Gone (finish (of_key k) Aborted s), [EDestroy k])
      | _ => None
      end
  | LExpired i =>
      (* steady_timer.cpp:38 *)
      match obj s (Tm i) with
      | Live e => Some (s, [EExpired i (e <? clk s)])
      | _ => None
      end
  | LExpiry i =>
      (* steady_timer.cpp:23-26 *)
      match obj s (Tm i) with
      | Live e => Some (s, [EExpiry i e])
      | _ => None
      end
  | LWait w k =>
      (* ops.hpp:193-197, 188-191 and op.hpp:48-52, 60-85: ready, then initiate *)
      if existsb (Nat.eqb w) (used s) then None else
      match obj s k with
      | Live e =>
          if is_ready e (clk s)
          then Some (use w s, [EWait w k; EDone w Ok])
          else Some (initiate w k e (use w s), [EWait w k; ESuspend w k])
      | _ => None
      end
  | LSignal w =>
      (* the cancellation slot of the wait, detail/handler.hpp:99-104, 138 *)
      Some (finish (of_wait w) Aborted s, [ESignal w])
  | LFire k =>
      match obj s k with
      | Live e => if e <=? clk s then Some (finish (of_key k) Ok s, []) else None
      | _ => None
      end
  | LRun =>
      match queue s with
      | (w, r) :: q => Some (mk (clk s) (obj s) (pend s) q (used s) (ub s), [EDone w r])
      | [] => None
      end
  end.

Fixpoint run (s : st) (ls : list label) : option (st * list event) :=
  match ls with
  | [] => Some (s, [])
  | l :: ls' =>
      match step s l with
      | Some (s1, ev1) =>
          match run s1 ls' with
          | Some (s2, ev2) => Some (s2, ev1 ++ ev2)
          | None => None
          end
      | None => None
      end
  end.

(** No object yet, the clock shows [c0]. *)
Definition init (c0 : Z) : st := mk c0 (fun _ => None_) [] [] [] false.
