(** * Model of cobalt::thread
    /repo/include/boost/cobalt/detail/thread.hpp lines 45-122 (state, promise), 124-211
    (awaitable), /repo/include/boost/cobalt/thread.hpp lines 83-116, /repo/src/thread.cpp
    lines 21-101.

    Two OS threads: the worker, and the one of the coroutine that awaits.  Every
    section between a lock and its unlock is one step (they exclude each other); the
    steps of the two interleave in any order.

    Simplifications: memory is sequentially consistent (done is a seq_cst atomic, the
    rest is guarded by the mutex); what the worker's io_context does besides the
    coroutine is not shown, except that it can take time after the coroutine's end
    and can be stopped; exceptions of other handlers count as the coroutine's. *)
From Coq Require Import List Bool Arith.
Import ListNotations.

Definition exn := nat.

(** the worker thread *)
Inductive worker :=
| Starting               (** its first job waits for the promise's mutex *)
| First                  (** the coroutine runs, below the job that holds the promise's mutex *)
| Idle                   (** the coroutine is suspended *)
| Going                  (** the coroutine runs, resumed by something else *)
| Drain                  (** it has returned, the context still has work *)
| Ended (ep : option exn)   (** run() is over, thread.cpp:65 is next *)
| Flagged (ep : option exn) (** done is set, thread.cpp:67 is next *)
| Exited
| Terminated.            (** std::terminate: the process ends *)

(** the awaiting coroutine *)
Inductive awaiter :=
| Before
| Checked                (** await_ready gave false *)
| Waiting                (** suspended *)
| Posted (ep : option exn)      (** its completion handler has been posted *)
| Joining (r : option (option exn))   (** in await_resume, before join; r: the member res *)
| Over
| Gone.                  (** destroyed while suspended *)

Record state := mk
  { wk : worker; aw : awaiter;
    unlocked : bool;       (** the promise's mutex has been unlocked by its creator *)
    done : bool;           (** thread_state::done *)
    waitor : bool }.       (** thread_state::waitor is set *)

Inductive event :=
| EBegin                      (** the coroutine of the thread begins *)
| EEnd (ep : option exn)      (** run() is over: with this exception, if any *)
| EResult (r : option exn)    (** what co_await gives *)
| EFreed | ELeaked            (** the thread's coroutine is destroyed, or never will be *)
| ESuspended
| ETerminate
| EUb.

Inductive label :=
| LUnlock | LStart | LSuspend | LResume | LReturn | LThrow (e : exn) | LRunEnd | LStop
| LSetDone | LFinish
| LReady | LAwaitSuspend | LDeliver | LJoin | LKillAwaiter.

Section Config.
(** as_tuple form; the thread was given as an rvalue *)
Variables (tuple rvalue : bool).

(** detail/thread.hpp:166-200  await_resume; after join if the thread is owned *)
Definition result (r : option (option exn)) : list event :=
  match r with
  | Some ep => [EResult ep]
  | None => if tuple then [EUb] else [EResult None]
  end.
(** await_resume up to join *)
Definition resume (s : state) (r : option (option exn)) : state * list event :=
  if rvalue then (mk (wk s) (Joining r) (unlocked s) (done s) (waitor s), [])
  else (mk (wk s) Over (unlocked s) (done s) (waitor s), result r).

Definition set_wk (s : state) (w : worker) : state := mk w (aw s) (unlocked s) (done s) (waitor s).

Definition step (s : state) (l : label) : option (state * list event) :=
  match wk s with
  | Terminated => None
  | _ =>
  match l with
  (* detail/thread.hpp:64-78: initial_suspend, in the creating thread; thread.cpp:21-26 locked it *)
  | LUnlock => if unlocked s then None else Some (mk (wk s) (aw s) true (done s) (waitor s), [])
  (* thread.cpp:45-51 *)
  | LStart => match wk s with
              | Starting => if unlocked s then Some (set_wk s First, [EBegin]) else None
              | _ => None
              end
  (* the lock_guard of thread.cpp:49 ends with the first suspension *)
  | LSuspend => match wk s with First | Going => Some (set_wk s Idle, []) | _ => None end
  | LResume => match wk s with Idle => Some (set_wk s Going, []) | _ => None end
  (* detail/thread.hpp:79-83, suspend_never: the frame with the mutex is destroyed; the
     lock_guard of thread.cpp:49 unlocks it afterwards *)
  | LReturn => match wk s with
               | First => Some (set_wk s Drain, [EFreed; EUb])
               | Going => Some (set_wk s Drain, [EFreed])
               | _ => None
               end
  (* detail/thread.hpp:85-87; thread.cpp:55-63.  The handle has been released. *)
  | LThrow e => match wk s with
                | First | Going => Some (set_wk s (Ended (Some e)), [ELeaked; EEnd (Some e)])
                | _ => None
                end
  (* thread.cpp:57 *)
  | LRunEnd => match wk s with Drain => Some (set_wk s (Ended None), [EEnd None]) | _ => None end
  (* cobalt/thread.hpp:108-111, or the context is stopped otherwise *)
  | LStop => match wk s with
             | Starting | Idle | Drain => Some (set_wk s (Ended None), [EEnd None])
             | _ => None
             end
  (* thread.cpp:65-66 *)
  | LSetDone => match wk s with
                | Ended ep => Some (mk (Flagged ep) (aw s) (unlocked s) true (waitor s), [])
                | _ => None
                end
  (* thread.cpp:67-71 *)
  | LFinish => match wk s with
               | Flagged ep =>
                   if waitor s then
                     Some (mk Exited (match aw s with Waiting => Posted ep | a => a end) (unlocked s) (done s) false,
                           match aw s with Gone => [EUb] | _ => [] end)
                   else match ep with
                        | Some _ => Some (set_wk s Terminated, [ETerminate])
                        | None => Some (set_wk s Exited, [])
                        end
               | _ => None
               end
  (* detail/thread.hpp:128-134 *)
  | LReady => match aw s with
              | Before => if done s then Some (resume s None)
                          else Some (mk (wk s) Checked (unlocked s) (done s) (waitor s), [])
              | _ => None
              end
  (* detail/thread.hpp:137-164 *)
  | LAwaitSuspend => match aw s with
                     | Checked => if done s then Some (resume s None)
                                  else Some (mk (wk s) Waiting (unlocked s) (done s) true, [ESuspended])
                     | _ => None
                     end
  | LDeliver => match aw s with Posted ep => Some (resume s (Some ep)) | _ => None end
  (* detail/thread.hpp:170-171 *)
  | LJoin => match aw s, wk s with
             | Joining r, Exited => Some (mk (wk s) Over (unlocked s) (done s) (waitor s), result r)
             | _, _ => None
             end
  (* ~thread_awaitable: with an owned thread, ~std::thread *)
  | LKillAwaiter => match aw s with
                    | Waiting => if rvalue then Some (set_wk s Terminated, [ETerminate])
                                 else Some (mk (wk s) Gone (unlocked s) (done s) (waitor s), [])
                    | _ => None
                    end
  end
  end.

(** detail/thread.hpp:45-52, thread.cpp:76-89 *)
Definition init : state := mk Starting Before false false false.

Fixpoint run (s : state) (ls : list label) : option (state * list event) :=
  match ls with
  | [] => Some (s, [])
  | l :: r => match step s l with
              | Some (s1, es) => match run s1 r with
                                 | Some (s2, es') => Some (s2, es ++ es')
                                 | None => None
                                 end
              | None => None
              end
  end.
End Config.
