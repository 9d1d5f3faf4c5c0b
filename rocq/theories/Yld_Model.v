(** * Model of experimental::await: awaiting from a stackful coroutine (asio::spawn)

    Sources modelled (paths relative to /repo/include/boost/cobalt):
      experimental/yield_context.hpp (17-54 the frame and its handle, 59-87 await; 89-101 only
      call operator co_await)
      experimental/frame.hpp         (17-30)

    Of asio/spawn.hpp the following is assumed, from its source:
    - A stackful coroutine is resumed by a [spawned_thread_resumer], which attaches itself before
      and, when the coroutine has switched back, destroys it unless it was detached.
    - A [spawn_handler_base] detaches the coroutine when it is constructed, and from then on is
      what has to resume or destroy it: resume() hands it over to a new resumer; its destructor
      posts a function that destroys it, unless it was resumed or moved from.
    - suspend_with(f) throws if the coroutine has been cancelled (and throw_if_cancelled is on);
      otherwise it switches back to the resumer, where [f] is called.
    - spawned_thread_base::resume() continues the coroutine and attaches nothing.
    - Destroying a suspended coroutine unwinds its stack.

    One stackful coroutine; its awaits are numbered.  The executor does not run posted functions
    while the coroutine runs (it runs on the thread of its executor). *)
From Coq Require Import List Bool Arith.
Import ListNotations.

Section Yld.
Context {V : Type}.   (* what an await gives: a value or an exception *)

(** Where the coroutine is: it runs, waits in await [n] (with a frame of this library on its
    stack, or for an operation of asio), has returned, is destroyed. *)
Inductive place := Runs | Waits (n : nat) (framed : bool) | Returned | Gone.

(** What the awaitable does. *)
Inductive how :=
| Ready (v : V)      (* await_ready() is true *)
| Keeps              (* await_suspend returns void, true or another handle, and keeps the handle *)
| Refuses (v : V)    (* await_suspend returns false *)
| Hands (v : V)      (* await_suspend returns the handle of the coroutine itself *)
| Throws.            (* await_suspend throws *)

Record state := mk {
  pl : place;
  owned : bool;              (* a resumer is attached *)
  held : nat -> bool;        (* the handle of await n is kept by what is awaited *)
  life : nat -> bool;        (* spawn_handler_base of await n: spawned_thread_ != nullptr *)
  posted : nat;              (* posted functions that destroy the coroutine *)
  cancelled : bool;
  next : nat }.

Inductive label :=
| LAwait (h : how)           (* experimental::await(aw, ctx) *)
| LYield                     (* an operation of asio is awaited: aw(ctx) *)
| LResume (n : nat) (v : V)  (* the handle (or the handler) of await n is resumed *)
| LDrop (n : nat)            (* ... or destroyed *)
| LReturn                    (* the function of the coroutine ends *)
| LPosted                    (* the executor runs a posted function *)
| LCancel (b : bool).        (* the coroutine is cancelled / its cancellation state is reset *)

(** Undefined behaviour. *)
Inductive bad := ResumedGone | DestroyedGone.

Inductive event :=
| EAwait (n : nat)           (* await n starts *)
| EGot (n : nat) (v : V)     (* ... and returns [v] (or throws it) *)
| EAbort (n : nat) (framed : bool) (* ... or throws operation_aborted; framed: it is experimental::await *)
| EEscape (n : nat)          (* an exception of await_suspend leaves the executor's run *)
| ETake (n : nat)            (* the awaitable gets the handle *)
| EUnwound (n : nat)         (* the coroutine is unwound out of await n *)
| EDrop (n : nat)            (* the handle of await n is destroyed *)
| EReturn
| EDestroy                   (* the coroutine is destroyed *)
| EBad (b : bad).

Definition upd {A} (f : nat -> A) (k : nat) (x : A) : nat -> A := fun i => if Nat.eqb i k then x else f i.

(** asio::spawn: a resumer has started the coroutine. *)
Definition init : state := mk Runs true (fun _ => false) (fun _ => false) 0 false 0.

(** 48 constructs spawn_handler_base in the frame of await n (66). *)
Definition enter (n : nat) (s : state) : state :=
  mk (pl s) false (held s) (upd (life s) n true) (posted s) (cancelled s) (S n).

(** The frame of await n is destroyed (at 84, or by unwinding); ~spawn_handler_base. *)
Definition leave (n : nat) (s : state) : state :=
  mk (pl s) (owned s) (held s) (upd (life s) n false) (if life s n then S (posted s) else posted s)
     (cancelled s) (next s).

(** 38-41 with frame.hpp:20: spawn_handler_base::resume. *)
Definition resume (n : nat) (s : state) : state :=
  mk Runs true (upd (held s) n false) (upd (life s) n false) (posted s) (cancelled s) (next s).

Definition set_pl p s := mk p (owned s) (held s) (life s) (posted s) (cancelled s) (next s).
Definition set_held n b s := mk (pl s) (owned s) (upd (held s) n b) (life s) (posted s) (cancelled s) (next s).
Definition set_owned b s := mk (pl s) b (held s) (life s) (posted s) (cancelled s) (next s).
Definition set_posted k s := mk (pl s) (owned s) (held s) (life s) k (cancelled s) (next s).
Definition set_next k s := mk (pl s) (owned s) (held s) (life s) (posted s) (cancelled s) k.
Definition set_cancelled b s := mk (pl s) (owned s) (held s) (life s) (posted s) b (next s).

(** spawned_thread_base::destroy. *)
Definition destroy (s : state) : state * list event :=
  match pl s with
  | Waits n true => (leave n (set_pl Gone s), [EUnwound n; EDestroy])
  | Waits n false => (set_pl Gone s, [EUnwound n; EDestroy])
  | Gone => (s, [EBad DestroyedGone])
  | _ => (set_pl Gone s, [EDestroy])
  end.

(** 59-87 await *)
Definition await (h : how) (s : state) : state * list event :=
  let n := next s in
  match h with
  | Ready v => (set_next (S n) s, [EAwait n; EGot n v])                      (* 62, 85 *)
  | _ =>
      let s1 := enter n s in                                                 (* 66 *)
      if cancelled s then (leave n s1, [EAwait n; EAbort n true])            (* 68 throws *)
      else match h with
           | Keeps => (set_held n true (set_pl (Waits n true) s1), [EAwait n; ETake n])   (* 73, 76, 80 *)
           | Refuses v => (leave n s1, [EAwait n; ETake n; EGot n v])        (* 76-77, 84, 85 *)
           | Throws => (set_pl (Waits n true) s1, [EAwait n; ETake n; EEscape n])
           | Hands v | Ready v => (leave n (resume n s1), [EAwait n; ETake n; EGot n v])   (* 80, 38-41, 84, 85 *)
           end
  end.

(** An operation of asio: its spawn_handler is constructed after the coroutine has been suspended
    and is part of the operation. *)
Definition yield_op (s : state) : state * list event :=
  let n := next s in
  if cancelled s then (set_next (S n) s, [EAwait n; EAbort n false])
  else (set_held n true (set_pl (Waits n false) (enter n s)), [EAwait n; ETake n]).

Definition step (s : state) (l : label) : option (state * list event) :=
  match l with
  | LAwait h => match pl s with Runs => Some (await h s) | _ => None end
  | LYield => match pl s with Runs => Some (yield_op s) | _ => None end
  | LResume n v =>
      if held s n then
        match pl s with
        | Waits m _ => if Nat.eqb m n then Some (resume n s, [EGot n v]) else Some (set_held n false s, [EBad ResumedGone])
        | _ => Some (set_held n false s, [EBad ResumedGone])
        end
      else None
  | LDrop n =>       (* 42-46; the handler of an asio operation that outlived the coroutine posts
                        its destruction once more, which counts as destroying it *)
      if held s n then
        match pl s with
        | Gone => Some (set_held n false s, [EDrop n; EBad DestroyedGone])
        | _ => Some (leave n (set_held n false s), [EDrop n])
        end
      else None
  | LReturn =>
      match pl s with
      | Runs => if owned s then Some (set_owned false (set_pl Gone s), [EReturn; EDestroy])
                else Some (set_pl Returned s, [EReturn])
      | _ => None
      end
  | LPosted =>
      match pl s, posted s with
      | Runs, _ | _, 0 => None
      | _, S k => Some (destroy (set_posted k s))
      end
  | LCancel b => Some (set_cancelled b s, [])
  end.

Fixpoint run (s : state) (ls : list label) : option (state * list event) :=
  match ls with
  | [] => Some (s, [])
  | l :: t =>
      match step s l with
      | None => None
      | Some (s1, e1) => match run s1 t with None => None | Some (s2, e2) => Some (s2, e1 ++ e2) end
      end
  end.

End Yld.
Arguments how : clear implicits.
Arguments label : clear implicits.
Arguments event : clear implicits.
