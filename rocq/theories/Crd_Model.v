(** * Model of BOOST_COBALT_FOR over a channel_reader
    /repo/include/boost/cobalt/async_for.hpp lines 10-15 with
    /repo/include/boost/cobalt/channel.hpp lines 323-341, over the channel of Channel_Model.v.

    One coroutine runs [BOOST_COBALT_FOR(auto v, channel_reader(c)) body].  The body may
    suspend, so everything else can happen to the channel while it runs, and it may leave
    the loop.  Anybody else may read, write, cancel, interrupt and close.  The reads of the
    loop are the read operations with even numbers (the n-th turn has number 2n), those of
    others have odd ones.  The channel is a channel<T>: with channel<void> the declaration
    of the value in line 12 does not compile.
    Not modelled: the loop's coroutine being destroyed while it waits; the loop's read as
    a member of a race (the co_await of the loop is a plain one). *)
From Coq Require Import List Bool Arith.
From Verif Require Import Channel_Model.
Import ListNotations.

Section Reader.
Context {V : Type}.
Notation cstate := (Channel_Model.state V).
Notation cevent := (Channel_Model.event V).
Notation clabel := (Channel_Model.label V).

Inductive pc :=
| Body        (** in the body, or before the first turn *)
| Waiting     (** suspended in the co_await of async_for.hpp:12 *)
| Left        (** behind the loop *)
| Threw.      (** the co_await threw *)

(** [turn]: how many reads of the loop have completed (ghost, names the operation). *)
Record state := mk { chan : cstate; turn : nat; at_ : pc }.

Inductive exn := Broken | Aborted.
Inductive event :=
| C (e : cevent)     (** an operation on the channel completes *)
| Visit (v : V)      (** the body starts with this value *)
| Leave              (** the condition was false *)
| Throw (x : exn).   (** the loop is left with an exception *)

Inductive label :=
| RChan (l : clabel)    (** somebody else uses the channel, or the executor runs a job *)
| RNext (slot : bool)   (** the end of the body: the condition of async_for.hpp:11, then the co_await of line 12;
                            [slot]: the loop's coroutine can be cancelled *)
| RCancel               (** the loop's coroutine is cancelled while it waits *)
| RBreak.               (** the body leaves the loop *)

(** channel.hpp:334 explicit operator bool; [chan_] is never null (line 326-327), is_open: line 57 *)
Definition condition (c : cstate) : bool := negb (closed c).

(** the read the loop does, or will do, next: channel.hpp:329-332 *)
Definition mine (s : state) : nat := 2 * turn s.

(** labels of others: not about the loop's operations *)
Definition others (l : clabel) : bool :=
  match l with
  | MkRead i | AwRead i _ | CancelR i | InterruptR i | DestroyR i => Nat.odd i
  | _ => true
  end.

Definition possible (s : state) (l : label) : bool :=
  match l, at_ s with
  | RChan l, _ => others l
  | RNext _, Body | RBreak, Body | RCancel, Waiting => true
  | _, _ => false
  end.

(** what a label does to the channel *)
Definition ops (s : state) (l : label) : list clabel :=
  match l with
  | RChan l => [l]
  | RNext slot => if condition (chan s) then [MkRead (mine s); AwRead (mine s) slot] else []
  | RCancel => [CancelR (mine s)]
  | RBreak => []
  end.

(** the result of read [i], if it completes here *)
Fixpoint result (i : nat) (es : list cevent) : option (rresult V) :=
  match es with
  | [] => None
  | ERead j r :: t => if j =? i then Some r else result i t
  | _ :: t => result i t
  end.

(** async_for.hpp:12: the co_await gives a value, or throws (impl/channel.hpp:145-149) *)
Definition report (r : rresult V) : event :=
  match r with RVal v => Visit v | RAborted => Throw Aborted | RBroken => Throw Broken end.
Definition after (r : rresult V) : pc := match r with RVal _ => Body | _ => Threw end.

(** the read operation is a temporary of async_for.hpp:12: it is destroyed before the body starts *)
Definition rstep (s : state) (l : label) : option (state * list event) :=
  if possible s l then
    let '(c, es) := run (chan s) (ops s l) in
    match result (mine s) es with
    | Some r => Some (mk (fst (step c (DestroyR (mine s)))) (S (turn s)) (after r), map C es ++ [report r])
    | None =>
        match l with
        | RNext _ => if condition (chan s) then Some (mk c (turn s) Waiting, map C es)
                     else Some (mk c (turn s) Left, [Leave])
        | RBreak => Some (mk c (turn s) Left, [])
        | _ => Some (mk c (turn s) (at_ s), map C es)
        end
    end
  else None.

Definition rinit (lim : nat) : state := mk (init false lim) 0 Body.

(** a history; None: not possible *)
Fixpoint rrun (s : state) (ls : list label) : option (state * list event) :=
  match ls with
  | [] => Some (s, [])
  | l :: r => match rstep s l with
              | None => None
              | Some (s1, e1) => match rrun s1 r with None => None | Some (s2, e2) => Some (s2, e1 ++ e2) end
              end
  end.
End Reader.
Arguments state V : clear implicits.
Arguments event V : clear implicits.
Arguments label V : clear implicits.
