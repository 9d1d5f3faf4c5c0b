(** * Networks of coroutines that communicate through channels
    /repo/include/boost/cobalt/channel.hpp lines 57-182 and /repo/include/boost/cobalt/impl/channel.hpp lines 52-323,
    as in Channel_Model.v, used by any number of coroutines.

    A coroutine is a deterministic program: from its local state it either ends, or does
    one of co_await c.read(), co_await c.write(v), c.close(), and goes on with the result.  All
    coroutines run on one thread.  What a coroutine does between two operations is not interrupted by
    anything and is part of the local state.  The order in which coroutines continue that were resumed is left open, and so
    is the order in which the executor runs its jobs, so every order that the code can produce is among those
    considered.  Operations are temporaries of the co_await expression: made, awaited, and destroyed after they gave
    their result.
    Not modelled here: cancellation and interruption (see C04, C52, C79, C81), destruction of coroutines. *)
From Coq Require Import List Bool Arith.
From Verif Require Import Channel_Model.
Import ListNotations.

Section Net.
Context {V S : Type}.
Notation cstate := (Channel_Model.state V).
Notation cevent := (Channel_Model.event V).
Notation clabel := (Channel_Model.label V).

(** What a coroutine does next.  channel.hpp:156 read, 158-182 write, 59 close. *)
Inductive act :=
| Done
| Rd (c : nat) (k : rresult V -> S)
| Wr (c : nat) (v : V) (k : wresult -> S)
| Cl (c : nat) (k : S).

(** The coroutines, which are the user's (no code of the library): what number [p] does in a local state. *)
Variable next : nat -> S -> act.

(** The channels (channel.hpp:62-69, 150-153 through Channel_Model) and the coroutines that use them.
    [nr], [nw]: how many reads and writes were made on a channel; they number the operations.
    [rown], [wown]: whose operation it is.  [busy]: the coroutine is suspended in its operation. *)
Record state := mk {
  chans : nat -> cstate;
  nr : nat -> nat;
  nw : nat -> nat;
  rown : nat -> nat -> nat;
  wown : nat -> nat -> nat;
  loc : nat -> S;
  busy : nat -> bool }.

(** What is seen from outside: the calls of read, write and close, and what co_await gives (channel.hpp:103, 147, 59). *)
Inductive event :=
| BeginR (p c : nat)
| BeginW (p c : nat) (v : V)
| Closes (p c : nat)
| EndR (p c : nat) (r : rresult V)
| EndW (p c : nat) (v : V) (r : wresult).

(** Who continues: nothing in the code fixes an order between resumed coroutines and posted jobs (impl/channel.hpp:64, 139,
    197, 260, 319 asio::post). *)
Inductive label :=
| Go (p : nat)       (** coroutine [p] continues up to its next operation and performs it *)
| Job (c k : nat).   (** the executor runs the k-th job of channel [c] *)

(** Field updates. *)
Definition set_chan c x s := mk (upd (chans s) c x) (nr s) (nw s) (rown s) (wown s) (loc s) (busy s).
Definition set_loc p x s := mk (chans s) (nr s) (nw s) (rown s) (wown s) (upd (loc s) p x) (busy s).
Definition set_busy p b s := mk (chans s) (nr s) (nw s) (rown s) (wown s) (loc s) (upd (busy s) p b).
(** coroutine [p] makes a read, or a write, of channel [c] (channel.hpp:156, 158-182) and is about to await it *)
Definition enter_r p c s := mk (chans s) (upd (nr s) c (Datatypes.S (nr s c))) (nw s) (upd (rown s) c (upd (rown s c) (nr s c) p)) (wown s) (loc s) (upd (busy s) p true).
Definition enter_w p c s := mk (chans s) (nr s) (upd (nw s) c (Datatypes.S (nw s c))) (rown s) (upd (wown s) c (upd (wown s c) (nw s c) p)) (loc s) (upd (busy s) p true).

(** An operation on channel [c] ends: its coroutine gets the result (impl/channel.hpp:144-201, 266-323 await_resume); the operation is
    destroyed at the end of the co_await expression (channel.hpp:71, 109 auto_unlink). *)
Definition deliver (c : nat) (e : cevent) (s : state) : state * list event :=
  match e with
  | ERead i r =>
      let p := rown s c i in
      match next p (loc s p) with
      | Rd _ k => (set_busy p false (set_loc p (k r) (set_chan c (fst (step (chans s c) (DestroyR i))) s)), [EndR p c r])
      | _ => (s, [])
      end
  | EWrite j v r =>
      let p := wown s c j in
      match next p (loc s p) with
      | Wr _ _ k => (set_busy p false (set_loc p (k r) (set_chan c (fst (step (chans s c) (DestroyW j))) s)), [EndW p c v r])
      | _ => (s, [])
      end
  end.

(** All that one channel step ended, in order. *)
Fixpoint absorb (c : nat) (es : list cevent) (s : state) : state * list event :=
  match es with
  | [] => (s, [])
  | e :: t => let '(s1, e1) := deliver c e s in let '(s2, e2) := absorb c t s1 in (s2, e1 ++ e2)
  end.

(** Operations are performed on channel [c] (impl/channel.hpp:96-142, 219-264 await_suspend, 52-76 close), and whoever they resume gets their
    result. *)
Definition on (c : nat) (ls : list clabel) (s : state) : state * list event :=
  let '(x, es) := run (chans s c) ls in absorb c es (set_chan c x s).

(** One step: a coroutine that is not suspended runs up to its next operation and performs it, or the executor runs a job of a channel
    (impl/channel.hpp:64, 139, 197, 260, 319: all of these resume a coroutine). *)
Definition nstep (s : state) (l : label) : option (state * list event) :=
  match l with
  | Go p =>
      if busy s p then None else
      match next p (loc s p) with
      | Done => None
      | Rd c _ => let '(s1, es) := on c [MkRead (nr s c); AwRead (nr s c) false] (enter_r p c s) in Some (s1, BeginR p c :: es)
      | Wr c v _ => let '(s1, es) := on c [MkWrite (nw s c) v; AwWrite (nw s c) false] (enter_w p c s) in Some (s1, BeginW p c v :: es)
      | Cl c k => let '(s1, es) := on c [Close] (set_loc p k s) in Some (s1, Closes p c :: es)
      end
  | Job c k => if k <? length (posted (chans s c)) then Some (on c [Run k] s) else None
  end.

(** A schedule; [None] if it asks for something that is not possible. *)
Fixpoint nrun (s : state) (ls : list label) : option (state * list event) :=
  match ls with
  | [] => Some (s, [])
  | l :: r => match nstep s l with
              | None => None
              | Some (s1, e1) => match nrun s1 r with None => None | Some (s2, e2) => Some (s2, e1 ++ e2) end
              end
  end.

(** impl/channel.hpp:18-31, channel.hpp:213-215: channels with these limits, nothing in them, coroutines about to start; [void c]: channel [c] is a channel<void>. *)
Definition ninit (void : nat -> bool) (lims : nat -> nat) (start : nat -> S) : state :=
  mk (fun c => init (void c) (lims c)) (fun _ => 0) (fun _ => 0) (fun _ _ => 0) (fun _ _ => 0) start (fun _ => false).
End Net.
Arguments act V S : clear implicits.
Arguments state V S : clear implicits.
Arguments event V : clear implicits.
