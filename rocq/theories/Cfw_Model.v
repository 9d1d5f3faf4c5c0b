(** * Model of the forwarding of cancellation through chains of awaits
    (paths relative to /repo/include/boost/cobalt)

    A coroutine hands its cancellation slot to whatever it awaits; that puts a
    handler into the slot.  A signal sent to a coroutine runs the handler that is
    in its slot, which may send a signal to another coroutine, and so on.
    - this_coro.hpp lines 89-158: promises with a cancellation state; a signal is
      filtered, then sent to the handler in [state_.slot()].
    - detail/promise.hpp 204-206, detail/task.hpp 182-184, detail/generator.hpp
      219-221 with detail/forward_cancellation.hpp 31-40: awaiting a coroutine.
    - detail/with.hpp 146-147: a [with] uses the slot of its awaiter.
    - detail/handler.hpp 97-103, 138: an [op] gets the slot of its awaiter.
    - impl/channel.hpp 103-105, 227-229: channel operations.
    - detail/handler.hpp 178-184, detail/gather.hpp 175-182, join.hpp 207-215,
      race.hpp 328-336, detail/fork.hpp 121-135, 169-170: combinators.
    - composition.hpp 18-24, 130-134: composed operations.

    Simplifications.  Sending a signal is one step: what it reaches does not run
    coroutines before it is over (asio's operations and channel operations post
    their completion); combinators whose children run at once are Comb_Model.
    The bits remembered by a cancellation state are Tic_Model.  A coroutine's
    frame is destroyed when it ends, not while it waits.  The awaiter of a
    combinator is resumed after all its helpers have ended.  One thread. *)
From Coq Require Import List Bool Arith Lia.
Import ListNotations.

Definition ctype := nat.      (** asio::cancellation_type, none is 0 *)

(** What a coroutine can await. *)
Inductive target :=
| TCo (d : nat)                        (** promise, task or generator *)
| TWith (d : nat)                      (** with(): its coroutine *)
| TComp (d : nat)                      (** an operation composed of others: its coroutine *)
| TComb (g : nat) (fs : list nat)      (** gather, join, race [g] with the helpers [fs] *)
| TOp (o : nat)                        (** cobalt::op, asio operation *)
| TChan (o : nat)                      (** channel operation *)
| TNone.                               (** does not use the slot *)

Inductive kind :=
| KCo (connected : bool)   (** has a signal and a cancellation state; a detached coroutine may have no source *)
| KFork                    (** helper of a combinator: one of the signals [cancel] *)
| KWith
| KComp.

Inductive stat := Fresh | Running | Waiting (t : target) | Ended.

(** Handlers that are put into slots. *)
Inductive hnd :=
| HFwd (d : nat)                   (** forward_cancellation.hpp:31-40 *)
| HLeaf (o : nat)                  (** the operation's own *)
| HComb (g : nat) (fs : list nat). (** gather.hpp:178-182 *)

Inductive cst := CFresh | CLive | CGone.

Record state := mk
  { knd : nat -> kind;
    st : nat -> stat;
    filt : nat -> ctype -> ctype;     (** out filter after in filter of a cancellation state *)
    slot : nat -> option nat;         (** get_cancellation_slot(): whose slot it is *)
    hand : nat -> option hnd;         (** contents of the slots *)
    aw : nat -> option nat;           (** awaited_from *)
    comb : nat -> cst }.              (** the combinators *)

Definition upd {A} (f : nat -> A) k v : nat -> A := fun n => if Nat.eqb n k then v else f n.

(** What awaiting puts into the slot.  TWith (with.hpp:146-147) puts nothing;
    TComp neither: the slot is kept in the handler (composition.hpp:128), which is
    not used as the source of the promise (composition.hpp:130-134). *)
Definition puts (t : target) : option hnd :=
  match t with
  | TCo d => Some (HFwd d)               (* promise.hpp:206, task.hpp:184, generator.hpp:221 *)
  | TComb g fs => Some (HComb g fs)      (* gather.hpp:176-182, join.hpp:208-215, race.hpp:329-336 *)
  | TOp o | TChan o => Some (HLeaf o)    (* handler.hpp:138; impl/channel.hpp:105 *)
  | TWith _ | TComp _ | TNone => None
  end.

(** Whether await_resume empties the slot: promise.hpp:214, task.hpp:199,
    generator.hpp:269, impl/channel.hpp:166.  Combinators and op (op.hpp:87-112) do not. *)
Definition clears (t : target) : bool :=
  match t with TCo _ | TChan _ => true | _ => false end.

Definition put (n : nat) (h : option hnd) (s : state) : state :=
  match slot s n with
  | Some k => mk (knd s) (st s) (filt s) (slot s) (upd (hand s) k h) (aw s) (comb s)
  | None => s
  end.
Definition set_st n v s := mk (knd s) (upd (st s) n v) (filt s) (slot s) (hand s) (aw s) (comb s).
Definition set_aw n v s := mk (knd s) (st s) (filt s) (slot s) (hand s) (upd (aw s) n v) (comb s).
Definition set_comb g v s := mk (knd s) (st s) (filt s) (slot s) (hand s) (aw s) (upd (comb s) g v).
(** A new coroutine runs, with the default filter enable_total_cancellation
    (detail/promise.hpp:312, detail/task.hpp:288, detail/generator.hpp:347), which lets every type pass. *)
Definition start n k sl s :=
  mk (upd (knd s) n k) (upd (st s) n Running) (upd (filt s) n (fun t => t)) (upd (slot s) n sl) (upd (hand s) n None) (upd (aw s) n None) (comb s).

Inductive label :=
| LStart (n : nat) (connected : bool)      (** a promise, task, generator, detached, main or thread coroutine *)
| LAwait (n : nat) (t : target)
| LResume (n : nat)                        (** what [n] waits for is complete, has yielded, or was interrupted *)
| LEnd (n : nat)                           (** coroutine [n] ends; its awaiter goes on *)
| LFilter (n : nat) (f : ctype -> ctype).  (** co_await reset_cancellation_state(...), this_coro.hpp:113-137 *)

Definition is_fresh (s : state) n := match st s n with Fresh => true | _ => false end.
Definition is_ended (s : state) n := match st s n with Ended => true | _ => false end.

(** [n] goes on: await_resume.  The awaited coroutine forgets its awaiter
    (detail/promise.hpp:387, detail/task.hpp:362, detail/generator.hpp:397); a combinator's awaitable is destroyed. *)
Definition resume (n : nat) (s : state) : state :=
  match st s n with
  | Waiting t =>
      let s1 := set_st n Running s in
      let s2 := if clears t then put n None s1 else s1 in
      match t with
      | TCo d | TWith d | TComp d => set_aw d None s2
      | TComb g _ => set_comb g CGone s2
      | _ => s2
      end
  | _ => s
  end.

(** New helpers *)
Fixpoint start_all (fs : list nat) (s : state) : option state :=
  match fs with
  | [] => Some s
  | f :: r => if is_fresh s f then start_all r (start f KFork (Some f) s) else None
  end.

Definition step (s : state) (l : label) : option state :=
  match l with
  | LStart n c => if is_fresh s n then Some (start n (KCo c) (if c then Some n else None) s) else None
  | LAwait n t =>
      match st s n with
      | Running =>
          let go s1 := let s2 := set_st n (Waiting t) s1 in
                       Some (match puts t with Some h => put n (Some h) s2 | None => s2 end) in
          match t with
          | TCo d =>
              match knd s d, st s d, aw s d with
              | KCo true, (Running | Waiting _), None => if Nat.eqb d n then None else go (set_aw d (Some n) s)
              | _, _, _ => None
              end
          | TWith d => if is_fresh s d then go (set_aw d (Some n) (start d KWith (slot s n) s)) else None
          | TComp d => if is_fresh s d then go (set_aw d (Some n) (start d KComp None s)) else None
          | TComb g fs =>
              match comb s g, start_all fs s with
              | CFresh, Some s1 => go (set_comb g CLive s1)
              | _, _ => None
              end
          | TOp _ | TChan _ | TNone => go s
          end
      | _ => None
      end
  | LResume n =>
      match st s n with
      | Waiting (TWith _) | Waiting (TComp _) => None      (* goes on when that coroutine ends *)
      | Waiting (TComb _ fs) => if forallb (is_ended s) fs then Some (resume n s) else None
      | Waiting _ => Some (resume n s)
      | _ => None
      end
  | LEnd n =>
      match st s n with
      | Running =>
          let s1 := set_st n Ended s in
          let s2 := match knd s n with KFork => put n None s1 | _ => s1 end in    (* fork.hpp:169-170 *)
          Some (match aw s n with Some m => resume m s2 | None => s2 end)
      | _ => None
      end
  | LFilter n f =>
      match st s n, knd s n with
      | Running, KCo _ => 
          (* this_coro.hpp:212-215, 234-239, 260-266: a new state, with a new slot *)
          Some (put n None (mk (knd s) (st s) (upd (filt s) n f) (slot s) (hand s) (aw s) (comb s)))
      | _, _ => None
      end
  end.

Definition init : state :=
  mk (fun _ => KCo false) (fun _ => Fresh) (fun _ t => t) (fun _ => None) (fun _ => None) (fun _ => None) (fun _ => CFresh).

Fixpoint run (s : state) (ls : list label) : option state :=
  match ls with
  | [] => Some s
  | l :: r => match step s l with Some s1 => run s1 r | None => None end
  end.

(** What a signal reaches. *)
Inductive reached :=
| ROp (o : nat) (t : ctype)     (** an operation is cancelled *)
| RDead (d : nat)               (** the signal of a destroyed coroutine is used *)
| RGone (g : nat).              (** a destroyed combinator is used *)

(** asio::cancellation_signal::emit on the signal of [n] *)
Inductive emits (s : state) : nat -> ctype -> reached -> Prop :=
| em_dead n t : st s n = Ended -> knd s n <> KFork -> emits s n t (RDead n)
| em_co n t r h : st s n <> Ended -> knd s n = KCo true -> filt s n t <> 0 ->   (* this_coro.hpp:158 *)
    hand s n = Some h -> runs s h (filt s n t) r -> emits s n t r
| em_fork n t r h : knd s n = KFork ->
    hand s n = Some h -> runs s h t r -> emits s n t r
(** running a handler *)
with runs (s : state) : hnd -> ctype -> reached -> Prop :=
| ru_fwd d t r : emits s d t r -> runs s (HFwd d) t r
| ru_leaf o t : runs s (HLeaf o) t (ROp o t)
| ru_gone g fs t : comb s g = CGone -> runs s (HComb g fs) t (RGone g)
| ru_comb g fs f t r : comb s g <> CGone -> In f fs -> emits s f t r -> runs s (HComb g fs) t r.
