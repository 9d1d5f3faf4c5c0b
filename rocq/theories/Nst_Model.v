(** * Model of combinators inside combinators
    Any nest of [gather], [join] and [race] (also [left_race]) over I/O operations, awaited by one
    coroutine: /repo/include/boost/cobalt/detail/gather.hpp, join.hpp, race.hpp, fork.hpp.

    A combinator is an awaitable, so that it can be an argument of another one: the fork that the
    outer one starts for it (await_impl) calls its await_ready and await_suspend and is resumed by
    its last fork (fork.hpp 144-161).

    Simplifications.
    - Starting an awaitable is one step: nothing happens between its await_ready returning false and
      its await_suspend, because the forks that wait for the executor in between
      (fork.hpp 208-224) are resumed by the root's await_suspend at once.
    - An operation completes when it is started, or later from the event loop; not from inside the
      cancellation signal (asio posts), and it can not be interrupted (no interrupt_await).  So
      interrupt_await of a nested combinator (gather.hpp 72-92, join.hpp 95-115, race.hpp 143-148)
      has no effect.
    - The arguments of a race are listed in the order in which they are started, and the
      reported index refers to that list (C15 has the order).  Results are values; no transactions, no
      throwing await_ready (C14-C19 have those, for one combinator with arbitrary arguments).
    - The signals of one loop over the children come in the order of the list.
    - The frames of the forks are not modelled (C56).
    - A range of combinators can only be given to race: the range overloads of gather and join put
      the awaitables of their children into a vector (gather.hpp 260-279, join.hpp 338-357), and
      those of combinators can not be moved (fork.hpp:40, monotonic_resource.hpp:45). *)
From Coq Require Import List Bool Arith.
Import ListNotations.

Definition ctype := nat.
(** asio::cancellation_type::all *)
Definition ct_all : ctype := 7.

Inductive kind := Gather | Join | Race.

Section Nest.
Context {V E : Type}.

(** How an operation ends. *)
Definition comp : Type := V + E.

(** What is awaited: an operation ([now]: it completes at once, in await_ready or in
    await_suspend), or a combinator; [ct] is race's template argument. *)
Inductive tree :=
| Op (id : nat) (now : option comp)
| Comb (k : kind) (ct : ctype) (l : list tree).

(** What an await gives. *)
Inductive out :=
| OVal (v : val)
| OErr (e : E)
| OUndef               (** an empty optional is read *)
with val :=
| VOp (v : V)
| VAll (l : list out)              (** gather: one result for each argument *)
| VVals (l : list val)             (** join *)
| VWin (i : nat) (v : val).        (** race *)

Definition op_out (x : comp) : out := match x with inl v => OVal (VOp v) | inr e => OErr e end.

(** An awaitable that waits. *)
Inductive st :=
| SOp (id : nat)
| SComb (k : kind) (ct : ctype)
    (ix : option nat)              (** race: index (race.hpp 124-133) *)
    (er : option E)                (** join: error (join.hpp 74) *)
    (cs : list cell)
with cell :=
| CIdle                            (** not started *)
| CRun (canc : bool) (s : st)      (** its fork waits; join, race: cancel[i] != nullptr *)
| CEnd (r : option out).           (** its fork has ended; what it stored in result *)

Inductive event :=
| EStart (id : nat)                (** the operation is initiated *)
| EDone (id : nat) (x : comp)
| ESig (id : nat) (t : ctype)      (** a cancellation signal for the operation *)
| EResult (o : out).               (** the awaiting coroutine continues *)

Definition is_race (k : kind) : bool := match k with Race => true | _ => false end.
Definition is_gather (k : kind) : bool := match k with Gather => true | _ => false end.

(** The signal of a coroutine that waits for [s] is emitted: the handler of gather
    (gather.hpp 176-182) forwards it to every child, those of join (join.hpp 208-215) and race
    (race.hpp 329-336) to those that they have not cancelled; ended forks have cleared their slot
    (fork.hpp 168-173). *)
Fixpoint signal (t : ctype) (s : st) : list event :=
  match s with
  | SOp id => [ESig id t]
  | SComb k _ _ _ cs =>
      flat_map (fun c => match c with
                         | CRun b s => if is_gather k || b then signal t s else []
                         | _ => []
                         end) cs
  end.

(** cancel_all: join.hpp 76-91, race.hpp 135-141, 473-479. *)
Definition emit (t : ctype) (c : cell) : list event :=
  match c with CRun true s => signal t s | _ => [] end.
Definition clear (c : cell) : cell := match c with CRun _ s => CRun false s | _ => c end.
Definition cancel_all (t : ctype) (cs : list cell) : list cell * list event :=
  (map clear cs, flat_map (emit t) cs).

(** The fork of child [n] gets [o]: what it leaves behind, and whether it calls cancel_all, with
    which type.
    gather.hpp 109-132, 311-337; join.hpp 133-161, 406-427; race.hpp 229-275, 550-593. *)
Definition finish (k : kind) (ct : ctype) (n : nat) (o : out) (ix : option nat) (er : option E)
  : cell * option nat * option E * option ctype :=
  match k with
  | Gather => (CEnd (Some o), ix, er, None)
  | Join =>
      match o with
      | OErr e => (CEnd None, ix, match er with None => Some e | Some _ => er end, Some ct_all)
      | _ => (CEnd (Some o), ix, er, None)
      end
  | Race =>
      match ix with
      | None => (CEnd (Some o), Some n, er, Some ct)
      | Some _ => (CEnd None, ix, er, Some ct)
      end
  end.

Definition maybe_cancel (t : option ctype) (cs : list cell) : list cell * list event :=
  match t with Some t => cancel_all t cs | None => (cs, []) end.

Fixpoint all_some {A} (l : list (option A)) : option (list A) :=
  match l with
  | [] => Some []
  | Some a :: t => option_map (cons a) (all_some t)
  | None :: _ => None
  end.
Definition stored (c : cell) : option out := match c with CEnd r => r | _ => None end.
Definition value_of (o : out) : option val := match o with OVal v => Some v | _ => None end.

(** await_resume: gather.hpp 193-214, join.hpp 222-236, race.hpp 343-351. *)
Definition result (k : kind) (ix : option nat) (er : option E) (cs : list cell) : out :=
  match k with
  | Gather => match all_some (map stored cs) with Some l => OVal (VAll l) | None => OUndef end
  | Join =>
      match er with
      | Some e => OErr e
      | None =>
          match all_some (map (fun c => match stored c with Some o => value_of o | None => None end) cs) with
          | Some l => OVal (VVals l) | None => OUndef
          end
      end
  | Race =>
      match ix with
      | Some i =>
          match nth_error (map stored cs) i with
          | Some (Some (OVal v)) => OVal (VWin i v)
          | Some (Some (OErr e)) => OErr e
          | _ => OUndef
          end
      | None => OUndef
      end
  end.

Definition runs (c : cell) : bool := match c with CRun _ _ => true | _ => false end.

(** The last fork resumes the awaiting one (fork.hpp 139-161), or await_suspend says that
    there is nothing to wait for (gather.hpp 172-173, join.hpp 204-205, race.hpp 325-326). *)
Definition settle (k : kind) (ct : ctype) (ix : option nat) (er : option E) (cs : list cell) : st + out :=
  if existsb runs cs then inl (SComb k ct ix er cs) else inr (result k ix er cs).

Section Loop.
Variable go : tree -> list event * (st + out).

(** The loops of await_ready and await_suspend: gather.hpp 144-170, join.hpp 173-199 start
    every child; race.hpp 296-323 stops at the first one that has ended. *)
Fixpoint go_l (k : kind) (ct : ctype) (acc : list cell) (ix : option nat) (er : option E) (l : list tree)
  : list cell * option nat * option E * list event :=
  match l with
  | [] => (acc, ix, er, [])
  | t :: r =>
      let (e1, o) := go t in
      match o with
      | inl s => let '(cs, ix', er', e2) := go_l k ct (acc ++ [CRun true s]) ix er r in (cs, ix', er', e1 ++ e2)
      | inr o =>
          let '(c, ix1, er1, t1) := finish k ct (length acc) o ix er in
          let (acc1, e2) := maybe_cancel t1 acc in
          if is_race k then (acc1 ++ c :: map (fun _ => CIdle) r, ix1, er1, e1 ++ e2)
          else let '(cs, ix', er', e3) := go_l k ct (acc1 ++ [c]) ix1 er1 r in (cs, ix', er', e1 ++ e2 ++ e3)
      end
  end.
End Loop.

(** The awaitable is awaited: await_ready, and await_suspend if that is false. *)
Fixpoint go (t : tree) : list event * (st + out) :=
  match t with
  | Op id (Some x) => ([EStart id; EDone id x], inr (op_out x))
  | Op id None => ([EStart id], inl (SOp id))
  | Comb k ct l =>
      let '(cs, ix, er, e) := go_l go k ct [] None None l in
      (* join.hpp:201-202 *)
      let (cs1, e1) := match k, er with Join, Some _ => cancel_all ct_all cs | _, _ => (cs, []) end in
      (e ++ e1, settle k ct ix er cs1)
  end.

Section Deliver.
Variable deliver : st -> option (list event * (st + out)).
Fixpoint deliver_l (k : kind) (ct : ctype) (ix : option nat) (er : option E) (acc l : list cell)
  : option (list event * (st + out)) :=
  match l with
  | [] => None
  | c :: r =>
      match c with
      | CRun b s =>
          match deliver s with
          | Some (e, inl s1) => Some (e, inl (SComb k ct ix er (acc ++ CRun b s1 :: r)))
          | Some (e, inr o) =>
              let '(c1, ix1, er1, t1) := finish k ct (length acc) o ix er in
              let (cs, e1) := maybe_cancel t1 (acc ++ c1 :: r) in
              Some (e ++ e1, settle k ct ix1 er1 cs)
          | None => deliver_l k ct ix er (acc ++ [c]) r
          end
      | _ => deliver_l k ct ix er (acc ++ [c]) r
      end
  end.
End Deliver.

(** Operation [id] completes: the fork that awaits it goes on, and so do those above if it
    was the last one. *)
Fixpoint deliver (id : nat) (x : comp) (s : st) : option (list event * (st + out)) :=
  match s with
  | SOp j => if j =? id then Some ([EDone id x], inr (op_out x)) else None
  | SComb k ct ix er cs => deliver_l (deliver id x) k ct ix er [] cs
  end.

(** ** Histories *)
Inductive label :=
| LComplete (id : nat) (x : comp)
| LCancel (t : ctype).           (** the awaiting coroutine is cancelled *)

(** [None]: the awaiting coroutine goes on. *)
Definition state : Type := option st.

Definition answer (r : st + out) : state * list event :=
  match r with inl s => (Some s, []) | inr o => (None, [EResult o]) end.

Definition step (s : state) (l : label) : option (state * list event) :=
  match s with
  | None => None
  | Some s =>
      match l with
      | LComplete id x =>
          match deliver id x s with
          | Some (e, r) => let (s1, e1) := answer r in Some (s1, e ++ e1)
          | None => None
          end
      | LCancel t => Some (Some s, signal t s)
      end
  end.

Fixpoint run (s : state) (ls : list label) : option (state * list event) :=
  match ls with
  | [] => Some (s, [])
  | l :: r => match step s l with
              | Some (s1, e1) => match run s1 r with Some (s2, e2) => Some (s2, e1 ++ e2) | None => None end
              | None => None
              end
  end.

(** co_await of [t], then [ls]. *)
Definition await (t : tree) (ls : list label) : option (state * list event) :=
  let (e, r) := go t in
  let (s, e1) := answer r in
  match run s ls with Some (s2, e2) => Some (s2, (e ++ e1) ++ e2) | None => None end.
End Nest.
Arguments tree V E : clear implicits.
Arguments out V E : clear implicits.
Arguments val V E : clear implicits.
Arguments st V E : clear implicits.
Arguments cell V E : clear implicits.
Arguments event V E : clear implicits.
Arguments label V E : clear implicits.
Arguments state V E : clear implicits.
Arguments comp V E : clear implicits.
