(** * Model of [race] over generators: [co_await race(g1, g2, ...)], again and again

    Sources modelled (paths relative to /repo/include/boost/cobalt):
      race.hpp          (45-105: the empty range)
      detail/race.hpp   (40-376 the variadic and 379-683 the ranged race; line numbers without a
                         file name are those of the variadic one)
      detail/fork.hpp   (139-166: who continues when a fork has ended)
      detail/generator.hpp through Gen_Model.v.

    Conventions.
    - Generators are numbered and have the same types; [nv g] says that [g] takes no pushed
      value.  One coroutine races, any number of times; each race has its own members.  A member
      is an lvalue ([race(g, h)]) or an rvalue ([race(make_g(), g(p))]): only lvalues have the
      [interrupt_await] that detail/generator.hpp:320 declares with [&] (63-77).
    - Everything that happens to one generator is a step of Gen_Model; the fork of member [k]
      is awaiter [2 * k] of its generator, the other awaiters have odd numbers.  [Env g l] is a
      step of generator [g], its coroutine or its other awaiters.
    - interrupt_await of an awaitable resumes whoever awaits its generator
      (detail/generator.hpp:326-327).  If that is another one ([steal]), this is no step of
      Gen_Model; [odd] remembers that it happened.
    - The nested calls of cancel_all (a fork that is resumed by interrupt_await calls cancel_all
      itself, 274) are flattened: they interrupt the same awaits and run no user code.
    - [fork::done()] on a finished fork is taken to be true.
    - [ub] means undefined behaviour in a generator, or that a fork was destroyed together with
      the coroutine or the generator it waits for; executions are not followed beyond it. *)
From Coq Require Import List Bool Arith.
From Verif Require Import Gen_Model.
Import ListNotations.

Section Rgn.
Context {Y P E : Type}.
Notation gstate := (Gen_Model.state Y P E).
Notation gevent := (Gen_Model.event Y P E).
Notation glabel := (Gen_Model.label Y P E).
Notation result := (Gen_Model.outcome Y E).

(** One argument of race: the generator, whether it is an lvalue (48), what is pushed. *)
Record member := mkM { gen : nat; lv : bool; push : P }.

(** What a fork is doing (168-285). *)
Inductive fork := Unborn | Active | Finished.

(** Where the coroutine is that races. *)
Inductive phase :=
| Idle
| Starting (last : option nat) (rest : list nat) (ran : bool)
                 (* 296-323: [last] was started last, [rest] are to be started; ran: starting
                    the last one resumed its generator, which is running *)
| Waiting.       (* 325-340 *)

Record rstate := mkR {
  gens : nat -> gstate;
  pc : phase;
  mem : list member;             (* 116: aws *)
  idx : option nat;              (* 124: index *)
  out : option result;           (* 127-128: result or error *)
  fk : nat -> fork;
  armed : nat -> bool;           (* 120: cancel[k] != nullptr *)
  odd : bool;
  ub : bool }.

Inductive revent :=
| G (g : nat) (e : gevent)             (* something happens in generator g *)
| Begin (ms : list member)             (* co_await race(...) *)
| Win (k g : nat) (r : result)         (* it ends with the outcome of member k, generator g *)
| EmptyThrow.                          (* race of an empty range throws *)

Inductive rlabel :=
| Await (ms : list member) (order : list nat)
                                       (* co_await race(ms); the members are started in [order] *)
| Next                                 (* the next member is started *)
| Env (g : nat) (l : glabel)
| Cancel (t : nat)                     (* the racing coroutine is cancelled *)
| Interrupt.                           (* interrupt_await on the race *)

Definition rinit : rstate :=
  mkR (fun _ => init) Idle [] None None (fun _ => Unborn) (fun _ => false) false false.

(** Field updates. *)
Definition set_gens x s := mkR x (pc s) (mem s) (idx s) (out s) (fk s) (armed s) (odd s) (ub s).
Definition set_pc x s := mkR (gens s) x (mem s) (idx s) (out s) (fk s) (armed s) (odd s) (ub s).
Definition set_fk k x s := mkR (gens s) (pc s) (mem s) (idx s) (out s) (upd (fk s) k x) (armed s) (odd s) (ub s).
Definition set_armed k x s := mkR (gens s) (pc s) (mem s) (idx s) (out s) (fk s) (upd (armed s) k x) (odd s) (ub s).
Definition set_odd s := mkR (gens s) (pc s) (mem s) (idx s) (out s) (fk s) (armed s) true (ub s).
Definition set_ub b s := mkR (gens s) (pc s) (mem s) (idx s) (out s) (fk s) (armed s) (odd s) (ub s || b).

(** The number under which the fork of member [k] awaits its generator. *)
Definition fid (k : nat) : nat := 2 * k.

(** What ends the execution. *)
Definition fatal (e : gevent) : bool :=
  match e with EBad _ => true | EKilled w => Nat.even w | _ => false end.

Variable nv : nat -> bool.

(** A step of generator [g]. *)
Definition on (g : nat) (l : glabel) (s : rstate) : option (rstate * list gevent) :=
  match step (nv g) l (gens s g) with
  | None => None
  | Some (x, ev) => Some (set_ub (existsb fatal ev) (set_gens (upd (gens s) g x) s), ev)
  end.

(** The outcome that the fork of member [k] gets. *)
Fixpoint answer (k : nat) (ev : list gevent) : option result :=
  match ev with
  | [] => None
  | EResult w r :: t => if w =? fid k then Some r else answer k t
  | EReject w :: t => if w =? fid k then Some (RExc XAlready) else answer k t
  | _ :: t => answer k t
  end.

(** The fork that a step of a generator resumes, with its outcome. *)
Fixpoint woken (ev : list gevent) : option (nat * result) :=
  match ev with
  | [] => None
  | EResult w r :: t => if Nat.even w then Some (Nat.div2 w, r) else woken t
  | _ :: t => woken t
  end.

(** 219-242 and 246-273: the outcome of member [k] is kept if the race is undecided or
    decided for [k]; the fork is about to end.  275 follows after cancel_all. *)
Definition complete (k : nat) (r : result) (s : rstate) : rstate :=
  let i := match idx s with None => k | Some m => m end in
  mkR (gens s) (pc s) (mem s) (Some i) (if i =? k then Some r else out s)
      (upd (fk s) k Finished) (upd (armed s) k false) (odd s) (ub s).

(** detail/generator.hpp:326-327, when the awaitable is not the one that is waiting: whoever
    waits is resumed. *)
Definition steal (g : nat) (s : rstate) : rstate * list gevent :=
  match aw (gens s g) with
  | None => (s, [])
  | Some w =>
      let (x, ev) := resume w (set_aw None (gens s g)) in
      (set_odd (set_gens (upd (gens s) g x) s), ev)
  end.

Definition is_active (f : fork) : bool := match f with Active => true | _ => false end.

(** 143-148 and 73-77, one element: the await of member [k] is interrupted
    (detail/generator.hpp:320-328); its fork, if it is resumed by that, ends.  [m] is the
    member that calls cancel_all, whose working[m] is not nullptr yet (274-275). *)
Definition interrupt_one (m : nat) (s : rstate) (k : nat) : rstate * list revent :=
  match nth_error (mem s) k with
  | None => (s, [])
  | Some mb =>
      if lv mb && (is_active (fk s k) || (k =? m)) then
        let (s1, ev) := match on (gen mb) (LInterrupt (fid k)) s with
                        | Some p => p
                        | None => steal (gen mb) s
                        end in
        (match woken ev with Some (j, r) => complete j r s1 | None => s1 end, map (G (gen mb)) ev)
      else (s, [])
  end.

(** cancellation_type::all, the default of race.hpp:45, 67 *)
Definition ct : nat := ct_all.

(** 138-140, one element. *)
Definition emit_one (s : rstate) (k : nat) : rstate * list revent :=
  match nth_error (mem s) k with
  | None => (s, [])
  | Some mb =>
      if armed s k then
        let s0 := set_armed k false s in
        match on (gen mb) (LSignal (fid k) ct) s0 with
        | Some (s1, ev) => (s1, map (G (gen mb)) ev)
        | None => (s0, [])
        end
      else (s, [])
  end.

(** 333-335, one element: the cancellation is forwarded. *)
Definition forward_one (t : nat) (s : rstate) (k : nat) : rstate * list revent :=
  match nth_error (mem s) k with
  | None => (s, [])
  | Some mb =>
      if armed s k then
        match on (gen mb) (LSignal (fid k) t) s with
        | Some (s1, ev) => (s1, map (G (gen mb)) ev)
        | None => (s, [])
        end
      else (s, [])
  end.

Fixpoint each (f : rstate -> nat -> rstate * list revent) (ks : list nat) (s : rstate) : rstate * list revent :=
  match ks with
  | [] => (s, [])
  | k :: t => let '(s1, e1) := f s k in let '(s2, e2) := each f t s1 in (s2, e1 ++ e2)
  end.

Definition seq2 (p : rstate * list revent) (f : rstate -> rstate * list revent) : rstate * list revent :=
  let '(s1, e1) := p in let '(s2, e2) := f s1 in (s2, e1 ++ e2).

Definition all (s : rstate) : list nat := seq 0 (length (mem s)).

(** 135-141 cancel_all, called by the fork of member [m]. *)
Definition cancel_all (m : nat) (s : rstate) : rstate * list revent :=
  seq2 (each (interrupt_one m) (all s) s) (each emit_one (all s)).

(** 218-275: the fork of member [k] continues with the outcome [r] and ends. *)
Definition finish (k : nat) (r : result) (s : rstate) : rstate * list revent :=
  cancel_all k (complete k r s).

(** detail/fork.hpp:139-166 (the racing coroutine continues when the last fork has ended), 325-326
    (all of them have ended already) and 342-370 await_resume. *)
Definition settle (s : rstate) : rstate * list revent :=
  match pc s with
  | Waiting =>
      if existsb (fun k => is_active (fk s k)) (all s) then (s, [])
      else match idx s, out s with
           | Some i, Some r =>
               (mkR (gens s) Idle [] None None (fun _ => Unborn) (fun _ => false) (odd s) (ub s),
                match nth_error (mem s) i with Some mb => [Win i (gen mb) r] | None => [] end)
           | _, _ => (set_ub true s, [])      (* *result on an empty optional, 350 *)
           end
  | _ => (s, [])
  end.

(** The generator of a member runs because the member was started. *)
Definition woke (ev : list gevent) : bool := existsb (fun e => match e with EPush _ => true | _ => false end) ev.

(** 168-275 and 318: the fork of member [k] is created. *)
Definition start_one (k : nat) (rest : list nat) (s : rstate) : rstate * list revent :=
  match nth_error (mem s) k with
  | None => (s, [])
  | Some mb =>
      match on (gen mb) (LAwait (fid k) (push mb)) (set_fk k Active s) with
      | None => (set_ub true s, [])           (* the generator does not exist *)
      | Some (s1, ev) =>
          match answer k ev with
          | Some r => seq2 (set_pc (Starting (Some k) rest false) s1, map (G (gen mb)) ev) (finish k r)
          | None => (set_pc (Starting (Some k) rest (woke ev)) (set_armed k true s1), map (G (gen mb)) ev)
          end
      end
  end.

(** 312-313 and 319-323: the fork that was started last has ended. *)
Definition stop (last : option nat) (s : rstate) : bool :=
  match last with
  | Some k => match fk s k with Finished => true | _ => false end
  | None => false
  end.

(** Steps of the forks are not steps of the rest of the program. *)
Definition own (l : glabel) : bool :=
  match l with
  | LAwait w _ | LInterrupt w | LSignal w _ => Nat.even w
  | _ => false
  end.

Definition env_one (g : nat) (l : glabel) (s : rstate) : option (rstate * list revent) :=
  match on g l s with
  | None => None
  | Some (s1, ev) =>
      let p := (s1, map (G g) ev) in
      Some (match woken ev with Some (k, r) => seq2 p (finish k r) | None => p end)
  end.

(** The rest of the program cannot run while members are started, unless that resumed a
    generator; the executor cannot run anything then. *)
Definition may_run (p : phase) (l : glabel) : bool :=
  match p with
  | Starting _ _ ran => ran && match l with LJob => false | _ => true end
  | _ => true
  end.

Definition is_order (n : nat) (order : list nat) : bool :=
  (length order =? n) && forallb (fun k => existsb (Nat.eqb k) order) (seq 0 n).

(** 143-148 called from outside, one element.  That the loop goes on after the racing
    coroutine was resumed is C54. *)
Definition interrupt_fork (s : rstate) (k : nat) : rstate * list revent :=
  match nth_error (mem s) k with
  | None => (s, [])
  | Some mb =>
      if lv mb && is_active (fk s k) then
        let (s1, ev) := match on (gen mb) (LInterrupt (fid k)) s with
                        | Some p => p
                        | None => steal (gen mb) s
                        end in
        let p := (s1, map (G (gen mb)) ev) in
        match woken ev with Some (j, r) => seq2 p (finish j r) | None => p end
      else (s, [])
  end.

Definition rstep (s : rstate) (l : rlabel) : option (rstate * list revent) :=
  if ub s then None else
  match l with
  | Await ms order =>
      match pc s, ms with
      | Idle, [] => Some (s, [EmptyThrow])
      | Idle, _ =>
          if is_order (length ms) order then
            Some (mkR (gens s) (Starting None order false) ms None None (fun _ => Unborn) (fun _ => false) (odd s) (ub s), [Begin ms])
          else None
      | _, _ => None
      end
  | Next =>
      match pc s with
      | Starting last rest _ =>
          match stop last s, rest with
          | false, k :: rest => Some (start_one k rest s)
          | _, _ => Some (settle (set_pc Waiting s))
          end
      | _ => None
      end
  | Env g l =>
      if may_run (pc s) l && negb (own l) then
        match env_one g l s with Some p => Some (seq2 p settle) | None => None end
      else None
  | Cancel t => match pc s with Waiting => Some (each (forward_one t) (all s) s) | _ => None end
  | Interrupt => match pc s with Waiting => Some (seq2 (each interrupt_fork (all s) s) settle) | _ => None end
  end.

Fixpoint rrun (s : rstate) (ls : list rlabel) : option (rstate * list revent) :=
  match ls with
  | [] => Some (s, [])
  | l :: t =>
      match rstep s l with
      | None => None
      | Some (s1, e1) => match rrun s1 t with None => None | Some (s2, e2) => Some (s2, e1 ++ e2) end
      end
  end.

End Rgn.
Arguments rstate : clear implicits.
Arguments rlabel : clear implicits.
Arguments revent : clear implicits.
Arguments member : clear implicits.
Arguments mkM {P}.
