(** * Model of [race] over channel reads: [co_await race(c1.read(), c2.read(), ...)]

    Sources modelled (paths relative to /repo/include/boost/cobalt):
      detail/race.hpp   (variadic race: 86-376)
      detail/fork.hpp   (the transaction function of a fork: 87-103, 227-249)
      channel.hpp, impl/channel.hpp through Channel_Model.v; here the calls of
      begin_transaction are added (channel.hpp:81-86, impl/channel.hpp:256).

    Conventions.
    - Channels are numbered; member [k] of the race reads from channel [chan k]
      (several members may use one channel).  Members are numbered in the order
      in which they are started (race.hpp:109-113 shuffles them; the index that the
      race returns is the position before shuffling, a renaming not modelled; the loops
      over working and cancel go through the members in this order too, in the code
      they follow the position before shuffling).
    - Everything that happens to one channel is a step of Channel_Model.  The read
      operation of member [k] is operation [k] of its channel; the rest of the
      program uses operation numbers from [n] on.
    - [Env c l] is a step of the rest of the program or of the executor on
      channel [c].
    - The nested calls of cancel_all (a fork that is resumed by interrupt_await
      calls cancel_all itself, race.hpp:274) are flattened: all of them happen
      within one step, interrupt the same operations in the same order and run no
      user code, because a read that ends with an error wakes nobody.
    - [fork::done()] on a finished fork is taken to be true.
    - [ub] means undefined behaviour or a failed assertion in one of the channels,
      or that the exception of the transaction function left a writer's await;
      executions are not followed beyond it. *)
From Coq Require Import List Bool Arith.
From Verif Require Import Channel_Model.
Import ListNotations.

Section Rch.
Context {V : Type}.

(** The race and its channels. *)
Record cfg := mkCfg {
  n : nat;                 (* number of members *)
  chan : nat -> nat;       (* the channel a member reads from *)
  isvoid : nat -> bool;    (* channel<void> *)
  lim : nat -> nat }.      (* buffer limit of a channel *)

(** Where the coroutine is that awaits the race. *)
Inductive phase :=
| Idle                     (* the race has not been awaited *)
| Starting (k : nat) (ran : bool)
                           (* race.hpp:296-323: members below k are started; ran: starting
                              the last one resumed a writer, whose coroutine is running *)
| Waiting (m : nat)        (* race.hpp:325-340: the loop is over, members below m were started *)
| Returned.

Record rstate := mkR {
  chs : nat -> state V;
  pc : phase;
  idx : option nat;          (* race.hpp:124 index *)
  out : option (rresult V);  (* race.hpp:127-128 result or error *)
  fin : nat -> bool;         (* the fork is finished, working[k] == nullptr *)
  armed : nat -> bool;       (* race.hpp:120 cancel[k] != nullptr *)
  ub : bool }.

Inductive revent :=
| C (c : nat) (e : event V)        (* a channel operation completes *)
| Win (m : nat) (r : rresult V)    (* co_await race(...) ends with member m's result *)
| TxThrow (c j : nat).             (* co_await of write j on channel c throws "Another
                                      transaction already started" *)

Inductive rlabel :=
| Await                            (* co_await race(...): await_ready is called *)
| Next                             (* the next member is started *)
| Env (c : nat) (l : label V)
| Cancel                           (* the awaiting coroutine is cancelled *)
| Interrupt.                       (* interrupt_await on the race *)

Definition rinit (cf : cfg) : rstate :=
  mkR (fun c => init (isvoid cf c) (lim cf c)) Idle None None (fun _ => false) (fun _ => false) false.

(** Field updates. *)
Definition set_pc p s := mkR (chs s) p (idx s) (out s) (fin s) (armed s) (ub s).
Definition set_idx k s := mkR (chs s) (pc s) (Some k) (out s) (fin s) (armed s) (ub s).
Definition set_armed k b s := mkR (chs s) (pc s) (idx s) (out s) (fin s) (upd (armed s) k b) (ub s).
Definition set_ub s := mkR (chs s) (pc s) (idx s) (out s) (fin s) (armed s) true.

(** A step of channel [c]. *)
Definition on (c : nat) (l : label V) (s : rstate) : rstate * list (event V) :=
  let '(x, ev) := step (chs s c) l in
  (mkR (upd (chs s) c x) (pc s) (idx s) (out s) (fin s) (armed s) (ub s || is_some (bad x)), ev).

(** What read [k] ended with, if it ended. *)
Fixpoint answer (k : nat) (ev : list (event V)) : option (rresult V) :=
  match ev with
  | [] => None
  | ERead i r :: t => if Nat.eqb i k then Some r else answer k t
  | _ :: t => answer k t
  end.

(** race.hpp:219-242 and 246-272: the result of member [k] is kept if the race is
    undecided or has been reserved for [k]; 275: working[k] = nullptr. *)
Definition complete (k : nat) (r : rresult V) (s : rstate) : rstate :=
  let i := match idx s with None => k | Some m => m end in
  mkR (chs s) (pc s) (Some i) (if Nat.eqb i k then Some r else out s) (upd (fin s) k true) (upd (armed s) k false) (ub s).

(** working[k] != nullptr *)
Definition working (s : rstate) (k : nat) : bool :=
  negb (fin s k) &&
  match pc s with Starting j _ => k <? j | Waiting m => k <? m | _ => false end.

(** race.hpp:143-148, one element: the read is interrupted; its fork, if it is resumed
    by that, ends. *)
Definition interrupt_one (cf : cfg) (s : rstate) (k : nat) : rstate * list revent :=
  if working s k then
    let '(s1, ev) := on (chan cf k) (InterruptR k) s in
    (match answer k ev with Some r => complete k r s1 | None => s1 end, map (C (chan cf k)) ev)
  else (s, []).

(** race.hpp:138-140, one element. *)
Definition emit_one (cf : cfg) (s : rstate) (k : nat) : rstate * list revent :=
  if armed s k then
    let '(s1, ev) := on (chan cf k) (CancelR k) (set_armed k false s) in (s1, map (C (chan cf k)) ev)
  else (s, []).

(** race.hpp:333-335, one element: the cancellation is forwarded. *)
Definition forward_one (cf : cfg) (s : rstate) (k : nat) : rstate * list revent :=
  if armed s k then
    let '(s1, ev) := on (chan cf k) (CancelR k) s in (s1, map (C (chan cf k)) ev)
  else (s, []).

Fixpoint each (f : rstate -> nat -> rstate * list revent) (ks : list nat) (s : rstate) : rstate * list revent :=
  match ks with
  | [] => (s, [])
  | k :: t => let '(s1, e1) := f s k in let '(s2, e2) := each f t s1 in (s2, e1 ++ e2)
  end.

Definition others (cf : cfg) (m : nat) : list nat := filter (fun k => negb (Nat.eqb k m)) (seq 0 (n cf)).

(** race.hpp:135-141 cancel_all, called by the fork of member [m].  interrupt_await on
    its own operation does nothing that matters: the operation has a value (transaction)
    or is finished. *)
Definition cancel_all (cf : cfg) (m : nat) (s : rstate) : rstate * list revent :=
  let '(s1, e1) := each (interrupt_one cf) (others cf m) s in
  let '(s2, e2) := each (emit_one cf) (others cf m) s1 in
  (s2, e1 ++ e2).

(** race.hpp:218-275: the fork of member [k] continues with the result [r] and ends. *)
Definition finish (cf : cfg) (k : nat) (r : rresult V) (s : rstate) : rstate * list revent :=
  cancel_all cf k (complete k r s).

(** race.hpp:143-148 called from outside, one element: a fork that is resumed continues
    with the result. *)
Definition interrupt_fork (cf : cfg) (s : rstate) (k : nat) : rstate * list revent :=
  if working s k then
    let '(s1, ev) := on (chan cf k) (InterruptR k) s in
    match answer k ev with
    | Some r => let '(s2, e2) := finish cf k r s1 in (s2, map (C (chan cf k)) ev ++ e2)
    | None => (s1, map (C (chan cf k)) ev)
    end
  else (s, []).

(** fork.hpp:139-166 (the awaiting coroutine continues when the last fork has ended) and
    race.hpp:342-370 await_resume.  The operations are destroyed at the end of the full
    expression (channel.hpp:71, auto_unlink). *)
Definition settle (cf : cfg) (s : rstate) : rstate * list revent :=
  match pc s with
  | Waiting m =>
      if forallb (fin s) (seq 0 m) then
        let '(s1, e1) := each (fun s k => let '(s1, ev) := on (chan cf k) (DestroyR k) s in (s1, map (C (chan cf k)) ev))
                              (seq 0 m) s in
        match idx s, out s with
        | Some i, Some r => (set_pc Returned s1, e1 ++ [Win i r])
        | _, _ => (set_ub s1, e1)      (* *result on an empty optional, race.hpp:350 *)
        end
      else (s, [])
  | _ => (s, [])
  end.

Definition seq2 (p : rstate * list revent) (f : rstate -> rstate * list revent) : rstate * list revent :=
  let '(s1, e1) := p in let '(s2, e2) := f s1 in (s2, e1 ++ e2).

(** race.hpp:168-217, 244-275 and 296-323: the fork of member [k] is created.  If the
    read is ready it ends at once and no further member is started. *)
Definition start_one (cf : cfg) (k : nat) (s : rstate) : rstate * list revent :=
  let c := chan cf k in
  let '(s1, _) := on c (MkRead k) s in
  let met := negb (is_nil (wq (chs s1 c))) in
  let '(s2, ev) := on c (AwRead k true) s1 in
  match answer k ev with
  | Some r => seq2 (seq2 (set_pc (Waiting (S k)) s2, map (C c) ev) (finish cf k r)) (settle cf)
  | None => (set_pc (Starting (S k) met) (set_armed k true s2), map (C c) ev)
  end.

(** The label acts on the operation of a member: not a step of the rest of the program. *)
Definition own (cf : cfg) (l : label V) : bool :=
  match l with
  | MkRead i | AwRead i _ | CancelR i | InterruptR i | DestroyR i => i <? n cf
  | _ => false
  end.

(** impl/channel.hpp:219-256: co_await of write [j] on channel [x] hands its value to the
    read of a member, whose transaction function is then called. *)
Definition meets (cf : cfg) (x : state V) (j : nat) : option nat :=
  match w_stage (wops x j), rq x with
  | Made, m :: _ =>
      if negb (write_ready x || w_cancelled (wops x j)) && (m <? n cf) && r_handle (rops x m) then Some m else None
  | _, _ => None
  end.

(** race.hpp:196-203: the transaction function of member [m]. *)
Definition transact (cf : cfg) (m : nat) (s : rstate) : rstate * list revent :=
  cancel_all cf m (set_idx m (set_armed m false s)).

(** The executor resumes a member. *)
Definition resumed (cf : cfg) (x : state V) (k : nat) : option nat :=
  match nth_error (posted x) k with
  | Some (JR i) => if i <? n cf then Some i else None
  | _ => None
  end.

(** The member that a step of the rest of the program on a channel resumes. *)
Definition affects (cf : cfg) (x : state V) (l : label V) : option nat :=
  match l with
  | AwWrite j _ => meets cf x j
  | Run k => resumed cf x k
  | _ => None
  end.

Definition env_one (cf : cfg) (c : nat) (l : label V) (s : rstate) : rstate * list revent :=
  match affects cf (chs s c) l with
  | None => let '(s1, ev) := on c l s in (s1, map (C c) ev)
  | Some m =>
      let go (s : rstate) :=
        let '(s1, ev) := on c l s in
        match answer m ev with
        | Some r => seq2 (s1, map (C c) ev) (finish cf m r)
        | None => (s1, map (C c) ev)
        end in
      match l with
      | AwWrite j _ =>
          match idx s with
          | Some _ => (set_ub s, [TxThrow c j])   (* race.hpp:197-198 *)
          | None => seq2 (transact cf m s) go
          end
      | _ => go s
      end
  end.

(** The rest of the program cannot run while members are started, unless that resumed a
    writer; the executor cannot run any other job then. *)
Definition may_run (p : phase) (l : label V) : bool :=
  match p with
  | Starting _ ran => ran && match l with Run _ => false | _ => true end
  | _ => true
  end.

Definition rstep (cf : cfg) (s : rstate) (l : rlabel) : option (rstate * list revent) :=
  if ub s then None else
  match l with
  | Await => match pc s with Idle => Some (set_pc (Starting 0 false) s, []) | _ => None end
  | Next =>
      match pc s with
      | Starting k _ =>
          if k <? n cf then Some (start_one cf k s) else Some (settle cf (set_pc (Waiting (n cf)) s))
      | _ => None
      end
  | Env c l => if may_run (pc s) l && negb (own cf l) then Some (seq2 (env_one cf c l s) (settle cf)) else None
  | Cancel =>
      match pc s with Waiting m => Some (each (forward_one cf) (seq 0 m) s) | _ => None end
  | Interrupt =>
      match pc s with
      | Waiting m =>
          Some (seq2 (each (interrupt_fork cf) (seq 0 m) s) (settle cf))
      | _ => None
      end
  end.

Fixpoint rrun (cf : cfg) (s : rstate) (ls : list rlabel) : option (rstate * list revent) :=
  match ls with
  | [] => Some (s, [])
  | l :: t =>
      match rstep cf s l with
      | None => None
      | Some (s1, e1) => match rrun cf s1 t with None => None | Some (s2, e2) => Some (s2, e1 ++ e2) end
      end
  end.

End Rch.
Arguments rstate : clear implicits.
Arguments rlabel : clear implicits.
Arguments revent : clear implicits.
