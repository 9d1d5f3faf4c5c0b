(** * Model of [gather] and [join] over channel operations:
      [co_await gather(c1.read(), c2.write(v), ...)] and [co_await join(c1.read(), c2.write(v), ...)]

    Sources modelled (paths relative to /repo/include/boost/cobalt):
      detail/gather.hpp (variadic gather: 38-218)
      detail/join.hpp   (variadic join: 37-280, await_resume without tag)
      detail/fork.hpp   (139-166: the last fork that ends resumes the awaiting coroutine)
      channel.hpp, impl/channel.hpp, src/channel.cpp through Channel_Model.v

    Conventions.
    - Channels are numbered; member [k] reads from or writes to channel [chan k] (several members
      may use one channel, and members may meet each other there).  The configuration, the
      results and the labels of a member's operation are those of Sel_Model.v.
    - Everything that happens to one channel is a step of Channel_Model.  The operation of
      member [k] is read [k] or write [k] of its channel; the rest of the program uses
      operation numbers from [n] on.
    - [Env c l] is a step of the rest of the program or of the executor on channel [c].
    - A fork runs from the end of its operation to its own end without interruption
      (gather.hpp:109-131, join.hpp:133-160), so it is part of the step in which the operation
      completes.  The forks set no transaction function, so begin_transaction does nothing
      (fork.hpp:245-249).
    - When the last fork ends inside interrupt_await of the combinator, the awaiting coroutine is
      resumed before the loop over the remaining members is over; here it continues after the
      loop, which does nothing any more to operations that have ended.
    - A combinator without tag: the result of join under as_result and as_tuple is the same data.
    - [ub] means undefined behaviour or a failed assertion; executions are not followed
      beyond it. *)
From Coq Require Import List Bool Arith.
From Verif Require Import Channel_Model Sel_Model.
Import ListNotations.

Section Gch.
Context {V : Type}.

(** Which of the two combinators. *)
Inductive kind := Gather | Join.

(** Where the coroutine is that awaits the combinator. *)
Inductive gphase :=
| GIdle
| GCreated                  (* gather(...) was called: the operations exist, nothing is awaited *)
| GStarting (k : nat) (ran : bool)
                            (* gather.hpp:144-170, join.hpp:173-199: members below k are started; ran:
                               starting the last one resumed another coroutine, which is running *)
| GWaiting                  (* gather.hpp:172-186, join.hpp:204-218 *)
| GReturned.

Record gstate := mkG {
  gchs : nat -> state V;
  gpc : gphase;
  gout : nat -> option (result V); (* the fork has ended; gather.hpp:70 result, join.hpp:73 result *)
  gerr : option (result V);        (* join.hpp:74 error *)
  garmed : nat -> bool;            (* join.hpp:64 cancel[k] != nullptr *)
  gub : bool }.

(** How the await ends: with all results in the order of the arguments, or with an exception. *)
Inductive gend := All (rs : list (result V)) | Threw (r : result V).

Inductive gevent :=
| GC (c : nat) (e : event V)       (* a channel operation completes *)
| Ends (x : gend).                 (* co_await gather(...) / join(...) ends *)

Inductive glabel :=
| GCreate                          (* gather(c1.read(), ...) *)
| GAwait                           (* co_await it: await_ready is called *)
| GNext                            (* the next member is started *)
| GEnv (c : nat) (l : label V)
| GCancel                          (* the awaiting coroutine is cancelled *)
| GInterrupt.                      (* interrupt_await on the combinator *)

Definition ginit (cf : cfg V) : gstate :=
  mkG (fun c => init (isvoid cf c) (lim cf c)) GIdle (fun _ => None) None (fun _ => false) false.

(** Field updates. *)
Definition gset_pc p s := mkG (gchs s) p (gout s) (gerr s) (garmed s) (gub s).
Definition gset_armed k b s := mkG (gchs s) (gpc s) (gout s) (gerr s) (upd (garmed s) k b) (gub s).
Definition gset_out k r s := mkG (gchs s) (gpc s) (upd (gout s) k (Some r)) (gerr s) (garmed s) (gub s).
Definition gset_ub s := mkG (gchs s) (gpc s) (gout s) (gerr s) (garmed s) true.
(** join.hpp:157-158 *)
Definition gset_err r s := mkG (gchs s) (gpc s) (gout s) (match gerr s with None => Some r | e => e end) (garmed s) (gub s).

(** A step of channel [c]. *)
Definition gon (c : nat) (l : label V) (s : gstate) : gstate * list (event V) :=
  let '(x, ev) := step (gchs s c) l in
  (mkG (upd (gchs s) c x) (gpc s) (gout s) (gerr s) (garmed s) (gub s || is_some (bad x)), ev).

(** The member whose operation completes with event [e] on channel [c], and its result. *)
Definition member (cf : cfg V) (c : nat) (e : event V) : option (nat * result V) :=
  match e with
  | ERead k r => if (k <? n cf) && negb (isw cf k) && Nat.eqb (chan cf k) c then Some (k, Got r) else None
  | EWrite k _ r => if (k <? n cf) && isw cf k && Nat.eqb (chan cf k) c then Some (k, Put r) else None
  end.

Fixpoint geach (f : gstate -> nat -> gstate * list gevent) (ks : list nat) (s : gstate) : gstate * list gevent :=
  match ks with
  | [] => (s, [])
  | k :: t => let '(s1, e1) := f s k in let '(s2, e2) := geach f t s1 in (s2, e1 ++ e2)
  end.

(** Emission of a cancellation to the operation of member [k] (it completes nothing at once). *)
Definition emit (cf : cfg V) (s : gstate) (k : nat) : gstate * list gevent :=
  let '(s1, ev) := gon (chan cf k) (cancelling cf k) s in (s1, map (GC (chan cf k)) ev).

(** join.hpp:76-82 cancel_step. *)
Definition cancel_step (cf : cfg V) (s : gstate) (k : nat) : gstate * list gevent :=
  if garmed s k then emit cf (gset_armed k false s) k else (s, []).

(** join.hpp:84-91 cancel_all. *)
Definition jcancel_all (cf : cfg V) (s : gstate) : gstate * list gevent := geach (cancel_step cf) (seq 0 (n cf)) s.

(** The operation of member [k] has completed with [r]: gather.hpp:109-131 stores the result or the
    exception; join.hpp:133-153 stores the value, 155-160 the first exception and cancels the
    other members. *)
Definition fork_ends (cf : cfg V) (kd : kind) (k : nat) (r : result V) (s : gstate) : gstate * list gevent :=
  match kd with
  | Gather => (gset_out k r s, [])
  | Join => if ok r then (gset_out k r s, []) else jcancel_all cf (gset_err r (gset_out k r s))
  end.

Fixpoint absorb (cf : cfg V) (kd : kind) (c : nat) (ev : list (event V)) (s : gstate) : gstate * list gevent :=
  match ev with
  | [] => (s, [])
  | e :: t =>
      let '(s1, e1) := match member cf c e with Some (k, r) => fork_ends cf kd k r s | None => (s, []) end in
      let '(s2, e2) := absorb cf kd c t s1 in (s2, e1 ++ e2)
  end.

(** A step of channel [c] with everything that the forks resumed by it do. *)
Definition on_ch (cf : cfg V) (kd : kind) (c : nat) (l : label V) (s : gstate) : gstate * list gevent :=
  let '(s1, ev) := gon c l s in
  let '(s2, e2) := absorb cf kd c ev s1 in (s2, map (GC c) ev ++ e2).

(** The call gather(...): the operation of member [k] is created (channel.hpp:156-186: a write refers to its argument, which must live on; a write
    remembers whether the channel is closed, channel.hpp:118). *)
Definition make_one (cf : cfg V) (s : gstate) (k : nat) : gstate * list gevent :=
  let '(s1, ev) := gon (chan cf k) (making cf k) s in (s1, map (GC (chan cf k)) ev).

(** channel.hpp:99, 143 (channel<void>: 262, 303) await_ready of the operation of member [k]. *)
Definition op_ready (cf : cfg V) (k : nat) (s : gstate) : bool :=
  let x := gchs s (chan cf k) in if isw cf k then write_ready x else read_ready x.

(** Starting a member resumed a coroutine that is not one of the forks. *)
Definition woke (cf : cfg V) (es : list gevent) : bool :=
  existsb (fun e => match e with GC c e => negb (is_some (member cf c e)) | Ends _ => false end) es.

(** gather.hpp:94-127, join.hpp:117-153: the fork of member [k] is created.  If the operation is not ready
    its cancellation signal is connected (gather.hpp:104; join.hpp:127-128 sets cancel[k]) and it is
    awaited. *)
Definition start_one (cf : cfg V) (kd : kind) (k : nat) (s : gstate) : gstate * list gevent :=
  let s0 := if op_ready cf k s then s else gset_armed k true s in
  let '(s1, e1) := on_ch cf kd (chan cf k) (awaiting cf k) s0 in
  (gset_pc (GStarting (S k) (woke cf e1)) s1, e1).

(** The results in the order of the arguments, if all forks have ended. *)
Fixpoint results (out : nat -> option (result V)) (ks : list nat) : option (list (result V)) :=
  match ks with
  | [] => Some []
  | k :: t => match out k, results out t with Some r, Some rs => Some (r :: rs) | _, _ => None end
  end.

(** gather.hpp:192-212, join.hpp:221-234 await_resume.  For join the optionals are checked
    (join.hpp:231): a member that failed has no value. *)
Definition outcome (kd : kind) (s : gstate) (rs : list (result V)) : option gend :=
  match kd with
  | Gather => Some (All rs)
  | Join => match gerr s with
            | Some r => Some (Threw r)
            | None => if forallb ok rs then Some (All rs) else None
            end
  end.

(** channel.hpp:71: the operations are destroyed at the end of the full expression. *)
Definition destroy_one (cf : cfg V) (s : gstate) (k : nat) : gstate * list gevent :=
  let '(s1, ev) := gon (chan cf k) (destroying cf k) s in (s1, map (GC (chan cf k)) ev).

(** fork.hpp:139-166 (the awaiting coroutine continues when the last fork has ended; 172-173 and 204-205: it
    is not suspended if all have ended) and await_resume. *)
Definition gsettle (cf : cfg V) (kd : kind) (s : gstate) : gstate * list gevent :=
  match gpc s with
  | GWaiting =>
      match results (gout s) (seq 0 (n cf)) with
      | None => (s, [])
      | Some rs =>
          let '(s1, e1) := geach (destroy_one cf) (seq 0 (n cf)) s in
          match outcome kd s rs with
          | Some x => (gset_pc GReturned s1, e1 ++ [Ends x])
          | None => (gset_ub s1, e1)
          end
      end
  | _ => (s, [])
  end.

Definition gseq (p : gstate * list gevent) (f : gstate -> gstate * list gevent) : gstate * list gevent :=
  let '(s1, e1) := p in let '(s2, e2) := f s1 in (s2, e1 ++ e2).

(** join.hpp:201-202 after the last member has been started. *)
Definition after_start (cf : cfg V) (kd : kind) (s : gstate) : gstate * list gevent :=
  match kd, gerr s with
  | Join, Some _ => jcancel_all cf s
  | _, _ => (s, [])
  end.

(** gather.hpp:176-182 (every signal), join.hpp:208-215 (the signals of members that were not ready,
    as far as they have not been used). *)
Definition forward_one (cf : cfg V) (kd : kind) (s : gstate) (k : nat) : gstate * list gevent :=
  match kd with
  | Gather => emit cf s k
  | Join => if garmed s k then emit cf s k else (s, [])
  end.

(** gather.hpp:73-84, join.hpp:95-106 interrupt_await_step. *)
Definition interrupt_step (cf : cfg V) (kd : kind) (s : gstate) (k : nat) : gstate * list gevent :=
  match kd with
  | Gather => on_ch cf kd (chan cf k) (interrupting cf k) s
  | Join => if garmed s k then on_ch cf kd (chan cf k) (interrupting cf k) s else (s, [])
  end.

(** The rest of the program cannot run while members are started, unless that resumed
    another coroutine; the executor cannot run any other job then. *)
Definition gmay_run (p : gphase) (l : label V) : bool :=
  match p with
  | GStarting _ ran => ran && match l with Run _ => false | _ => true end
  | _ => true
  end.

Definition gstep (cf : cfg V) (kd : kind) (s : gstate) (l : glabel) : option (gstate * list gevent) :=
  if gub s then None else
  match l with
  | GCreate => match gpc s with GIdle => Some (gseq (geach (make_one cf) (seq 0 (n cf)) s) (fun s => (gset_pc GCreated s, []))) | _ => None end
  | GAwait => match gpc s with GCreated => Some (gset_pc (GStarting 0 false) s, []) | _ => None end
  | GNext =>
      match gpc s with
      | GStarting k _ =>
          if k <? n cf then Some (start_one cf kd k s)
          else Some (gseq (gseq (after_start cf kd s) (fun s => (gset_pc GWaiting s, []))) (gsettle cf kd))
      | _ => None
      end
  | GEnv c l => if gmay_run (gpc s) l && negb (own cf l) then Some (gseq (on_ch cf kd c l s) (gsettle cf kd)) else None
  | GCancel => match gpc s with GWaiting => Some (geach (forward_one cf kd) (seq 0 (n cf)) s) | _ => None end
  | GInterrupt =>
      match gpc s with
      | GWaiting => Some (gseq (geach (interrupt_step cf kd) (seq 0 (n cf)) s) (gsettle cf kd))
      | _ => None
      end
  end.

Fixpoint grun (cf : cfg V) (kd : kind) (s : gstate) (ls : list glabel) : option (gstate * list gevent) :=
  match ls with
  | [] => Some (s, [])
  | l :: t =>
      match gstep cf kd s l with
      | None => None
      | Some (s1, e1) => match grun cf kd s1 t with None => None | Some (s2, e2) => Some (s2, e1 ++ e2) end
      end
  end.

End Gch.
Arguments gstate : clear implicits.
Arguments glabel : clear implicits.
Arguments gevent : clear implicits.
Arguments gend : clear implicits.
