(** Memory resources: which resource coroutine frames and results are allocated from, and when the
    resources are destroyed.

    Sources (paths below /repo):
      src/this_thread.cpp:24-46                       (the default resource of a thread)
      include/boost/cobalt/run.hpp:16-57              (run's own pool and context)
      src/thread.cpp:28-89, include/boost/cobalt/thread.hpp:104-116 (a thread's pool and context)
      include/boost/cobalt/detail/spawn.hpp:78-90     (how run's result is handed over)
      include/boost/cobalt/this_coro.hpp:333-395      (frames)
      include/boost/cobalt/detail/gather.hpp:391, detail/join.hpp:486-529, src/io/resolver.cpp:25,
      channel.hpp:44                                  (results and buffers)

    Simplifications: one block per object; a pool is a name with a life time (what pools do with
    their memory is C31-C33); run and a thread each make one pool and one context, and the model gives both the
    same number; co_main is like run, with the global resource above its pool; destroying an object
    runs no other code; building without memory resources (BOOST_COBALT_NO_PMR) is not modelled; neither is
    memory that an awaited thread asks the awaiting coroutine's allocator for. *)
From Coq Require Import List Bool Arith Lia.
Import ListNotations.

Definition upd {A} (f : nat -> A) (k : nat) (v : A) (i : nat) : A := if Nat.eqb i k then v else f i.

(** pmr::unsynchronized_pool_resource (run.hpp:20, src/thread.cpp:34): the resource above it and the thread that
    made it.  Resource 0 is the global one (pmr::get_default_resource()), which any thread may use. *)
Record rinfo := mkRes { r_up : nat; r_owner : option nat; r_live : bool }.
(** Something with memory from a resource: a coroutine frame (this_coro.hpp:341-355), a vector of results
    (detail/gather.hpp:391), a channel's buffer (channel.hpp:44).  [o_used]: the name has been used. *)
Record oinfo := mkObj { o_res : nat; o_live : bool; o_used : bool }.
(** run.hpp:20-33: one call of run on the stack of a thread: its pool, and the default resource it replaced. *)
Record scope := mkScope { s_res : nat; s_prev : nat }.
(** src/thread.cpp:28-73: where run_thread is. *)
Inductive phase :=
| Absent                   (* no such thread yet *)
| Plain                    (* a thread not made by the library *)
| Looping                  (* st->ctx.run() (line 57) *)
| Left                     (* it has returned or thrown *)
| Dropped                  (* st is destroyed (line 72) *)
| Ended.                   (* the pool is destroyed (line 73) *)

(** What the program can observe or depends on: resources and contexts (same numbers), objects, threads. *)
Record state := mk {
  res : nat -> rinfo; nres : nat;
  obj : nat -> oinfo;
  queued : nat -> list nat;    (* per context: what its pending operations own *)
  boot : nat -> option nat;    (* per context: the frame in a thread's first handler (src/thread.cpp:45-51) *)
  refs : nat -> nat;           (* per context: references that keep it alive *)
  def : nat -> nat;            (* src/this_thread.cpp:24 *)
  scopes : nat -> list scope;
  ph : nat -> phase;
  tres : nat -> nat;           (* src/thread.cpp:34; also the number of the context, detail/thread.hpp:47 *)
  held : nat -> bool;          (* the thread object (thread.hpp:75) or an await of it holds the context *)
  stopped : nat -> bool;       (* io_context::stop was called *)
  ub : bool;                   (* memory of a destroyed resource, or of a destroyed object, is touched *)
  foreign : bool }.            (* a pool is used by a thread that did not make it *)

(** Thread [t] allocates [o] from [r]; destroys [o]; uses [o]; resource [r] is destroyed. *)
Inductive event :=
| EAlloc (t o r : nat) | EFree (t o : nat) | EUse (t o : nat) | EGone (r : nat).

(** Why ctx.run() ends (src/thread.cpp:55-62). *)
Inductive why := Quiet | Stopped | Threw.

(** What a program does; cites are at [step]. *)
Inductive label :=
| RunEnter (t : nat)                (* run(..) is called *)
| RunLeave (t : nat)                (* run returns or throws *)
| Start (t t' o : nat)              (* a coroutine with return type thread is called; its frame is o *)
| Boot (t' : nat)                   (* the first handler: the coroutine starts *)
| Stop (t t' : nat)                 (* the destructor of a thread object *)
| DropObj (t t' : nat)              (* ... gives up its reference; also detach, the end of an await *)
| Leave (t' : nat) (w : why)
| DropIn (t' : nat)
| EndT (t' : nat)
| Alloc (t o : nat)                 (* with the default resource *)
| AllocAt (t o r : nat)             (* with a resource that is passed (allocator_arg) *)
| Hand (t o o' : nat)               (* a result that has an allocator is handed to who waits for run *)
| Queue (t o c : nat)               (* an operation of context c takes o (a suspended frame) *)
| Take (t o c : nat)                (* it completes: o runs on *)
| Free (t o : nat)
| Use (t o : nat).

(** A thread that can execute code. *)
Definition running (s : state) (t : nat) : bool := match ph s t with Plain | Looping => true | _ => false end.

(** Record updates. *)
Definition set_res f s := mk f (nres s) (obj s) (queued s) (boot s) (refs s) (def s) (scopes s) (ph s) (tres s) (held s) (stopped s) (ub s) (foreign s).
Definition set_obj f s := mk (res s) (nres s) f (queued s) (boot s) (refs s) (def s) (scopes s) (ph s) (tres s) (held s) (stopped s) (ub s) (foreign s).
Definition set_queued f s := mk (res s) (nres s) (obj s) f (boot s) (refs s) (def s) (scopes s) (ph s) (tres s) (held s) (stopped s) (ub s) (foreign s).
Definition set_boot f s := mk (res s) (nres s) (obj s) (queued s) f (refs s) (def s) (scopes s) (ph s) (tres s) (held s) (stopped s) (ub s) (foreign s).
Definition set_refs f s := mk (res s) (nres s) (obj s) (queued s) (boot s) f (def s) (scopes s) (ph s) (tres s) (held s) (stopped s) (ub s) (foreign s).
Definition set_ph t p s := mk (res s) (nres s) (obj s) (queued s) (boot s) (refs s) (def s) (scopes s) (upd (ph s) t p) (tres s) (held s) (stopped s) (ub s) (foreign s).
Definition set_scope (t d : nat) (l : list scope) s := mk (res s) (nres s) (obj s) (queued s) (boot s) (refs s) (upd (def s) t d) (upd (scopes s) t l) (ph s) (tres s) (held s) (stopped s) (ub s) (foreign s).
Definition set_held t b s := mk (res s) (nres s) (obj s) (queued s) (boot s) (refs s) (def s) (scopes s) (ph s) (tres s) (upd (held s) t b) (stopped s) (ub s) (foreign s).
Definition set_stopped t s := mk (res s) (nres s) (obj s) (queued s) (boot s) (refs s) (def s) (scopes s) (ph s) (tres s) (held s) (upd (stopped s) t true) (ub s) (foreign s).
Definition flag (u f : bool) s := mk (res s) (nres s) (obj s) (queued s) (boot s) (refs s) (def s) (scopes s) (ph s) (tres s) (held s) (stopped s) (ub s || u) (foreign s || f).

(** Resource [r] belongs to another thread than [t]: unsynchronized_pool_resource (run.hpp:20, src/thread.cpp:34) has no lock. *)
Definition strange (s : state) (t r : nat) : bool := match r_owner (res s r) with None => false | Some t' => negb (Nat.eqb t t') end.

(** memory_resource::allocate (this_coro.hpp:343-344).  A pool asks the resource above it when it runs out of memory. *)
Definition alloc (t o r : nat) (s : state) : state * list event :=
  let u := r_up (res s r) in
  (set_obj (upd (obj s) o (mkObj r true true))
     (flag (negb (r_live (res s r)) || negb (r_live (res s u))) (strange s t r || strange s t u) s), [EAlloc t o r]).

(** this_coro.hpp:350-355: an object's memory goes back to the resource it came from. *)
Definition free (t o : nat) (s : state) : state * list event :=
  let r := o_res (obj s o) in
  (set_obj (upd (obj s) o (mkObj r false true))
     (flag (negb (o_live (obj s o)) || negb (r_live (res s r))) (strange s t r) s), [EFree t o]).

(** Reading or writing the object; no call of its resource. *)
Definition use (t o : nat) (s : state) : state * list event :=
  (flag (negb (o_live (obj s o)) || negb (r_live (res s (o_res (obj s o))))) false s, [EUse t o]).

(** Several in a row. *)
Fixpoint frees (t : nat) (os : list nat) (s : state) : state * list event :=
  match os with
  | [] => (s, [])
  | o :: os' => let '(s1, e1) := free t o s in let '(s2, e2) := frees t os' s1 in (s2, e1 ++ e2)
  end.

(** io_context's destructor (run.hpp:55; detail/thread.hpp:47) destroys what its pending operations own. *)
Definition destroy_ctx (t c : nat) (s : state) : state * list event :=
  let '(s1, e) := frees t (queued s c) s in (set_queued (upd (queued s1) c []) s1, e).

(** One reference to a context goes (shared_ptr<thread_state>; for run the only one). *)
Definition drop_ref (t c : nat) (s : state) : state * list event :=
  let s1 := set_refs (upd (refs s) c (refs s c - 1)) s in
  if refs s1 c =? 0 then destroy_ctx t c s1 else (s1, []).

(** A pool's destructor gives everything back to the resource above (run.hpp:57, src/thread.cpp:73). *)
Definition destroy_res (t r : nat) (s : state) : state * list event :=
  let u := r_up (res s r) in
  (set_res (upd (res s) r (mkRes u (r_owner (res s r)) false)) (flag (negb (r_live (res s u))) (strange s t u) s), [EGone r]).

(** One after the other. *)
Definition seq2 (p : state * list event) (f : state -> state * list event) : state * list event :=
  let '(s1, e1) := p in let '(s2, e2) := f s1 in (s2, e1 ++ e2).

(** run.hpp:20-33: the pool with the thread's default resource above it, which it replaces; the context. *)
Definition run_enter (t : nat) (s : state) : state :=
  mk (upd (res s) (nres s) (mkRes (def s t) (Some t) true)) (S (nres s)) (obj s)
     (upd (queued s) (nres s) []) (upd (boot s) (nres s) None) (upd (refs s) (nres s) 1)
     (upd (def s) t (nres s)) (upd (scopes s) t (mkScope (nres s) (def s t) :: scopes s t))
     (ph s) (tres s) (held s) (stopped s) (ub s) (foreign s).

(** run.hpp:55-57: the context is destroyed, then (in reverse order of declaration) the default resource is
    restored and the pool destroyed. *)
Definition run_leave (t : nat) (x : scope) (l : list scope) (s : state) : state * list event :=
  seq2 (drop_ref t (s_res x) s) (fun s1 => destroy_res t (s_res x) (set_scope t (s_prev x) l s1)).

(** src/thread.cpp:76-89 and 34-51: the frame is from the global heap (detail/thread.hpp:54-60 has no operator new);
    the new thread makes its pool; it, the thread object and the first handler hold the context. *)
Definition start (t' o : nat) (s : state) : state :=
  mk (upd (res s) (nres s) (mkRes 0 (Some t') true)) (S (nres s)) (obj s)
     (upd (queued s) (nres s) []) (upd (boot s) (nres s) (Some o)) (upd (refs s) (nres s) 3)
     (upd (def s) t' (nres s)) (scopes s) (upd (ph s) t' Looping)
     (upd (tres s) t' (nres s)) (upd (held s) t' true) (upd (stopped s) t' false) (ub s) (foreign s).

(** Lists. *)
Definition is_nil {A} (l : list A) : bool := match l with [] => true | _ => false end.
Definition mem (o : nat) (l : list nat) : bool := existsb (Nat.eqb o) l.
Definition remove1 (o : nat) (l : list nat) : list nat := filter (fun x => negb (Nat.eqb x o)) l.
Definition is_some (o : nat) (x : option nat) : bool := match x with Some o' => Nat.eqb o o' | None => false end.
Definition is_none (x : option nat) : bool := match x with Some _ => false | None => true end.
(** Some pending operation owns [o]: unique_handle in completion_handler (detail/handler.hpp:279). *)
Definition is_queued (s : state) (o : nat) : bool := existsb (fun c => mem o (queued s c) || is_some o (boot s c)) (seq 0 (nres s)).

(** io_context::run (src/thread.cpp:57) returns when it is stopped or there is nothing left to wait for; it throws when
    a handler throws. *)
Definition may_leave (s : state) (t' : nat) (w : why) : bool :=
  match w with
  | Quiet => is_nil (queued s (tres s t')) && is_none (boot s (tres s t'))
  | Stopped => stopped s t'
  | Threw => is_none (boot s (tres s t'))
  end.

(** run.hpp:16-57 (RunEnter, RunLeave); src/thread.cpp:76-89 (Start), 45-51 (Boot), 55-62 (Leave), 72 (DropIn), 73 (EndT);
    thread.hpp:110 (Stop), 111 (DropObj); this_coro.hpp:341-355 (Alloc, AllocAt, Free; the resource is chosen in
    detail/this_thread.hpp:40-48); detail/spawn.hpp:84-87 (Hand: [T rr{}] uses the global resource, and assigning to it
    moves the elements, since the two allocators differ). *)
Definition step (s : state) (l : label) : option (state * list event) :=
  match l with
  | RunEnter t => if running s t then Some (run_enter t s, []) else None
  | RunLeave t => if running s t then match scopes s t with x :: l => Some (run_leave t x l s) | [] => None end else None
  | Start t t' o =>
      if running s t && negb (o_used (obj s o))
      then match ph s t' with Absent => Some (seq2 (alloc t o 0 s) (fun s1 => (start t' o s1, []))) | _ => None end else None
  | Boot t' =>
      match ph s t', boot s (tres s t') with
      | Looping, Some o => if stopped s t' then None else Some (drop_ref t' (tres s t') (set_boot (upd (boot s) (tres s t') None) s))
      | _, _ => None
      end
  | Stop t t' => if running s t && held s t' then Some (set_stopped t' s, []) else None
  | DropObj t t' => if running s t && held s t' then Some (drop_ref t (tres s t') (set_held t' false s)) else None
  | Leave t' w =>
      match ph s t' with
      | Looping => if is_nil (scopes s t') && may_leave s t' w then Some (set_ph t' Left s, []) else None
      | _ => None
      end
  | DropIn t' => match ph s t' with Left => Some (drop_ref t' (tres s t') (set_ph t' Dropped s)) | _ => None end
  | EndT t' => match ph s t' with Dropped => Some (destroy_res t' (tres s t') (set_ph t' Ended s)) | _ => None end
  | Alloc t o => if running s t && negb (o_used (obj s o)) then Some (alloc t o (def s t) s) else None
  | AllocAt t o r => if running s t && negb (o_used (obj s o)) && (r <? nres s) then Some (alloc t o r s) else None
  | Hand t o o' =>
      if running s t && negb (o_used (obj s o')) && o_used (obj s o) && negb (is_queued s o)
      then Some (seq2 (alloc t o' 0 s) (fun s1 => seq2 (use t o s1) (free t o))) else None
  | Queue t o c =>
      if running s t && o_live (obj s o) && negb (is_queued s o) && (0 <? c) && (c <? nres s) && negb (refs s c =? 0)
      then Some (set_queued (upd (queued s) c (o :: queued s c)) s, []) else None
  | Take t o c => if running s t && mem o (queued s c) then Some (set_queued (upd (queued s) c (remove1 o (queued s c))) s, []) else None
  | Free t o => if running s t && o_used (obj s o) && negb (is_queued s o) then Some (free t o s) else None
  | Use t o => if running s t && o_used (obj s o) then Some (use t o s) else None
  end.

(** A history. *)
Fixpoint run (s : state) (ls : list label) : option (state * list event) :=
  match ls with
  | [] => Some (s, [])
  | l :: ls' =>
      match step s l with
      | None => None
      | Some (s1, e1) => match run s1 ls' with None => None | Some (s2, e2) => Some (s2, e1 ++ e2) end
      end
  end.

(** src/this_thread.cpp:24: a program starts with one thread, which uses the global resource. *)
Definition init : state :=
  mk (fun _ => mkRes 0 None true) 1 (fun _ => mkObj 0 false false) (fun _ => []) (fun _ => None) (fun _ => 0) (fun _ => 0) (fun _ => [])
     (fun t => match t with 0 => Plain | _ => Absent end) (fun _ => 0) (fun _ => false) (fun _ => false) false false.
