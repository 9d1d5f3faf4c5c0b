(** * Model of [cobalt::channel<T>] and [cobalt::channel<void>]

    Sources modelled (paths relative to /repo):
      include/boost/cobalt/channel.hpp       (read_op, write_op, channel<void>)
      include/boost/cobalt/impl/channel.hpp  (await_suspend/await_resume/close/cancel)
      src/channel.cpp                        (channel<void>)

    Conventions.
    - One [label] = one uninterrupted run of code on the channel's executor.
    - [asio::post]/[asio::defer] append to [posted]; label [Run k] lets the
      executor run the k-th pending job, so any scheduling order is covered
      (a FIFO executor only ever uses [Run 0]).
    - Symmetric transfer resumes the peer inside the same step.
    - Undefined behaviour and failed assertions set [bad]; afterwards every
      label is a no-op.
    - A label that the program could not issue (e.g. awaiting an operation that
      was never created) is a no-op.
    - Each operation object is awaited at most once (co_await c.read()).
    - [begin_transaction] (race) is not part of this file; see Race_*.v. *)
From Coq Require Import List Bool Arith Lia.
Import ListNotations.

Section Channel.
Context {V : Type}.

(** Life cycle of one operation object (ghost: C++ object lifetime). *)
Inductive stage := Absent | Made | Awaited | Finished | Destroyed.

(** channel.hpp:71-84 [read_op]: [cancelled], [direct], [cancel_slot] (only
    whether a handler is installed), [awaited_from] (only whether non-null).
    channel.hpp:237 for channel<void> ([direct] is then a bool = [Some]/[None]). *)
Record rop := mkR {
  r_stage : stage;
  r_cancelled : bool;
  r_direct : option V;
  r_slot : bool;
  r_handle : bool }.

(** channel.hpp:109-123 [write_op]; [w_val] is what [ref] points to. *)
Record wop := mkW {
  w_stage : stage;
  w_cancelled : bool;
  w_direct : bool;
  w_closed : bool;
  w_slot : bool;
  w_handle : bool;
  w_val : option V }.

(** Jobs given to the executor: the resumption of the coroutine that awaits
    read [i] / write [i]. *)
Inductive job := JR (i : nat) | JW (i : nat).

(** Reasons for undefined behaviour / failed assertions. *)
Inductive hazard :=
| EmptyRead    (* *direct on an empty optional, impl/channel.hpp:181; n_-- at 0, src/channel.cpp:66 *)
| Overflow     (* BOOST_ASSERT(!full()), impl/channel.hpp:298; n_ > limit_, src/channel.cpp:109 *)
| NullHandle   (* BOOST_ASSERT(op.awaited_from), resuming a null handle *)
| QueueAssert  (* BOOST_ASSERT(read_queue_.empty()) / (write_queue_.empty()) *)
| DoubleResume (* a job runs for an operation that is not suspended *).

(** channel.hpp:62-69 and 150-153; [is_void] distinguishes channel<void>
    (channel.hpp:209-321), whose counter [n_] is represented by the length of
    [buf]. *)
Record state := mkS {
  is_void : bool;
  limit : nat;
  closed : bool;
  buf : list V;
  rq : list nat;
  wq : list nat;
  rops : nat -> rop;
  wops : nat -> wop;
  posted : list job;
  bad : option hazard }.

(** Observable outcomes. *)
Inductive rresult := RVal (v : V) | RAborted | RBroken.
Inductive wresult := WOk | WAborted | WBroken.
Inductive event :=
| ERead (i : nat) (r : rresult)
| EWrite (i : nat) (v : V) (r : wresult).

Inductive label :=
| MkRead (i : nat)                (* c.read()  *)
| AwRead (i : nat) (slot : bool)  (* co_await it; [slot]: awaiting promise has a connected cancellation slot *)
| MkWrite (i : nat) (v : V)       (* c.write(v) *)
| AwWrite (i : nat) (slot : bool)
| CancelR (i : nat)               (* cancellation emitted to the awaiting coroutine *)
| CancelW (i : nat)
| InterruptR (i : nat)            (* interrupt_await, called by race/join *)
| InterruptW (i : nat)
| DestroyR (i : nat)              (* op object destroyed: auto_unlink *)
| DestroyW (i : nat)
| Close
| Run (k : nat).                  (* executor runs the k-th pending job *)

Definition upd {A} (f : nat -> A) (i : nat) (x : A) : nat -> A :=
  fun j => if Nat.eqb j i then x else f j.

Definition no_rop : rop := mkR Absent false None false false.
Definition no_wop : wop := mkW Absent false false false false false None.

(** impl/channel.hpp:18-31, channel.hpp:213-215: constructor. *)
Definition init (void : bool) (lim : nat) : state :=
  mkS void lim false [] [] [] (fun _ => no_rop) (fun _ => no_wop) [] None.

(** Field updates. *)
Definition set_closed s := mkS (is_void s) (limit s) true (buf s) (rq s) (wq s) (rops s) (wops s) (posted s) (bad s).
Definition set_buf b s := mkS (is_void s) (limit s) (closed s) b (rq s) (wq s) (rops s) (wops s) (posted s) (bad s).
Definition set_rq q s := mkS (is_void s) (limit s) (closed s) (buf s) q (wq s) (rops s) (wops s) (posted s) (bad s).
Definition set_wq q s := mkS (is_void s) (limit s) (closed s) (buf s) (rq s) q (rops s) (wops s) (posted s) (bad s).
Definition set_r i o s := mkS (is_void s) (limit s) (closed s) (buf s) (rq s) (wq s) (upd (rops s) i o) (wops s) (posted s) (bad s).
Definition set_w i o s := mkS (is_void s) (limit s) (closed s) (buf s) (rq s) (wq s) (rops s) (upd (wops s) i o) (posted s) (bad s).
Definition set_posted p s := mkS (is_void s) (limit s) (closed s) (buf s) (rq s) (wq s) (rops s) (wops s) p (bad s).
Definition post j s := set_posted (posted s ++ [j]) s.
Definition set_bad h s := mkS (is_void s) (limit s) (closed s) (buf s) (rq s) (wq s) (rops s) (wops s) (posted s) (Some h).

Definition is_nil {A} (l : list A) : bool := match l with [] => true | _ => false end.

(** circular_buffer::full() ([capacity() == size()], true for capacity 0);
    channel<void>: n_ >= limit_ (channel.hpp:303). *)
Definition full s := limit s <=? length (buf s).

(** channel.hpp:98 and 262: read_op::await_ready. *)
Definition read_ready s := negb (is_nil (buf s)) || closed s.
(** channel.hpp:143 and 303: write_op::await_ready. *)
Definition write_ready s := negb (full s) || closed s.

Definition unlink (i : nat) (q : list nat) := filter (fun j => negb (Nat.eqb j i)) q.

Definition r_set_handle b (o : rop) := mkR (r_stage o) (r_cancelled o) (r_direct o) (r_slot o) b.
Definition w_set_handle b (o : wop) := mkW (w_stage o) (w_cancelled o) (w_direct o) (w_closed o) (w_slot o) b (w_val o).

(** impl/channel.hpp:189-199 and src/channel.cpp:67-77: the read that just
    completed wakes the first waiting writer if it can make progress. *)
Definition wake_writer s :=
  match wq s with
  | [] => s
  | j :: q =>
      if negb (is_nil (rq s)) then set_bad QueueAssert s
      else if write_ready s then
        if w_handle (wops s j)
        then post (JW j) (set_w j (w_set_handle false (wops s j)) (set_wq q s))
        else set_bad NullHandle s
      else s
  end.

(** impl/channel.hpp:310-321 and src/channel.cpp:111-121: symmetric, for the
    first waiting reader. *)
Definition wake_reader s :=
  match rq s with
  | [] => s
  | i :: q =>
      if negb (is_nil (wq s)) then set_bad QueueAssert s
      else if read_ready s then
        if r_handle (rops s i)
        then post (JR i) (set_r i (r_set_handle false (rops s i)) (set_rq q s))
        else set_bad NullHandle s
      else s
  end.

(** The awaiting coroutine has been resumed: the operation is finished and its
    cancellation handler is removed (impl/channel.hpp:166-167, 281-282). *)
Definition r_finish (o : rop) := mkR Finished (r_cancelled o) (r_direct o) false (r_handle o).
Definition w_finish (o : wop) := mkW Finished (w_cancelled o) (w_direct o) (w_closed o) false (w_handle o) (w_val o).

Definition is_some {A} (o : option A) : bool := match o with Some _ => true | None => false end.

(** impl/channel.hpp:169 ([is_closed_ && buffer_.empty() && !direct]) and
    src/channel.cpp:53 ([is_closed_]). *)
Definition read_broken s (o : rop) :=
  closed s && (is_void s || (is_nil (buf s) && negb (is_some (r_direct o)))).

(** impl/channel.hpp:163-201 read_op::await_resume(as_result_tag);
    src/channel.cpp:48-79 for channel<void> (there a direct read leaves [n_]
    alone, which is what pop followed by push does to the length). *)
Definition read_resume s i : state * list event :=
  let o := rops s i in
  let s := set_r i (r_finish o) s in
  if read_broken s o then (s, [ERead i RBroken])
  else if r_cancelled o then (s, [ERead i RAborted])
  else match buf s, r_direct o with
       | [], None => (set_bad EmptyRead s, [])
       | [], Some d => (wake_writer s, [ERead i (RVal d)])
       | b :: bs, None => (wake_writer (set_buf bs s), [ERead i (RVal b)])
       | b :: bs, Some d => (wake_writer (set_buf (bs ++ [d]) s), [ERead i (RVal b)])
       end.

(** impl/channel.hpp:278-323 write_op::await_resume(as_result_tag);
    src/channel.cpp:92-123 for channel<void>. *)
Definition write_resume s j : state * list event :=
  let o := wops s j in
  let s := set_w j (w_finish o) s in
  match w_val o with
  | None => (s, [])   (* not an operation: never happens for created writes *)
  | Some v =>
      if w_closed o then (s, [EWrite j v WBroken])
      else if w_cancelled o then (s, [EWrite j v WAborted])
      else if w_direct o then (wake_reader s, [EWrite j v WOk])
      else if full s then (set_bad Overflow s, [])
      else (wake_reader (set_buf (buf s ++ [v]) s), [EWrite j v WOk])
  end.

(** impl/channel.hpp:96-142 read_op::await_suspend, preceded by await_ready;
    impl/channel.hpp:353-389 for channel<void>. *)
Definition read_await s i slot : state * list event :=
  let o := rops s i in
  if read_ready s || r_cancelled o then read_resume s i
  else
    let o1 := mkR Awaited false (r_direct o) slot true in
    match wq s with
    | [] => (set_rq (rq s ++ [i]) (set_r i o1 s), [])
    | j :: q =>
        let w := wops s j in
        let s1 := set_wq q
                   (set_w j (mkW (w_stage w) (w_cancelled w) true (w_closed w) (w_slot w) false (w_val w))
                     (set_r i (mkR Awaited false (w_val w) false false) s)) in
        if w_handle w then write_resume (post (JR i) s1) j
        else (set_bad NullHandle s1, [])
    end.

(** impl/channel.hpp:219-264 write_op::await_suspend, preceded by await_ready;
    impl/channel.hpp:392-426 for channel<void>. *)
Definition write_await s j slot : state * list event :=
  let o := wops s j in
  if write_ready s || w_cancelled o then write_resume s j
  else
    match rq s with
    | [] => (set_wq (wq s ++ [j])
              (set_w j (mkW Awaited false (w_direct o) (w_closed o) slot true (w_val o)) s), [])
    | i :: q =>
        let r := rops s i in
        let s1 := set_rq q
                   (set_r i (mkR (r_stage r) (r_cancelled r) (w_val o) (r_slot r) false)
                     (set_w j (mkW Awaited false true (w_closed o) false false (w_val o)) s)) in
        if r_handle r then read_resume (post (JW j) s1) i
        else (set_bad NullHandle s1, [])
    end.

(** impl/channel.hpp:79-94 (channel<void>: 325-337) read_op::cancel_impl. *)
Definition read_cancel s i : state :=
  let o := rops s i in
  if r_slot o then
    let s1 := set_rq (unlink i (rq s)) (set_r i (mkR (r_stage o) true (r_direct o) false false) s) in
    if r_handle o then post (JR i) s1 else s1
  else s.

(** impl/channel.hpp:203-217 (channel<void>: 339-351) write_op::cancel_impl. *)
Definition write_cancel s j : state :=
  let o := wops s j in
  if w_slot o then
    let s1 := set_wq (unlink j (wq s)) (set_w j (mkW (w_stage o) true (w_direct o) (w_closed o) false false (w_val o)) s) in
    if w_handle o then post (JW j) s1 else s1
  else s.

(** channel.hpp:87-95 (channel<void>: 249-257) read_op::interrupt_await.  Does
    not unlink the operation. *)
Definition read_interrupt s i : state * list event :=
  let o := rops s i in
  if is_some (r_direct o) then (s, [])
  else
    let s1 := set_r i (mkR (r_stage o) true (r_direct o) (r_slot o) false) s in
    if r_handle o then read_resume s1 i else (s1, []).

(** channel.hpp:132-140 (channel<void>: 290-298) write_op::interrupt_await. *)
Definition write_interrupt s j : state * list event :=
  let o := wops s j in
  if w_direct o then (s, [])
  else
    let s1 := set_w j (mkW (w_stage o) true (w_direct o) (w_closed o) (w_slot o) false (w_val o)) s in
    if w_handle o then write_resume s1 j else (s1, []).

(** impl/channel.hpp:56-65 / src/channel.cpp:27-35: one round of the loop. *)
Definition close_read s i : state :=
  let o := rops s i in
  let s1 := set_r i (mkR (r_stage o) true (r_direct o) false false) s in
  if r_handle o then post (JR i) s1 else s1.

(** impl/channel.hpp:66-75 / src/channel.cpp:36-45. *)
Definition close_write s j : state :=
  let o := wops s j in
  let s1 := set_w j (mkW (w_stage o) true (w_direct o) true false false (w_val o)) s in
  if w_handle o then post (JW j) s1 else s1.

(** impl/channel.hpp:52-76 channel<T>::close; src/channel.cpp:24-46. *)
Definition close s : state :=
  let s1 := set_rq [] (fold_left close_read (rq s) (set_closed s)) in
  set_wq [] (fold_left close_write (wq s) s1).

(** The executor runs one job: resumption of the stored handle. *)
Definition remove_nth {A} (k : nat) (l : list A) : list A := firstn k l ++ skipn (S k) l.

Definition is_awaited st := match st with Awaited => true | _ => false end.

Definition run_job s k : state * list event :=
  match nth_error (posted s) k with
  | None => (s, [])
  | Some jb =>
      let s1 := set_posted (remove_nth k (posted s)) s in
      match jb with
      | JR i => if is_awaited (r_stage (rops s i)) then read_resume s1 i
                else (set_bad DoubleResume s1, [])
      | JW j => if is_awaited (w_stage (wops s j)) then write_resume s1 j
                else (set_bad DoubleResume s1, [])
      end
  end.

(** One step.  Guards only exclude labels no program can issue. *)
Definition step_ok s (l : label) : state * list event :=
  match l with
  | MkRead i =>
      match r_stage (rops s i) with
      | Absent => (set_r i (mkR Made false None false false) s, [])
      | _ => (s, []) end
  | AwRead i slot =>
      match r_stage (rops s i) with Made => read_await s i slot | _ => (s, []) end
  | MkWrite j v =>
      (* channel.hpp:118 [closed = !chn->is_open()] *)
      match w_stage (wops s j) with
      | Absent => (set_w j (mkW Made false false (closed s) false false (Some v)) s, [])
      | _ => (s, []) end
  | AwWrite j slot =>
      match w_stage (wops s j) with Made => write_await s j slot | _ => (s, []) end
  | CancelR i => (read_cancel s i, [])
  | CancelW j => (write_cancel s j, [])
  | InterruptR i =>
      match r_stage (rops s i) with Made | Awaited => read_interrupt s i | _ => (s, []) end
  | InterruptW j =>
      match w_stage (wops s j) with Made | Awaited => write_interrupt s j | _ => (s, []) end
  | DestroyR i =>
      (* intrusive auto_unlink hook, channel.hpp:71 *)
      match r_stage (rops s i) with
      | Made | Finished =>
          (set_rq (unlink i (rq s)) (set_r i (mkR Destroyed (r_cancelled (rops s i)) (r_direct (rops s i)) false false) s), [])
      | _ => (s, []) end
  | DestroyW j =>
      match w_stage (wops s j) with
      | Made | Finished =>
          let o := wops s j in
          (set_wq (unlink j (wq s)) (set_w j (mkW Destroyed (w_cancelled o) (w_direct o) (w_closed o) false false (w_val o)) s), [])
      | _ => (s, []) end
  | Close => (close s, [])
  | Run k => run_job s k
  end.

Definition step s (l : label) : state * list event :=
  match bad s with Some _ => (s, []) | None => step_ok s l end.

Fixpoint run s (ls : list label) : state * list event :=
  match ls with
  | [] => (s, [])
  | l :: ls' =>
      let '(s1, e1) := step s l in
      let '(s2, e2) := run s1 ls' in
      (s2, e1 ++ e2)
  end.

End Channel.

Arguments state : clear implicits.
Arguments label : clear implicits.
Arguments event : clear implicits.
Arguments rop : clear implicits.
Arguments wop : clear implicits.
Arguments rresult : clear implicits.
