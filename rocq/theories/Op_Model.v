(** * Model of an awaited operation
    /repo/include/boost/cobalt/op.hpp lines 23-138 (op::awaitable_base) and
    /repo/include/boost/cobalt/detail/handler.hpp lines 28-76
    (completed_immediately_t, completion_handler_noop_executor) and 203-287
    (completion_handler).

    The initiation function (op::initiate, or an asio initiation) is arbitrary
    user code.  What it can do with the completion handler it was given is the
    program [prog].  The handler is move-only, so there is one of it.

    Simplifications: the arguments of the completion are one number; handlers
    are called on one thread; the small-buffer memory is modelled separately
    (Sbo_Model). *)
From Coq Require Import List Bool Arith Lia.
Import ListNotations.

(** handler.hpp:28-31 *)
Inductive ci_t := no | maybe | yes | initiating.

Definition args := nat.
Definition exn := nat.

Inductive prog :=
| Done                              (** return *)
| Throw (e : exn)
| Call (a : args) (k : prog)        (** the handler is invoked with a *)
| Imm (body k : prog)               (** body is executed on the handler's immediate executor *)
| Hand (k : prog)                   (** the handler is moved to something that outlives this function *)
| Drop (k : prog)                   (** the handler is destroyed without being invoked *)
| Try (body k : prog).              (** try { body } catch (...) {} *)

(** Where the handler is. *)
Inductive tok_t :=
| Stack       (** held by the initiation function *)
| Away        (** moved away, still to be invoked *)
| Used        (** invoked, or its coroutine handle released *)
| Dead.       (** destroyed *)

(** The coroutine awaiting the op. *)
Inductive co_t := Suspending | Suspended | Going | Destroyed.

Record state := mk
  { ci : ci_t;                 (** awaitable_base::completed_immediately, op.hpp:54 *)
    res : option args;         (** awaitable_base::result, op.hpp:33 *)
    init_ep : option exn;      (** awaitable_base::init_ep, op.hpp:55 *)
    tok : tok_t;
    co : co_t;
    onstack : bool;            (** await_suspend is on the stack *)
    jobs : list prog }.        (** functions posted to the executor *)

Inductive outcome := RArgs (a : args) | RExn (e : exn).

Inductive event :=
| ECalled (a : args)     (** the completion handler is invoked *)
| EReturned              (** the initiation function returns *)
| EThrew (e : exn)       (** an exception leaves the initiation function *)
| ESuspend               (** the coroutine is suspended: control goes to the resumer *)
| EContinue              (** the coroutine goes on without having been suspended *)
| EResume                (** the coroutine is resumed by the handler *)
| EResult (o : outcome)  (** what co_await gives *)
| EDestroyed             (** the coroutine frame is destroyed *)
| EEscaped (e : exn)     (** an exception leaves code run by the event loop *)
| EMisuse                (** the user broke the rules of asio, see [exec] *)
| EUb.                   (** undefined behaviour *)

(** op.hpp:87-112  await_resume, all three overloads: init_ep first, then the
    result; dereferencing an empty optional is undefined. *)
Definition await_resume (s : state) : list event :=
  match init_ep s with
  | Some e => [EResult (RExn e)]
  | None => match res s with
            | Some a => [EResult (RArgs a)]
            | None => [EUb]
            end
  end.

Definition set_ci (s : state) c := mk c (res s) (init_ep s) (tok s) (co s) (onstack s) (jobs s).
Definition set_tok (s : state) t := mk (ci s) (res s) (init_ep s) t (co s) (onstack s) (jobs s).
Definition set_co (s : state) c := mk (ci s) (res s) (init_ep s) (tok s) c (onstack s) (jobs s).
Definition set_res (s : state) r := mk (ci s) r (init_ep s) (tok s) (co s) (onstack s) (jobs s).
Definition set_ep (s : state) e := mk (ci s) (res s) e (tok s) (co s) (onstack s) (jobs s).
Definition set_stack (s : state) b := mk (ci s) (res s) (init_ep s) (tok s) (co s) b (jobs s).
Definition add_job (s : state) p := mk (ci s) (res s) (init_ep s) (tok s) (co s) (onstack s) (jobs s ++ [p]).

Definition alive (s : state) : bool := match tok s with Stack | Away => true | _ => false end.

(** The awaitable lives in the coroutine's frame until the co_await expression
    is over (or the frame is destroyed). *)
Definition gone (s : state) : bool := match co s with Going | Destroyed => true | _ => false end.

(** handler.hpp:252-268  completion_handler::operator() *)
Definition call (a : args) (s : state) : state * list event :=
  let s1 := set_tok (set_res s (Some a)) Used in
  match ci s with
  | maybe => (set_ci s1 yes, [ECalled a])
  | _ => (set_co s1 Going, ECalled a :: EResume :: await_resume s1)
  end.

(** unique_handle's destructor (unique_handle.hpp): the coroutine is destroyed *)
Definition destroy_coro (s : state) : state * list event :=
  (set_co (set_tok s Dead) Destroyed, [EDestroyed]).

(** Running a program.  [d] counts the enclosing functions run by the immediate
    executor; it is only used to tell misuse.  Misuse is: using the handler
    when it is gone; invoking it inside the initiation but not through the
    immediate executor; destroying it inside the initiation; using its
    immediate executor after the operation is over. *)
Fixpoint exec (d : nat) (p : prog) (s : state) : state * list event * option exn :=
  match p with
  | Done => (s, [], None)
  | Throw e => (s, [], Some e)
  | Call a k =>
      if alive s then
        let m := if onstack s && (d =? 0) then [EMisuse] else [] in
        let '(s1, es) := call a s in
        let '(s2, es', r) := exec d k s1 in (s2, m ++ es ++ es', r)
      else let '(s2, es', r) := exec d k s in (s2, EMisuse :: es', r)
  | Imm body k =>
      (* handler.hpp:38-58  completion_handler_noop_executor::execute *)
      if gone s then
        let '(s2, es', r) := exec d k s in
        (s2, (if onstack s then EUb else EMisuse) :: es', r)
      else
        match ci s with
        | initiating | maybe =>
            let '(s1, es, r) := exec (S d) body (set_ci s maybe) in
            match r with
            | Some e => (s1, es, Some e)
            | None =>
                let u := if gone s1 then [EUb] else [] in
                let s2 := match ci s1 with yes => s1 | _ => set_ci s1 initiating end in
                let '(s3, es', r') := exec d k s2 in (s3, es ++ u ++ es', r')
            end
        | _ => exec d k (add_job s body)   (* asio::post *)
        end
  | Hand k =>
      if alive s then exec d k (set_tok s Away)
      else let '(s2, es', r) := exec d k s in (s2, EMisuse :: es', r)
  | Drop k =>
      if alive s then
        let '(s1, es) := destroy_coro s in
        let m := if onstack s then [EMisuse] else [] in
        let '(s2, es', r) := exec d k s1 in (s2, m ++ es ++ es', r)
      else let '(s2, es', r) := exec d k s in (s2, EMisuse :: es', r)
  | Try body k =>
      let '(s1, es, _) := exec d body s in
      let '(s2, es', r) := exec d k s1 in (s2, es ++ es', r)
  end.

(** op.hpp:60-85  await_suspend after op_.initiate(...) has returned or thrown;
    handler.hpp:271-277 is the destructor of a handler still on the stack. *)
Definition finish_suspend (s : state) (r : option exn) : state * list event :=
  match r with
  | None =>
      let '(s1, es1) := match tok s with
                        | Stack => let '(s', es) := destroy_coro s in (s', EMisuse :: es)
                        | _ => (s, []) end in
      if gone s1 then (set_stack s1 false, EReturned :: es1 ++ [EUb])
      else
        let s2 := match ci s1 with initiating => set_ci s1 no | _ => s1 end in
        match ci s2 with
        | yes => let s3 := set_stack (set_co s2 Going) false in
                 (s3, EReturned :: es1 ++ EContinue :: await_resume s3)
        | _ => (set_stack (set_co s2 Suspended) false, EReturned :: es1 ++ [ESuspend])
        end
  | Some e =>
      let '(s1, es1) := match tok s with
                        | Stack => match ci s with
                                   | initiating => (set_tok s Used, [])   (* self.release() *)
                                   | _ => destroy_coro s
                                   end
                        | Away => (s, [EMisuse])  (* the handler was given away before the exception *)
                        | _ => (s, []) end in
      if gone s1 then (set_stack s1 false, EThrew e :: es1 ++ [EUb])
      else
        let s2 := set_stack (set_co (set_ep s1 (Some e)) Going) false in
        (s2, EThrew e :: es1 ++ EContinue :: await_resume s2)
  end.

(** op.hpp:48-52 await_ready and 60-85 await_suspend.  [rdy] is what op::ready
    put into the result, [p] is op::initiate. *)
Definition s0 : state := mk no None None Stack Suspending false [].

Definition await_op (rdy : option args) (p : prog) : state * list event :=
  match rdy with
  | Some a => (* there never is a handler *)
      let s := set_tok (set_co (set_res s0 (Some a)) Going) Used in (s, EContinue :: await_resume s)
  | None =>
      let s := set_stack (set_ci s0 initiating) true in
      let '(s1, es, r) := exec 0 p s in
      let '(s2, es2) := finish_suspend s1 r in (s2, es ++ es2)
  end.

(** ** After the initiation: the event loop runs the code that holds the
    handler, and posted functions. *)
Inductive label := LRun (p : prog) | LJob (i : nat).

Definition run_prog (p : prog) (s : state) : state * list event :=
  let '(s1, es, r) := exec 0 p s in
  (s1, es ++ match r with Some e => [EEscaped e] | None => [] end).

Definition step (s : state) (l : label) : state * list event :=
  match l with
  | LRun p => run_prog p s
  | LJob i => match nth_error (jobs s) i with
              | Some p => run_prog p (mk (ci s) (res s) (init_ep s) (tok s) (co s) (onstack s)
                                         (firstn i (jobs s) ++ skipn (S i) (jobs s)))
              | None => (s, [])
              end
  end.

Fixpoint run (s : state) (ls : list label) : state * list event :=
  match ls with
  | [] => (s, [])
  | l :: r => let '(s1, es) := step s l in
              let '(s2, es') := run s1 r in (s2, es ++ es')
  end.

Definition await_and_run (rdy : option args) (p : prog) (ls : list label) : list event :=
  let '(s, es) := await_op rdy p in es ++ snd (run s ls).
