(** * Model of [cobalt::run] and the per-thread state

    Sources (paths relative to /repo): include/boost/cobalt/run.hpp, src/this_thread.cpp.

    Conventions.
    - One thread.  Execution contexts and memory resources are numbered and numbers
      are not reused.
    - What runs inside [ctx.run()] is a [body]: any sequence of changes to the
      thread's state, including nested calls of [run], and the way it ends.  How the
      task's outcome reaches the completion handler is the subject of Task_Model.v.
    - An access to a destroyed context is undefined behaviour: the result is [None]. *)
From Coq Require Import List Bool Arith.
Import ListNotations.

Section Run.
Context {V E : Type}.

(** How [ctx.run()] ends. *)
Inductive finish :=
| Value (v : V) | Exn (e : E)      (* the task ended and its completion handler was called *)
| Escaped (e : E)                  (* an exception of something else left ctx.run() *)
| Starved.                         (* no work is left and the handler was not called *)

(** What the caller of [run] gets. *)
Inductive answer := Returned (v : V) | Thrown (e : E) | BrokenPromise.

(** this_thread.cpp:24, 27: the two thread_local variables.  [svc]: contexts that have
    the this_thread_service; [alive]: contexts that exist; [mine]: those among them that belong to
    the program, the others are local variables of calls of [run]. *)
Record thread := mkT { resource : nat; exec : option nat; svc : list nat; alive : list nat; mine : list nat; next : nat }.

Inductive body :=
| BEnd (f : finish)
| BSetExec (k : nat) (b : body)        (* this_thread::set_executor *)
| BSetRes (r : nat) (b : body)         (* this_thread::set_default_resource *)
| BNew (b : body)                      (* the program creates an io_context *)
| BDestroy (k : nat) (b : body)        (* and destroys one *)
| BRun (inner : body) (b : body).      (* a nested call of run; its outcome is caught *)

Definition mem (k : nat) (l : list nat) : bool := existsb (Nat.eqb k) l.
Definition del (k : nat) (l : list nat) : list nat := filter (fun j => negb (j =? k)) l.

(** this_thread.cpp:78-82 *)
Definition set_executor (k : nat) (t : thread) : option thread :=
  if mem k (alive t) then Some (mkT (resource t) (Some k) (k :: svc t) (alive t) (mine t) (next t)) else None.
(** this_thread.cpp:36-41 *)
Definition set_default_resource (r : nat) (t : thread) : thread := mkT r (exec t) (svc t) (alive t) (mine t) (next t).
(** The constructor and the destructor of an execution context; the latter calls
    shutdown of its services (this_thread.cpp:70-75). *)
Definition new_context (t : thread) : thread * nat :=
  (mkT (resource t) (exec t) (svc t) (next t :: alive t) (mine t) (S (next t)), next t).
Definition destroy_context (k : nat) (t : thread) : thread :=
  let e := match exec t with
           | Some j => if (j =? k) && mem k (svc t) then None else Some j
           | None => None
           end in
  mkT (resource t) e (svc t) (del k (alive t)) (del k (mine t)) (next t).

Definition deliver (f : finish) : answer :=
  match f with Value v => Returned v | Exn e => Thrown e | Escaped e => Thrown e | Starved => BrokenPromise end.

(** [run] around the code [p] inside [ctx.run()]; the numbers in comments are lines
    of run.hpp.  [root_resource] takes a number, too.  The old resource is not null. *)
Definition enclose (p : thread -> option (thread * finish)) (t : thread) : option (thread * finish) :=
  let old_res := resource t in
  let t1 := mkT (next t) (exec t) (svc t) (alive t) (mine t) (S (next t)) in   (* 19, 28-29 *)
  let (t2, ctx) := new_context t1 in                                  (* 33 *)
  let old_exec := exec t2 in                                          (* 38-42 *)
  match set_executor ctx t2 with                                      (* 52 *)
  | None => None
  | Some t3 =>
      match p t3 with                                                 (* 53-54 *)
      | None => None
      | Some (t4, f) =>
          match match old_exec with                                   (* 44-48 *)
                | Some k => set_executor k t4
                | None => Some t4
                end with
          | None => None
          | Some t5 => Some (set_default_resource old_res (destroy_context ctx t5), f)   (* 55, 25 *)
          end
      end
  end.
Fixpoint perform (b : body) (t : thread) : option (thread * finish) :=
  match b with
  | BEnd f => Some (t, f)
  | BSetExec k b => match set_executor k t with Some t1 => perform b t1 | None => None end
  | BSetRes r b => perform b (set_default_resource r t)
  | BNew b => let (t1, k) := new_context t in perform b (mkT (resource t1) (exec t1) (svc t1) (alive t1) (k :: mine t1) (next t1))
  | BDestroy k b => if mem k (mine t) then perform b (destroy_context k t) else None
  | BRun inner b => match enclose (perform inner) t with Some (t1, _) => perform b t1 | None => None end
  end.

(** The whole function (15-57). *)
Definition run_task (b : body) (t : thread) : option (thread * answer) :=
  match enclose (perform b) t with Some (t1, f) => Some (t1, deliver f) | None => None end.
End Run.
Arguments body V E : clear implicits.
Arguments finish V E : clear implicits.
Arguments answer V E : clear implicits.
