(** * Model of the per-thread executor and memory resource

    Sources modelled (paths relative to /repo):
      src/this_thread.cpp                           (24-83)
      include/boost/cobalt/detail/this_thread.hpp   (27-60)
    Threads, execution contexts and memory resources are numbered; an executor is the number of
    its context; a context is never made twice under one number.  asio, after its documentation: use_service adds the service to a
    context that does not have it; the destructor of a context calls shutdown() of its services in
    the destroying thread.  Not modelled: exceptions from use_service (set_executor is noexcept). *)
From Coq Require Import List Bool Arith.
Import ListNotations.

Definition upd {A} (f : nat -> A) (i : nat) (a : A) : nat -> A := fun j => if Nat.eqb j i then a else f j.

Record tls := mkT {
  slot : nat -> option nat;      (* this_thread.cpp:27: detail::executor of each thread *)
  pool : nat -> nat;             (* 24: detail::default_coro_memory_resource of each thread *)
  served : nat -> bool;          (* the context has the this_thread_service (62-76, 81) *)
  made : nat -> bool;            (* the context has been made *)
  gone : nat -> bool }.          (* ... and destroyed *)
(** 24: initially pmr::get_default_resource(), the number 0. *)
Definition tinit : tls := mkT (fun _ => None) (fun _ => 0) (fun _ => false) (fun _ => false) (fun _ => false).

Inductive act :=
| Make (c : nat)
| Destroy (t c : nat)            (* thread t runs the destructor of c *)
| SetEx (t c : nat)              (* 78-82 *)
| GetEx (t : nat)                (* 54-60 *)
| HasEx (t : nat)                (* 49-52 *)
| SetRes (t m : nat)             (* 36-41 *)
| GetRes (t : nat).              (* 31-34 *)

Inductive res := Unit | Exec (c : nat) | BadExecutor | Bool (b : bool) | Res (m : nat).

(** A thread can only use an executor of a context that exists: [None] otherwise. *)
Definition tstep (s : tls) (a : act) : option (tls * res) :=
  match a with
  | Make c => if made s c then None
              else Some (mkT (slot s) (pool s) (served s) (upd (made s) c true) (gone s), Unit)
  | Destroy t c =>
      if made s c && negb (gone s c) then
        let sl :=                                             (* 70-75, if the service is there *)
          if served s c then
            match slot s t with
            | Some d => if Nat.eqb d c then upd (slot s) t None else slot s
            | None => slot s
            end
          else slot s in
        Some (mkT sl (pool s) (served s) (made s) (upd (gone s) c true), Unit)
      else None
  | SetEx t c =>
      if made s c && negb (gone s c) then
        Some (mkT (upd (slot s) t (Some c)) (pool s) (upd (served s) c true) (made s) (gone s), Unit)
      else None
  | GetEx t => Some (s, match slot s t with Some c => Exec c | None => BadExecutor end)
  | HasEx t => Some (s, Bool (match slot s t with Some _ => true | None => false end))
  | SetRes t m => Some (mkT (slot s) (upd (pool s) t m) (served s) (made s) (gone s), Res (pool s t))
  | GetRes t => Some (s, Res (pool s t))
  end.

Fixpoint trun (s : tls) (l : list act) : option (tls * list res) :=
  match l with
  | [] => Some (s, [])
  | a :: t =>
      match tstep s a with
      | None => None
      | Some (s1, r) => match trun s1 t with None => None | Some (s2, rs) => Some (s2, r :: rs) end
      end
  end.

(** The arguments of a coroutine: the tags asio::executor_arg and std::allocator_arg, an executor, an
    allocator with its resource, anything else.  (References and const are decayed: 30, 43, 54.) *)
Inductive arg := ExecutorArg | AllocatorArg | AnExecutor (c : nat) | AnAllocator (m : nat) | Other (n : nat).

(** mp11::mp_find: the position of the first argument that is the tag, or their number. *)
Fixpoint mp_find (p : arg -> bool) (l : list arg) : nat :=
  match l with [] => 0 | a :: t => if p a then 0 else S (mp_find p t) end.

Inductive pick := ThreadDefault | GlobalDefault | Given (n : nat) | IllFormed.

(** detail/this_thread.hpp:27-36.  Something else than an executor behind the tag does not compile. *)
Definition executor_from_args (l : list arg) : pick :=
  let i := mp_find (fun a => match a with ExecutorArg => true | _ => false end) l in
  if Nat.eqb (length l) i then ThreadDefault
  else match nth_error l (i + 1) with Some (AnExecutor c) => Given c | _ => IllFormed end.

(** detail/this_thread.hpp:39-48. *)
Definition resource_from_args (l : list arg) : pick :=
  let i := mp_find (fun a => match a with AllocatorArg => true | _ => false end) l in
  if Nat.eqb (length l) i then ThreadDefault
  else match nth_error l (i + 1) with Some (AnAllocator m) => Given m | _ => IllFormed end.

(** detail/this_thread.hpp:50-59. *)
Definition resource_from_args_global (l : list arg) : pick :=
  let i := mp_find (fun a => match a with AllocatorArg => true | _ => false end) l in
  if Nat.eqb (length l) i then GlobalDefault
  else match nth_error l (i + 1) with Some (AnAllocator m) => Given m | _ => IllFormed end.
