(** * Model of the allocation of coroutine frames
    /repo/include/boost/cobalt/this_coro.hpp lines 339-389 (promise_memory_resource_base:
    promise, task, generator, detached), 398-483 (allocate_coroutine, used by
    detail/wrapper.hpp 25-56), /repo/include/boost/cobalt/composition.hpp lines 95-126,
    /repo/include/boost/cobalt/detail/main.hpp lines 56-83.

    Memory is a map from addresses to bytes; a byte belongs to an object (a
    number that stands for it) and knows its place in it.  Pointers and
    size_t have 8 bytes.  [M] is sizeof(std::max_align_t).

    Simplifications: no overflow of sizes (frame sizes are constants of the
    program); a memory resource is a number; an allocator rebound to
    max_align_t has the size of the original one. *)
From Coq Require Import List Bool ZArith.
Import ListNotations.
Local Open Scope Z_scope.

Definition resource := Z.
Inductive obj :=
| OPtr (r : resource)               (** memory_resource* *)
| OPair (r : resource) (n : Z)      (** pair<memory_resource*, size_t> *)
| OAlloc (r : resource)             (** an allocator *)
| OSize (n : Z)                     (** size_t *)
| OOther (k : Z).                   (** something of the coroutine *)

Definition obj_eq (a b : obj) : bool :=
  match a, b with
  | OPtr r, OPtr s | OAlloc r, OAlloc s | OSize r, OSize s | OOther r, OOther s => r =? s
  | OPair r n, OPair s m => (r =? s) && (n =? m)
  | _, _ => false
  end.

Definition mem := Z -> option (obj * Z).

(** placement new *)
Definition store (m : mem) (a k : Z) (o : obj) : mem :=
  fun x => if (a <=? x) && (x <? a + k) then Some (o, x - a) else m x.
(** reading an object of k bytes; None: it is not there *)
Definition fetch (m : mem) (a k : Z) : option obj :=
  match m a with
  | Some (o, _) =>
      if forallb (fun i => match m (a + Z.of_nat i) with
                           | Some (o', j) => obj_eq o o' && (j =? Z.of_nat i)
                           | None => false
                           end) (seq 0 (Z.to_nat k))
      then Some o else None
  | None => None
  end.

Inductive variant :=
| Promise (sized : bool)                (** with/without __cpp_sized_deallocation *)
| Wrapper (sized : bool) (asize : Z)    (** asize: sizeof of the allocator *)
| Composition
| Main (sized : bool).

Section M.
Variable M : Z.

(** n / sizeof(max_align_t) + (n % sizeof(max_align_t) > 0 ? 1 : 0) *)
Definition units (n : Z) : Z := n / M + (if 0 <? n mod M then 1 else 0).

(** how many bytes are asked for *)
Definition request (v : variant) (size : Z) : Z :=
  match v with
  | Promise true => size + M                                   (* this_coro.hpp:344 *)
  | Promise false | Composition => size + units 16 * M         (* this_coro.hpp:368; composition.hpp:106 *)
  | Wrapper true a => (units a + units size) * M               (* this_coro.hpp:406-412 *)
  | Wrapper false a => (units a + units size + units 8) * M    (* this_coro.hpp:445-456 *)
  | Main true => size                                          (* detail/main.hpp:59 *)
  | Main false => size + Z.max 16 8                            (* detail/main.hpp:70-71 *)
  end.

(** operator new when resource r has given p: the memory and the frame's address *)
Definition place (v : variant) (r : resource) (p size : Z) (m : mem) : mem * Z :=
  match v with
  | Promise true => (store m p 8 (OPtr r), p + M)                                   (* this_coro.hpp:345-347 *)
  | Promise false | Composition => (store m p 16 (OPair r size), p + units 16 * M)  (* this_coro.hpp:369-370; composition.hpp:107-108 *)
  | Wrapper true a => (store m (p + units size * M) a (OAlloc r), p)                (* this_coro.hpp:413-414 *)
  | Wrapper false a =>                                                              (* this_coro.hpp:458-460 *)
      (store (store m p a (OAlloc r)) (p + units a * M) 8 (OSize (units size)), p + units a * M + units 8 * M)
  | Main true => (m, p)                                                             (* detail/main.hpp:57-60 *)
  | Main false => (m, p + Z.max 16 8)                                               (* detail/main.hpp:73 *)
  end.

(** operator delete for a frame: which resource gets which block back; [my] is
    main_promise::my_resource; None: it reads what it did not write *)
Definition release (v : variant) (my : resource) (raw size : Z) (m : mem) : option (resource * Z * Z) :=
  match v with
  | Promise true =>                                            (* this_coro.hpp:350-355 *)
      match fetch m (raw - M) 8 with
      | Some (OPtr r) => Some (r, raw - M, size + M)
      | _ => None
      end
  | Promise false | Composition =>                             (* this_coro.hpp:373-388; composition.hpp:111-126 *)
      match fetch m (raw - units 16 * M) 16 with
      | Some (OPair r n) => Some (r, raw - units 16 * M, n + units 16 * M)
      | _ => None
      end
  | Wrapper true a =>                                          (* this_coro.hpp:419-434 *)
      match fetch m (raw + units size * M) a with
      | Some (OAlloc r) => Some (r, raw, (units size + units a) * M)
      | _ => None
      end
  | Wrapper false a =>                                         (* this_coro.hpp:465-480 *)
      match fetch m (raw - units 8 * M) 8, fetch m (raw - units a * M - units 8 * M) a with
      | Some (OSize n), Some (OAlloc r) => Some (r, raw - units a * M - units 8 * M, (n + units a + units 8) * M)
      | _, _ => None
      end
  | Main true => Some (my, raw, size)                          (* detail/main.hpp:62-65 *)
  | Main false =>                                              (* detail/main.hpp:76-82 *)
      match fetch m (raw - Z.max 16 8) 8 with
      | Some (OSize n) => Some (my, raw, n)
      | _ => None
      end
  end.
End M.
