(** * Model of the small-buffer memory resource
    /repo/include/boost/cobalt/detail/sbo_resource.hpp lines 16-164.

    Addresses and sizes are integers ([Z]); [size_t] arithmetic wraps modulo
    2^64 where the code computes with [std::size_t].  [A] is
    alignof(std::max_align_t), a parameter.  The upstream resource is the
    environment: it picks the address it returns.

    Simplification: pointers are plain integers (the object-provenance rules of
    C++ are not modelled).  The PMR and the NO_PMR builds differ only in what
    "upstream" is (a memory_resource, or operator new), see lines 100-104 and
    130-138; both are the environment here. *)
From Coq Require Import ZArith List Bool Lia.
Import ListNotations.
Open Scope Z_scope.

(** sbo_resource.hpp:22-28  struct block_ *)
Record state := mk
  { bp : Z;              (** p *)
    avail : Z;
    size : Z;
    fragmented : bool }.

(** std::size_t is 64 bit: arithmetic on it wraps. *)
Definition wrap (z : Z) : Z := z mod 2 ^ 64.

(** A call to the upstream resource (lines 101, 131). *)
Inductive up :=
| UpAlloc (sz al addr : Z)
| UpFree (addr sz al : Z).

(** sbo_resource.hpp:34-41  align_as_max_(size) *)
Definition align_up (A sz : Z) : Z :=
  let diff := sz mod A in
  if 0 <? diff then wrap (wrap (sz + A) - diff) else sz.

(** sbo_resource.hpp:42-62 and 65-75  the constructor with a buffer *)
Definition make (A buf n : Z) : state :=
  let diff := buf mod A in
  if 0 <? diff then
    let padding := A - diff in
    let p := buf + padding in
    if n <=? padding
    then mk p 0 0 false
    else mk p (n - padding) (n - padding) false
  else mk buf n n false.

(** sbo_resource.hpp:77-83  the constructor without a buffer *)
Definition make_null : state := mk 0 0 0 false.

(** sbo_resource.hpp:87-106  do_allocate.  [u] is the address upstream returns
    if it is asked. *)
Definition do_allocate (A : Z) (s : state) (sz al u : Z) : state * Z * list up :=
  let sz' := align_up A sz in
  if (sz' <=? avail s) && negb (fragmented s) then
    (mk (bp s) (wrap (avail s - sz')) (size s) (fragmented s),
     bp s + size s - avail s,
     [])
  else (s, u, [UpAlloc sz al u]).

(** sbo_resource.hpp:108-141  do_deallocate *)
Definition do_deallocate (A : Z) (s : state) (p sz al : Z) : state * list up :=
  let b := bp s in
  let e := b + size s in
  if (b <=? p) && (p <? e) then
    let sz' := align_up A sz in
    let used_mem_end := e - avail s in
    let dealloc_end := p + sz' in
    let f1 := if negb (used_mem_end =? dealloc_end) then true else fragmented s in
    let av := wrap (avail s + sz') in
    let f2 := if av =? size s then false else f1 in
    (mk b av (size s) f2, [])
  else (s, [UpFree p sz al]).

(** ** The resource and its user

    A block the user holds: the address it was given and the size and
    alignment it asked for. *)
Record block := mkb { baddr : Z; bsize : Z; balign : Z }.

Inductive label :=
| LAlloc (sz al u : Z)    (** allocate(sz, al); upstream would answer u *)
| LFree (b : block).      (** deallocate(addr, sz, al) *)

(** What can be seen from outside: the user's calls with their results and the
    calls made upstream. *)
Inductive event :=
| EAlloc (b : block) (ups : list up)
| EFree (b : block) (ups : list up).

Definition step (A : Z) (s : state) (l : label) : state * event :=
  match l with
  | LAlloc sz al u =>
      let '(s', p, ups) := do_allocate A s sz al u in
      (s', EAlloc (mkb p sz al) ups)
  | LFree b =>
      let '(s', ups) := do_deallocate A s (baddr b) (bsize b) (balign b) in
      (s', EFree b ups)
  end.

Fixpoint run (A : Z) (s : state) (ls : list label) : state * list event :=
  match ls with
  | [] => (s, [])
  | l :: r => let '(s', e) := step A s l in
              let '(s'', tr) := run A s' r in (s'', e :: tr)
  end.
