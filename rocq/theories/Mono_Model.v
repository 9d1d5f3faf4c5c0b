(** * Model of the monotonic memory resource of the combinators
    /repo/include/boost/cobalt/detail/monotonic_resource.hpp lines 21-105
    (used by detail/fork.hpp:40 in the NO_PMR build).

    Addresses and sizes are integers; [size_t] arithmetic wraps modulo 2^64.
    The layout of block_ is that of an LP64 platform: five 8-byte members
    (lines 24-32), so sizeof(block_) = 40 and alignof(block_) = 8.
    [operator new] is the environment: it picks the address it returns.
    Simplification: the contents of a block header are kept beside the memory,
    so writing into a user block never changes them in the model; whether user
    blocks and headers overlap is a theorem (or its refutation), not an
    assumption. *)
From Coq Require Import ZArith List Bool Lia.
Import ListNotations.
Open Scope Z_scope.

Definition wrap (z : Z) : Z := z mod 2 ^ 64.
Definition sizeof_block : Z := 40.
Definition alignof_block : Z := 8.

(** monotonic_resource.hpp:24-32  struct block_, plus the address it is stored
    at ([loc]; the member buffer_ lives outside the memory handed out). *)
Record blk := mkblk { p : Z; avail : Z; bsz : Z; aligned : Z; loc : Z }.

(** lines 34-36: buffer_, the list of chunks reached through next (oldest
    first) and chunk_size_; head_ is the last chunk, or buffer_. *)
Record state := mk { base : blk; chunks : list blk; chunk_size : Z }.

(** lines 38-39  monotonic_resource(buffer, size): chunk_size_{buffer_.size} *)
Definition make (buf n : Z) : state := mk (mkblk buf n n 0 0) [] n.

(** lines 41-42  monotonic_resource(chunk_size) *)
Definition make_chunk (cs : Z) : state := mk (mkblk 0 0 0 0 0) [] cs.

Definition head (s : state) : blk := last (chunks s) (base s).

Definition set_head (s : state) (b : blk) : state :=
  match rev (chunks s) with
  | [] => mk b [] (chunk_size s)
  | _ :: r => mk (base s) (rev r ++ [b]) (chunk_size s)
  end.

(** What is asked of operator new / operator delete. *)
Record region := mkr { raddr : Z; rsize : Z; ralign : Z }.

(** lines 70-103  allocate(size, align_); [mem] is what operator new answers if
    it is called.  Result: the pointer and the region requested, if any. *)
Definition allocate (s : state) (size al mem : Z) : state * Z * option region :=
  let align := Z.max al alignof_block in
  let h := head s in
  (* lines 74-86 *)
  let align_offset := size mod align in
  let padding := align - align_offset in
  let needed_size := wrap (size + padding) in
  if needed_size <=? avail h then
    let offset := bsz h - avail h in
    (set_head s (mkblk (p h) (avail h - needed_size) (bsz h) (aligned h) (loc h)),
     p h + offset + padding, None)
  else
    (* lines 88-102 *)
    let mem_size := Z.max (chunk_size s) size in
    let offset := mem_size mod alignof_block in
    let padding := if offset =? 0 then 0 else alignof_block - offset in
    let raw_size := wrap (mem_size + padding) in
    let alloc_size := wrap (raw_size + sizeof_block) in
    let block_location := mem + mem_size + offset in
    (mk (base s) (chunks s ++ [mkblk mem (raw_size - size) raw_size align block_location]) (chunk_size s),
     mem, Some (mkr mem alloc_size align)).

(** lines 51-68  release(): every chunk goes to operator delete *)
Definition free_of (b : blk) : region := mkr (p b) (wrap (sizeof_block + bsz b)) (aligned b).

Definition release (s : state) : state * list region :=
  (mk (mkblk (p (base s)) (bsz (base s)) (bsz (base s)) (aligned (base s)) (loc (base s))) [] (chunk_size s),
   map free_of (chunks s)).

(** lines 46-50  the destructor *)
Definition destroy (s : state) : list region :=
  match chunks s with [] => [] | _ => snd (release s) end.

(** ** The resource and its user *)
Record block := mkb { baddr : Z; bsize : Z; balign : Z }.

Inductive label :=
| LAlloc (size al mem : Z)
| LRelease
| LDestroy.            (** the end of its life *)

Inductive event :=
| EAlloc (b : block) (n : option region)   (** the block, and what operator new gave *)
| EHeader (addr : Z)                       (** a block_ object is placed at addr *)
| EFree (rs : list region).                (** operator delete, in this order *)

Definition step (s : state) (l : label) : state * list event :=
  match l with
  | LAlloc size al mem =>
      let '(s', q, r) := allocate s size al mem in
      (s', EAlloc (mkb q size al) r ::
           match r with Some _ => [EHeader (loc (head s'))] | None => [] end)
  | LRelease => let '(s', rs) := release s in (s', [EFree rs])
  | LDestroy => (mk (base s) [] (chunk_size s), [EFree (destroy s)])
  end.

Fixpoint run (s : state) (ls : list label) : state * list event :=
  match ls with
  | [] => (s, [])
  | l :: r => let '(s', e) := step s l in
              let '(s'', tr) := run s' r in (s'', e ++ tr)
  end.
