(** * Specification vocabulary for the monotonic resource: read off the calls *)
From Coq Require Import ZArith List Bool Lia.
From Verif Require Import Mono_Model.
Import ListNotations.
Open Scope Z_scope.

(** Ranges of bytes. *)
Definition within (a n : Z) (x : Z) : Prop := a <= x < a + n.
Definition apart (a n b m : Z) : Prop := forall x, ~ (within a n x /\ within b m x).
Definition subrange (a n b m : Z) : Prop := forall x, within a n x -> within b m x.

(** What is alive after a trace: the user's blocks, the memory obtained from
    operator new, and the headers stored in it.  A release ends them all. *)
Record world := mkw { blocks : list block; regions : list region; headers : list Z }.
Definition w0 : world := mkw [] [] [].

Definition upd (w : world) (e : event) : world :=
  match e with
  | EAlloc b r => mkw (b :: blocks w)
                      (match r with Some r => regions w ++ [r] | None => regions w end) (headers w)
  | EHeader a => mkw (blocks w) (regions w) (a :: headers w)
  | EFree _ => w0
  end.

Definition after (w : world) (tr : list event) : world := fold_left upd tr w.

(** The user's blocks share no byte. *)
Definition blocks_disjoint (w : world) : Prop :=
  ForallOrdPairs (fun a b => apart (baddr a) (bsize a) (baddr b) (bsize b)) (blocks w).

(** Each block lies in the initial buffer or in one region from operator new. *)
Definition blocks_owned (buf n : Z) (w : world) : Prop :=
  Forall (fun b => subrange (baddr b) (bsize b) buf n \/
     Exists (fun r => subrange (baddr b) (bsize b) (raddr r) (rsize r)) (regions w)) (blocks w).

(** Each header lies in a region from operator new. *)
Definition headers_owned (w : world) : Prop :=
  Forall (fun a => Exists (fun r => subrange a sizeof_block (raddr r) (rsize r)) (regions w)) (headers w).

(** No block touches a header. *)
Definition headers_safe (w : world) : Prop :=
  Forall (fun b => Forall (fun a => apart (baddr b) (bsize b) a sizeof_block) (headers w)) (blocks w).

Definition blocks_aligned (w : world) : Prop :=
  Forall (fun b => (balign b | baddr b)) (blocks w).

(** operator new returns aligned memory that overlaps neither the initial
    buffer nor memory it has already given out. *)
Definition new_ok (buf n : Z) (w : world) (r : region) : Prop :=
  (ralign r | raddr r) /\ apart (raddr r) (rsize r) buf n /\
  Forall (fun q => apart (raddr r) (rsize r) (raddr q) (rsize q)) (regions w).

Definition event_ok (buf n : Z) (w : world) (e : event) : Prop :=
  match e with EAlloc _ (Some r) => new_ok buf n w r | _ => True end.

(** Everything obtained is given back exactly: same address, size, alignment,
    each once. *)
Definition frees_ok (w : world) (e : event) : Prop :=
  match e with EFree rs => rs = regions w | _ => True end.

Fixpoint everywhere (P : world -> event -> Prop) (w : world) (tr : list event) : Prop :=
  match tr with [] => True | e :: r => P w e /\ everywhere P (upd w e) r end.

(** The user asks for sane sizes: nothing is so big that adding the padding or
    the header wraps around. *)
Definition label_sane (cs : Z) (l : label) : Prop :=
  match l with
  | LAlloc size al _ =>
      0 <= size /\ 0 < al /\ Z.max cs size + Z.max al 8 + 64 < 2 ^ 64
  | _ => True
  end.

(** The resource is made from a buffer of [n] bytes at [buf] (and then takes
    chunks of that size), or from a chunk size only. *)
Definition started (s : state) (buf n cs : Z) : Prop :=
  (s = make buf n /\ cs = n) \/ (s = make_chunk cs /\ buf = 0 /\ n = 0).

(** Sizes for which the header ends up right behind the chunk's usable part. *)
Definition label_fits (cs : Z) (l : label) : Prop :=
  match l with
  | LAlloc size _ _ => Z.max cs size mod 8 = 0 \/ Z.max cs size mod 8 = 4
  | _ => True
  end.

(** All requests use one alignment [g] (at least alignof(block_)) and sizes
    that are multiples of it. *)
Definition label_uniform (g : Z) (l : label) : Prop :=
  match l with
  | LAlloc size al _ => Z.max al 8 = g /\ (al | g) /\ (g | size)
  | _ => True
  end.
