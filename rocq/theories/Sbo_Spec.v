(** * Specification vocabulary for the small-buffer resource

    Everything is read off the calls and their results. *)
From Coq Require Import ZArith List Bool Lia.
From Verif Require Import Sbo_Model.
Import ListNotations.
Open Scope Z_scope.

(** The bytes of a block. *)
Definition contains (b : block) (x : Z) : Prop := baddr b <= x < baddr b + bsize b.

(** Two blocks share no byte. *)
Definition disjoint (a b : block) : Prop := forall x, ~ (contains a x /\ contains b x).

(** The block lies inside the [n] bytes at [buf]. *)
Definition inside (buf n : Z) (b : block) : Prop :=
  buf <= baddr b /\ baddr b + bsize b <= buf + n.

(** A live block together with where it came from: [true] means that the
    allocation asked upstream. *)
Definition origin := bool.

(** The live blocks after a trace (newest first): allocations not yet freed. *)
Fixpoint remove_block (b : block) (l : list (block * origin)) : list (block * origin) :=
  match l with
  | [] => []
  | (c, o) :: r =>
      if (baddr b =? baddr c) && (bsize b =? bsize c) && (balign b =? balign c)
      then r else (c, o) :: remove_block b r
  end.

Definition upd_live (l : list (block * origin)) (e : event) : list (block * origin) :=
  match e with
  | EAlloc b ups => (b, match ups with [] => false | _ => true end) :: l
  | EFree b _ => remove_block b l
  end.

Definition live (tr : list event) : list (block * origin) := fold_left upd_live tr [].

(** ** What is expected of the two sides

    The user frees only blocks that are alive, with the size and alignment they
    were allocated with.  Upstream returns memory outside the small buffer and
    disjoint from everything it has handed out and that is still alive. *)
Definition label_ok (buf n : Z) (lv : list (block * origin)) (l : label) : Prop :=
  match l with
  | LAlloc sz al u =>
      0 <= sz /\ 0 < al /\
      disjoint (mkb u sz al) (mkb buf n 1) /\
      Forall (fun bo => snd bo = true -> disjoint (mkb u sz al) (fst bo)) lv
  | LFree b => exists o, In (b, o) lv
  end.

Fixpoint labels_ok (A buf n : Z) (s : state) (lv : list (block * origin)) (ls : list label) : Prop :=
  match ls with
  | [] => True
  | l :: r => label_ok buf n lv l /\
              let '(s', e) := step A s l in labels_ok A buf n s' (upd_live lv e) r
  end.

(** A block is handed back to where it came from: an allocation that asked
    upstream is freed upstream, once, with the same size and alignment; one
    that did not ask upstream never reaches it. *)
Definition freed_right (lv : list (block * origin)) (e : event) : Prop :=
  match e with
  | EAlloc b ups => ups = [] \/ ups = [UpAlloc (bsize b) (balign b) (baddr b)]
  | EFree b ups =>
      (In (b, true) lv -> ups = [UpFree (baddr b) (bsize b) (balign b)]) /\
      (In (b, false) lv -> ups = [])
  end.

Definition allocs_in (tr : list event) : list block :=
  flat_map (fun e => match e with EAlloc b _ => [b] | _ => [] end) tr.

(** The property [P] of (live blocks before, event) holds at every event. *)
Fixpoint everywhere (P : list (block * origin) -> event -> Prop) (lv : list (block * origin))
  (tr : list event) : Prop :=
  match tr with
  | [] => True
  | e :: r => P lv e /\ everywhere P (upd_live lv e) r
  end.

(** At every moment the blocks alive are pairwise disjoint. *)
Definition all_disjoint (lv : list (block * origin)) : Prop :=
  ForallOrdPairs (fun a b => disjoint (fst a) (fst b)) lv.

(** Every block that is alive and not empty lies in the buffer or was obtained
    from upstream. *)
Definition all_owned (buf n : Z) (lv : list (block * origin)) : Prop :=
  Forall (fun bo => 0 < bsize (fst bo) -> snd bo = true \/ inside buf n (fst bo)) lv.
