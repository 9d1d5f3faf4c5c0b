(** * What a random access is *)
From Coq Require Import List Bool Arith ZArith.
From Verif Require Import File_Model.
Import ListNotations.
Local Open Scope Z_scope.

(** byte i of a file, if it has one *)
Definition byte_at (d : list Z) (i : nat) : option Z := nth_error d i.

(** [r] is what there is at [off] : as many bytes as asked for, or up to the end *)
Definition read_from (d : list Z) (off : nat) (n : nat) (r : list Z) : Prop :=
  length r = Nat.min n (length d - off) /\
  forall i, (i < length r)%nat -> byte_at r i = byte_at d (off + i).

(** [d'] is [d] with [bs] at [off]; all other bytes stay, a gap is filled with 0 *)
Definition written_to (d : list Z) (off : nat) (bs d' : list Z) : Prop :=
  (bs = [] -> d' = d) /\
  (bs <> [] -> length d' = Nat.max (length d) (off + length bs)) /\
  forall i, byte_at d' i =
    if (Nat.leb off i && Nat.ltb i (off + length bs))%bool then byte_at bs (i - off)
    else if Nat.ltb i (length d) then byte_at d i
    else if (Nat.ltb i off && negb (Nat.eqb (length bs) 0))%bool then Some 0 else None.
