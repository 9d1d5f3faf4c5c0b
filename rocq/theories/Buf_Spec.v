(** * What a buffer sequence denotes *)
From Coq Require Import List Bool Arith ZArith.
From Verif Require Import Buf_Model.
Import ListNotations.

(** the addresses of the bytes of a buffer, and of a sequence, in order *)
Definition addresses (b : buffer) : list Z := map (fun i => data b + Z.of_nat i)%Z (seq 0 (size b)).
Definition bytes (s : bseq) : list Z := flat_map addresses (head s :: tail s).

(** the buffers, in order *)
Definition buffers (s : bseq) : list buffer := head s :: tail s.

(** it fits in memory *)
Definition sane (s : bseq) : Prop := (Z.of_nat (length (tail s)) < 2 ^ 62)%Z.

(** the number of bytes transferred by some answers *)
Definition sum (l : list nat) : nat := fold_right Nat.add 0 l.
Definition counts (ts : list turn) : list nat := map (fun t => snd (reply t)) ts.

(** the number of bytes transferred by the first i attempts *)
Definition prefix_sum (ts : list turn) (i : nat) : nat := sum (firstn i (counts ts)).

(** no attempt transfers more than it was asked to *)
Definition honest (ts : list turn) (reqs : list request) : Prop :=
  forall i si oi t, nth_error reqs i = Some (si, oi) -> nth_error ts i = Some t -> snd (reply t) <= length (bytes si).

