(** * What an endpoint is to a user, independently of the constructors *)
From Coq Require Import List Bool Arith ZArith.
From Verif Require Import Ep_Model.
Import ListNotations.
Local Open Scope Z_scope.

Definition is_byte (b : Z) : Prop := 0 <= b < 256.
Definition is_port (p : Z) : Prop := 0 <= p < 65536.

(** The arguments a caller can give: an address has 4 or 16 bytes, a number 32 bits,
    a path no 0 (it is given back as a C string). *)
Definition valid (a : args) : Prop :=
  match a with
  | AV4 x p => 0 <= x < 4294967296 /\ is_port p
  | AV4Text b p | AText (inl b) p => length b = 4%nat /\ Forall is_byte b /\ is_port p
  | AV6 b p | AText (inr b) p => length b = 16%nat /\ Forall is_byte b /\ is_port p
  | AUnix path => Forall (fun c => is_byte c /\ c <> 0) path
  end.

(** The socket address as Linux reads it: the family in the machine's order, the
    port in network order, the address as a sequence of bytes. *)
Definition wire_v4 (b : list Z) (p : Z) : list Z := [2; 0; p / 256; p mod 256] ++ b ++ [0;0;0;0;0;0;0;0].
Definition wire_v6 (b : list Z) (p : Z) : list Z := [10; 0; p / 256; p mod 256; 0;0;0;0] ++ b ++ [0;0;0;0].
Definition wire_unix (path : list Z) : list Z := [1; 0] ++ path ++ [0].
(** the bytes of a number in memory *)
Definition in_memory (x : Z) : list Z :=
  [x mod 256; x / 256 mod 256; x / 65536 mod 256; x / 16777216 mod 256].

Definition wire (a : args) : list Z :=
  match a with
  | AV4 x p => wire_v4 (in_memory x) p
  | AV4Text b p | AText (inl b) p => wire_v4 b p
  | AV6 b p | AText (inr b) p => wire_v6 b p
  | AUnix path => wire_unix path
  end.

(** what the accessors give *)
Definition observed (a : args) (e : endpoint) : Prop :=
  match a with
  | AV4 x p => port_of e = Some p /\ addr4_of e = Some x
  | AV4Text b p | AText (inl b) p => port_of e = Some p /\ addr_of e = Some (repeat 0 12 ++ b)
  | AV6 b p | AText (inr b) p => port_of e = Some p /\ addr6_of e = Some b /\ addr_of e = Some b
  | AUnix path => path_of e = Some path
  end.

(** the family an address has *)
Definition family_of (a : args) : Z :=
  match a with
  | AV4 _ _ | AV4Text _ _ | AText (inl _) _ => 2
  | AV6 _ _ | AText (inr _) _ => 10
  | AUnix _ => 1
  end.

(** the sizes that are right: not those of a path, nor of a v6 address given
    as text to a protocol that leaves the family open *)
Definition sized (a : args) : Prop :=
  match a with AUnix _ => False | AText (inr _) _ => False | _ => True end.

(** Which families a protocol stands for: AF_UNSPEC for both internet families *)
Definition stands_for (want actual : Z) : Prop :=
  (want = 0 /\ (actual = 2 \/ actual = 10)) \/ (want <> 0 /\ actual = want).
(** both give a nonzero and different value *)
Definition clash (a b : Z) : Prop := a <> 0 /\ b <> 0 /\ a <> b.
