(** * What is asked of descriptors, on histories *)
From Coq Require Import List Bool Arith.
From Verif Require Import Sock_Model.
Import ListNotations.

Definition created (d : fd) (es : list event) : nat :=
  length (filter (fun e => match e with ECreate x => d =? x | _ => false end) es).
Definition closed (d : fd) (es : list event) : nat :=
  length (filter (fun e => match e with EClose x => d =? x | _ => false end) es).
Definition given_in (d : fd) (es : list event) : nat :=
  length (filter (fun e => match e with EIn x => d =? x | _ => false end) es).
Definition given_out (d : fd) (es : list event) : nat :=
  length (filter (fun e => match e with EOut x => d =? x | _ => false end) es).

Definition owns (d : fd) (o : option fd) : bool := match o with Some x => d =? x | None => false end.
(** how many objects own a descriptor *)
Definition owners (d : fd) (s : state) : nat := length (filter (owns d) (socks s)).

(** the caller does not make up descriptors: what it gives to a socket it got from one, and has
    not given to another since *)
Fixpoint honest (es : list event) (s : state) (ls : list label) : Prop :=
  match ls with
  | [] => True
  | l :: r =>
      match l with LAssign _ d _ => given_in d es < given_out d es | _ => True end /\
      match step s l with Some (s1, e1) => honest (es ++ e1) s1 r | None => True end
  end.

(** A socket's own type and protocol: SOCK_STREAM and TCP, SOCK_DGRAM and UDP, SOCK_SEQPACKET and SCTP *)
Definition own_type (k : kind) : nat := match k with Stream => 1 | Datagram => 2 | SeqPacket => 5 end.
Definition own_protocol (k : kind) : nat := match k with Stream => 6 | Datagram => 17 | SeqPacket => 132 end.
