(** * What a user of socket::connect relies on *)
From Coq Require Import List Bool Arith Lia.
From Verif Require Import Sock_Model Rsv_Model Dial_Model.
Import ListNotations.

(** the numbers that belong to the classes stream_socket, datagram_socket and seq_packet_socket *)
Definition type_of (k : kind) : nat := match k with Stream => 1 | Datagram => 2 | SeqPacket => 5 end.
Definition protocol_of (k : kind) : nat := match k with Stream => 6 | Datagram => 17 | SeqPacket => 132 end.

(** [e'] is [e] with what is missing in its protocol filled in for a socket of class [k] *)
Definition fills (k : kind) (e e' : ep) : Prop :=
  e_addr e' = e_addr e /\ fam (e_proto e') = fam (e_proto e) /\
  (ty (e_proto e) <> 0 -> ty (e_proto e') = ty (e_proto e)) /\
  (pr (e_proto e) <> 0 -> pr (e_proto e') = pr (e_proto e)) /\
  (ty (e_proto e) = 0 -> fam (e_proto e) <> AF_OTHER -> ty (e_proto e') = type_of k) /\
  (pr (e_proto e) = 0 -> fam (e_proto e) = AF_INET \/ fam (e_proto e) = AF_INET6 -> pr (e_proto e') = protocol_of k).

(** the endpoints that connect number [i] has attempted, and how the attempts ended ([None]: connected) *)
Definition attempts (i : nat) (es : list event) : list ep :=
  flat_map (fun v => match v with ETry j _ e | EFail j e _ => if j =? i then [e] else [] | _ => [] end) es.
Definition outcomes (i : nat) (es : list event) : list (option err) :=
  flat_map (fun v => match v with EAnswer j r => if j =? i then [r] else [] | EFail j _ x => if j =? i then [Some x] else [] | _ => [] end) es.
Definition results (i : nat) (es : list event) : list res :=
  flat_map (fun v => match v with EGot j r => if j =? i then [r] else [] | _ => [] end) es.

(** what the user, or another coroutine, did during connect number [i] *)
Definition closed_during (i : nat) (es : list event) : Prop := In (EShut i) es.
Definition stopped_during (i : nat) (es : list event) : Prop := exists c, In (EStop i c) es.

Definition opened (es : list event) : list nat := flat_map (fun v => match v with EOpen d _ => [d] | _ => [] end) es.
Definition closed (es : list event) : list nat := flat_map (fun v => match v with EClose d => [d] | _ => [] end) es.

Definition automatic (l : label) : Prop := match l with LDone _ | LRun _ => True | _ => False end.

(** the last attempt of connect number [i] has not been answered yet *)
Definition unanswered (i : nat) (es : list event) : Prop := length (outcomes i es) < length (attempts i es).

(** steps during a connect that do not open or close the socket *)
Definition calm (l : label) : Prop := match l with LCancel | LStop _ | LDone _ | LRun _ => True | _ => False end.
