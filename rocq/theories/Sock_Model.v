(** * Model of the descriptors of sockets and pipes
    /repo/src/io/socket.cpp (open, close, assign, release, connect_pair), the constructors of
    stream_socket.cpp 13-26, datagram_socket.cpp and seq_packet_socket.cpp,
    make_pair of stream_socket.hpp 51-59 (the same in the other two), /repo/src/io/pipe.cpp 128-138.

    asio is modelled after its documentation: open and assign of a socket that is open give
    already_open and change nothing; they can fail otherwise too, and then the socket stays closed
    (open closes what it created, assign leaves the descriptor to its caller); close always closes; a
    destructor closes; socketpair and pipe create two descriptors or fail; connect_pipe closes
    both ends if it fails.

    Simplifications: a descriptor is a number that is never used again after it is closed; a pipe end is
    an object like a socket. *)
From Coq Require Import List Bool Arith.
Import ListNotations.

Definition fd := nat.

Record state := mk
  { socks : list (option fd);   (** the socket objects (and pipe ends), with what they own *)
    fresh : fd }.               (** the next descriptor *)

Inductive event :=
| ECreate (d : fd)      (** the system made it *)
| EClose (d : fd)       (** it is closed *)
| EIn (d : fd)          (** the caller gave it to a socket *)
| EOut (d : fd)         (** the caller got it from a socket *)
| EOk | EErr            (** the function's result *)
| EThrow.               (** the function throws *)

(** the boolean arguments: whether the system call in question works *)
Inductive label :=
| LNew
| LOpen (i : nat) (ok : bool)
| LClose (i : nat)               (** close(), and the destructor *)
| LAssign (i : nat) (d : fd) (ok : bool)
| LRelease (i : nat)
| LMove (i : nat)                (** a new socket, move constructed *)
| LPair (i j : nat) (ok a b : bool)
| LMakePair (ok a b : bool)
| LPipe (ok a b : bool).

Definition get (s : state) (i : nat) : option fd := nth i (socks s) None.
Fixpoint upd (l : list (option fd)) (i : nat) (o : option fd) : list (option fd) :=
  match l, i with
  | [], _ => []
  | _ :: r, 0 => o :: r
  | x :: r, S k => x :: upd r k o
  end.
Definition put (s : state) (i : nat) (o : option fd) : state := mk (upd (socks s) i o) (fresh s).

(** socket.cpp:70-75 *)
Definition assign (s : state) (i : nat) (d : fd) (ok : bool) : state * bool :=
  match get s i with
  | Some _ => (s, false)
  | None => if ok then (put s i (Some d), true) else (s, false)
  end.
(** socket.cpp:27-32 *)
Definition close (s : state) (i : nat) : state * list event :=
  match get s i with
  | Some d => (put s i None, [EClose d])
  | None => (s, [])
  end.

(** socket.cpp:158-188 *)
Definition connect_pair (s : state) (i j : nat) (ok a b : bool) : state * list event :=
  if ok then
    let sv0 := fresh s in
    let sv1 := S (fresh s) in
    let s0 := mk (socks s) (S (S (fresh s))) in
    let '(s1, r1) := assign s0 i sv0 a in                                    (* 167 *)
    if r1 then
      let '(s2, r2) := assign s1 j sv1 b in                                  (* 177 *)
      if r2 then (s2, [ECreate sv0; ECreate sv1; EOk])
      else
        let '(s3, e) := close s2 i in                                        (* 181 *)
        (s3, [ECreate sv0; ECreate sv1] ++ e ++ [EClose sv1; EErr])          (* 182-184 *)
    else (s1, [ECreate sv0; ECreate sv1; EClose sv0; EClose sv1; EErr])      (* 168-175 *)
  else (s, [EErr]).                                                          (* 162-165 *)

(** a temporary is destroyed at the end *)
Definition drop_last2 (s : state) : list event :=
  let n := length (socks s) in
  match nth (n - 1) (socks s) None with Some d => [EClose d] | None => [] end ++
  match nth (n - 2) (socks s) None with Some d => [EClose d] | None => [] end.

Definition inr (s : state) (i : nat) : bool := i <? length (socks s).

Definition step (s : state) (l : label) : option (state * list event) :=
  match l with
  (* stream_socket.cpp:13-16 *)
  | LNew => Some (mk (socks s ++ [None]) (fresh s), [])
  (* socket.cpp:20-25 *)
  | LOpen i ok =>
      if inr s i then
        Some (match get s i with
              | Some _ => (s, [EErr])
              | None => if ok then (mk (upd (socks s) i (Some (fresh s))) (S (fresh s)), [ECreate (fresh s); EOk])
                        else (s, [EErr])
              end)
      else None
  | LClose i => if inr s i then Some (close s i) else None
  | LAssign i d ok =>
      if inr s i then
        let '(s1, r) := assign s i d ok in
        Some (s1, if r then [EIn d; EOk] else [EErr])
      else None
  (* socket.cpp:79-84 *)
  | LRelease i =>
      if inr s i then
        Some (match get s i with Some d => (put s i None, [EOut d; EOk]) | None => (s, [EErr]) end)
      else None
  (* stream_socket.cpp:23-26 *)
  | LMove i =>
      if inr s i then Some (mk (upd (socks s) i None ++ [get s i]) (fresh s), []) else None
  | LPair i j ok a b => if inr s i && inr s j then Some (connect_pair s i j ok a b) else None
  (* stream_socket.hpp:51-59: the pair is moved into the result, or destroyed *)
  | LMakePair ok a b =>
      let n := length (socks s) in
      let '(s1, e) := connect_pair (mk (socks s ++ [None; None]) (fresh s)) n (S n) ok a b in
      Some (if existsb (fun x => match x with EOk => true | _ => false end) e then (s1, e)
            else (mk (firstn n (socks s1)) (fresh s1), e ++ drop_last2 s1))
  (* pipe.cpp:128-138: the error_code is not given to connect_pipe *)
  | LPipe ok a b =>
      if ok && a && b then
        Some (mk (socks s ++ [Some (fresh s); Some (S (fresh s))]) (S (S (fresh s))),
              [ECreate (fresh s); ECreate (S (fresh s)); EOk])
      else if ok then
        Some (mk (socks s) (S (S (fresh s))),
              [ECreate (fresh s); ECreate (S (fresh s)); EClose (fresh s); EClose (S (fresh s)); EThrow])
      else Some (s, [EThrow])
  end.

Definition init : state := mk [] 0.

(** a history *)
Fixpoint run (s : state) (ls : list label) : option (state * list event) :=
  match ls with
  | [] => Some (s, [])
  | l :: r => match step s l with
              | None => None
              | Some (s1, e1) => match run s1 r with None => None | Some (s2, e2) => Some (s2, e1 ++ e2) end
              end
  end.

(** ** adopt_endpoint_: what connect fills in *)
Inductive family := AF_INET | AF_INET6 | AF_UNIX | AF_OTHER.
Inductive kind := Stream | Datagram | SeqPacket.
Record proto := P { fam : family; ty : nat; pr : nat }.
Definition SOCK_STREAM := 1. Definition SOCK_DGRAM := 2. Definition SOCK_SEQPACKET := 5.
Definition IPPROTO_TCP := 6. Definition IPPROTO_UDP := 17. Definition IPPROTO_SCTP := 132.
(** stream_socket.cpp:34-48, datagram_socket.cpp:31-46, seq_packet_socket.cpp:33-50 (with IPPROTO_SCTP defined) *)
Definition adopt (k : kind) (p : proto) : proto :=
  let t := match k with Stream => SOCK_STREAM | Datagram => SOCK_DGRAM | SeqPacket => SOCK_SEQPACKET end in
  let q := match k with Stream => IPPROTO_TCP | Datagram => IPPROTO_UDP | SeqPacket => IPPROTO_SCTP end in
  match fam p with
  | AF_INET | AF_INET6 =>
      let p1 := if pr p =? 0 then P (fam p) (ty p) q else p in
      if ty p1 =? 0 then P (fam p1) t (pr p1) else p1
  | AF_UNIX => if ty p =? 0 then P (fam p) t (pr p) else p
  | AF_OTHER => p
  end.
