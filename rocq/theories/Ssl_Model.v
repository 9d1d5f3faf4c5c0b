(** * Model of the socket objects: the socket interface, moving, and ssl::stream
    (paths relative to /repo)

    - include/boost/cobalt/io/socket.hpp 142-149: the base class holds a reference to
      the asio socket of the object; src/io/socket.cpp 20-46: open, close, is_open use it.
    - src/io/stream_socket.cpp 13-30 and 50-64, src/io/datagram_socket.cpp 13-30 and 49-57,
      src/io/seq_packet_socket.cpp 13-30 and 52-75: constructors, reading and writing.
    - include/boost/cobalt/io/ssl.hpp 44-139, src/io/ssl.cpp 14-35, 55-121: ssl::stream.

    Objects and descriptors are numbered.  asio's sockets, after its documentation: a moved-from
    socket has no descriptor; closing or destroying a socket closes its descriptor; an
    asio::ssl::stream encrypts and decrypts once its handshake has succeeded, its next_layer
    never does.  An operation is initiated and completes in one step; whether a handshake succeeds
    is part of the label.  A byte stands for a buffer.  Not modelled: contents of the
    handshake, partial writes, errors of the operating system, several threads. *)
From Coq Require Import List Bool Arith Lia.
Import ListNotations.

(** stream_socket, datagram_socket and seq_packet_socket; ssl::stream *)
Inductive kind := KPlain | KSsl.
Record obj := mko
  { kd : kind;
    fd : option nat;     (** the descriptor of the asio socket that is a member of the object *)
    est : bool;          (** asio::ssl::stream: the session is established *)
    upg : bool;          (** ssl.hpp:138: upgraded_ *)
    ref : nat }.         (** socket.hpp:148: the object whose asio socket [socket_] refers to *)

(** What travels through a descriptor *)
Inductive item := Clear (b : nat) | Cipher (b : nat) | Hello.

Record state := mk
  { obs : nat -> option obj;         (** None: not there, or destroyed *)
    made : nat -> bool;
    next : nat;                      (** the next descriptor *)
    sent : nat -> list item;
    inbox : nat -> list item }.

Inductive error := already_started | no_protocol_option | bad_descriptor | handshake_failed | not_established.
Inductive out := OOk | OErr (e : error) | OBool (b : bool) | OData (b : nat) | OGarbage (b : nat) | OBlock | OUb.

Inductive label :=
| LNew (o : nat) (k : kind)
| LMove (o o' : nat)                 (** [o'] is constructed from [o] *)
| LDestroy (o : nat)
| LOpen (o : nat) | LClose (o : nat) | LIsOpen (o : nat)
| LHandshake (o : nat) (ok : bool) | LShutdown (o : nat) | LSecure (o : nat)
| LWrite (o b : nat) | LRead (o : nat)
| LRecv (d : nat) (x : item).        (** the peer sends *)

Definition upd {A} (f : nat -> A) k v : nat -> A := fun n => if Nat.eqb n k then v else f n.
Definition set_obj o v s := mk (upd (obs s) o v) (made s) (next s) (sent s) (inbox s).
Definition set_fd d x := mko (kd x) d (est x) (upg x) (ref x).
Definition send d i s := mk (obs s) (made s) (next s) (upd (sent s) d (sent s d ++ [i])) (inbox s).

(** The object whose asio socket the socket interface of [o] uses *)
Definition through (s : state) (o : nat) : option (nat * obj) :=
  match obs s o with
  | Some x => match obs s (ref x) with Some y => Some (ref x, y) | None => None end
  | None => None
  end.

(** Moving.  stream_socket.cpp:23-26, datagram_socket.cpp:23-26, seq_packet_socket.cpp:23-26: [socket_] refers to the new
    member.  ssl.hpp:44 declares no constructor of the kind: the implicit one copies the base class socket with its
    reference, moves asio's stream with its session, and copies upgraded_. *)
Definition moved (o' : nat) (x : obj) : obj :=
  match kd x with
  | KPlain => mko KPlain (fd x) (est x) (upg x) o'
  | KSsl => mko KSsl (fd x) (est x) (upg x) (ref x)
  end.
Definition emptied (x : obj) : obj := mko (kd x) None false (upg x) (ref x).

Definition step (s : state) (l : label) : option (state * out) :=
  match l with
  | LNew o k =>
      if made s o then None else
      Some (mk (upd (obs s) o (Some (mko k None false false o))) (upd (made s) o true) (next s) (sent s) (inbox s), OOk)
  | LMove o o' =>
      if made s o' then None else
      match obs s o with
      | Some x =>
          Some (mk (upd (upd (obs s) o (Some (emptied x))) o' (Some (moved o' x))) (upd (made s) o' true) (next s) (sent s) (inbox s), OOk)
      | None => None
      end
  | LDestroy o => match obs s o with Some _ => Some (set_obj o None s, OOk) | None => None end
  | LOpen o =>        (* socket.cpp:20-25 *)
      match obs s o with
      | None => None
      | Some _ =>
          match through s o with
          | None => Some (s, OUb)
          | Some (q, y) =>
              match fd y with
              | Some _ => Some (s, OErr already_started)
              | None => Some (mk (upd (obs s) q (Some (set_fd (Some (next s)) y))) (made s) (S (next s)) (sent s) (inbox s), OOk)
              end
          end
      end
  | LClose o =>       (* socket.cpp:27-32 *)
      match obs s o with
      | None => None
      | Some _ =>
          match through s o with
          | None => Some (s, OUb)
          | Some (q, y) => Some (set_obj q (Some (set_fd None y)) s, OOk)
          end
      end
  | LIsOpen o =>      (* socket.cpp:41-44 *)
      match obs s o with
      | None => None
      | Some _ =>
          match through s o with
          | None => Some (s, OUb)
          | Some (_, y) => Some (s, OBool (match fd y with Some _ => true | None => false end))
          end
      end
  | LHandshake o ok =>   (* ssl.cpp:81-107; ssl.hpp:124-128 *)
      match obs s o with
      | Some x =>
          match kd x with
          | KPlain => None
          | KSsl =>
              if upg x then Some (s, OErr already_started)
              else match fd x with
                   | None => Some (s, OErr bad_descriptor)
                   | Some d =>
                       if ok then Some (send d Hello (set_obj o (Some (mko (kd x) (fd x) true (upg x) (ref x))) s), OOk)
                       else Some (send d Hello s, OErr handshake_failed)
                   end
          end
      | None => None
      end
  | LShutdown o =>       (* ssl.cpp:109-121 *)
      match obs s o with
      | Some x =>
          match kd x with
          | KPlain => None
          | KSsl =>
              if upg x then
                (if est x then Some (set_obj o (Some (mko (kd x) (fd x) false (upg x) (ref x))) s, OOk)
                 else Some (s, OErr not_established))
              else Some (s, OErr no_protocol_option)
          end
      | None => None
      end
  | LSecure o =>         (* ssl.hpp:62 *)
      match obs s o with
      | Some x => match kd x with KPlain => None | KSsl => Some (s, OBool (upg x)) end
      | None => None
      end
  | LWrite o b =>        (* stream_socket.cpp:58-64, datagram_socket.cpp:54-57, seq_packet_socket.cpp:68-75; ssl.cpp:68-79 *)
      match obs s o with
      | Some x =>
          match fd x with
          | None => Some (s, OErr bad_descriptor)
          | Some d =>
              match kd x with
              | KPlain => Some (send d (Clear b) s, OOk)
              | KSsl =>
                  if upg x then (if est x then Some (send d (Cipher b) s, OOk) else Some (s, OErr not_established))
                  else Some (send d (Clear b) s, OOk)
              end
          end
      | None => None
      end
  | LRead o =>           (* stream_socket.cpp:50-57, datagram_socket.cpp:49-52, seq_packet_socket.cpp:52-66; ssl.cpp:55-67 *)
      match obs s o with
      | Some x =>
          match fd x with
          | None => Some (s, OErr bad_descriptor)
          | Some d =>
              match inbox s d with
              | [] => Some (s, OBlock)
              | i :: r =>
                  let s1 := mk (obs s) (made s) (next s) (sent s) (upd (inbox s) d r) in
                  if match kd x with KPlain => false | KSsl => upg x end then
                    match i with Cipher b => if est x then Some (s1, OData b) else Some (s1, OErr not_established) | _ => Some (s1, OErr not_established) end
                  else
                    match i with Clear b => Some (s1, OData b) | Cipher b => Some (s1, OGarbage b) | Hello => Some (s1, OGarbage 0) end
              end
          end
      | None => None
      end
  | LRecv d x => Some (mk (obs s) (made s) (next s) (sent s) (upd (inbox s) d (inbox s d ++ [x])), OOk)
  end.

Definition init : state := mk (fun _ => None) (fun _ => false) 0 (fun _ => []) (fun _ => []).

Fixpoint run (s : state) (ls : list label) : option (state * list out) :=
  match ls with
  | [] => Some (s, [])
  | l :: r =>
      match step s l with
      | Some (s1, o) => match run s1 r with Some (s2, os) => Some (s2, o :: os) | None => None end
      | None => None
      end
  end.
