(** * Model of io::endpoint
    /repo/include/boost/cobalt/io/endpoint.hpp lines 51-371 and
    /repo/src/io/endpoint.cpp lines 33-223, on bytes, for Linux on a little
    endian machine: sockaddr_in is family(2) port(2) address(4) zero(8),
    sockaddr_in6 is family(2) port(2) flowinfo(4) address(16) scope(4), sockaddr_un is
    family(2) path(108), sockaddr 16 bytes, sockaddr_storage 128 bytes.

    Simplifications: parsing and printing of addresses (asio, inet_ntop) is not
    modelled: a textual address is given by its bytes in network order.  A byte
    is a number or indeterminate (None). *)
From Coq Require Import List Bool Arith ZArith.
Import ListNotations.
Local Open Scope Z_scope.

Definition byte := option Z.
Definition storage := list byte.

(** OS constants *)
Definition AF_UNSPEC := 0. Definition AF_UNIX := 1. Definition AF_INET := 2. Definition AF_INET6 := 10.
Definition SOCK_STREAM := 1. Definition SOCK_DGRAM := 2. Definition SOCK_SEQPACKET := 5.
Definition IPPROTO_IP := 0. Definition IPPROTO_ICMP := 1. Definition IPPROTO_TCP := 6. Definition IPPROTO_UDP := 17.

(** endpoint.hpp:51-91 protocol_type, 93-107 static_protocol *)
Record proto := mkp { family : Z; ptype : Z; pproto : Z }.
(** endpoint.hpp:110-123 *)
Definition ip := mkp AF_UNSPEC 0 IPPROTO_IP.
Definition ip_v4 := mkp AF_INET 0 IPPROTO_IP.
Definition ip_v6 := mkp AF_INET6 0 IPPROTO_IP.
Definition tcp := mkp AF_UNSPEC SOCK_STREAM IPPROTO_TCP.
Definition tcp_v4 := mkp AF_INET SOCK_STREAM IPPROTO_TCP.
Definition tcp_v6 := mkp AF_INET6 SOCK_STREAM IPPROTO_TCP.
Definition udp := mkp AF_UNSPEC SOCK_DGRAM IPPROTO_UDP.
Definition udp_v4 := mkp AF_INET SOCK_DGRAM IPPROTO_UDP.
Definition udp_v6 := mkp AF_INET6 SOCK_DGRAM IPPROTO_ICMP.
Definition icmp := mkp AF_UNSPEC SOCK_DGRAM IPPROTO_ICMP.
Definition local_stream := mkp AF_UNIX SOCK_STREAM 0.
Definition local_datagram := mkp AF_UNIX SOCK_DGRAM 0.
Definition local_seqpacket := mkp AF_UNIX SOCK_SEQPACKET 0.
Definition local_protocol := mkp AF_UNIX 0 0.

(** endpoint.hpp:213-220 *)
Record endpoint := mke { st : storage; esize : nat; etype : Z; eproto : Z }.

(** ** Bytes *)
Definition put (n : nat) (bs : list Z) (s : storage) : storage :=
  firstn n s ++ map Some bs ++ skipn (n + length bs) s.
Definition get_bytes (n k : nat) (s : storage) : list byte := firstn k (skipn n s).
Definition zeros (k : nat) : list Z := repeat 0 k.

Fixpoint known (l : list byte) : option (list Z) :=
  match l with
  | [] => Some []
  | Some b :: r => match known r with Some x => Some (b :: x) | None => None end
  | None :: _ => None
  end.

(** native (little endian) and big endian numbers *)
Fixpoint le (k : nat) (x : Z) : list Z :=
  match k with O => [] | S k => x mod 256 :: le k (x / 256) end.
Fixpoint of_le (l : list Z) : Z := match l with [] => 0 | b :: r => b + 256 * of_le r end.
(** endian::native_to_big of a 16 bit number *)
Definition bswap16 (x : Z) : Z := of_le (rev (le 2 x)).
(** socket_ops::host_to_network_long, network_to_host_long *)
Definition bswap32 (x : Z) : Z := of_le (rev (le 4 x)).

Definition load (n k : nat) (s : storage) : option Z :=
  match known (get_bytes n k s) with Some l => Some (of_le l) | None => None end.

(** endpoint.hpp:215 base_{}: the sockaddr is zero, the rest of the union indeterminate *)
Definition fresh : storage := put 0 (zeros 16) (repeat None 128).

(** ** Construction *)
(** endpoint.cpp:64-75 *)
Definition make_v4 (address port : Z) (s : storage) : storage * nat :=
  let s := put 0 (zeros 16) s in
  let s := put 0 (le 2 AF_INET) s in
  let s := put 2 (le 2 (bswap16 port)) s in
  (put 4 (le 4 address) s, 16%nat).
(** asio::ip::address_v4::to_uint of an address given by its bytes in network order *)
Definition to_uint (b : list Z) : Z := of_le (rev b).
(** endpoint.cpp:77-93 *)
Definition make_v4_text (b : list Z) (port : Z) (s : storage) : storage * nat :=
  make_v4 (bswap32 (to_uint b)) port s.
(** endpoint.cpp:113-124, 126-143 *)
Definition make_v6 (b : list Z) (port : Z) (s : storage) : storage * nat :=
  let s := put 0 (zeros 28) s in
  let s := put 0 (le 2 AF_INET6) s in
  let s := put 2 (le 2 (bswap16 port)) s in
  (put 8 b s, 28%nat).
(** endpoint.cpp:183-214; [inr]: a v6 address.  Its size is that of a sockaddr_in. *)
Definition make_text (b : list Z + list Z) (port : Z) (s : storage) : storage * nat :=
  match b with
  | inl b => make_v4_text b port s
  | inr b => (fst (make_v6 b port s), 16%nat)
  end.
(** endpoint.cpp:33-45: None: length_error.  sizeof(sun_family + sv.size() + 1u) is the
    size of a size_t. *)
Definition make_unix (path : list Z) (s : storage) : option (storage * nat) :=
  if (108 <=? length path)%nat then None
  else
    let s := put 0 (zeros 110) s in
    let s := put 0 (le 2 AF_UNIX) s in
    Some (put 2 (path ++ [0]) s, 8%nat).

(** the arguments after the protocol *)
Inductive args :=
| AV4 (address port : Z) | AV4Text (b : list Z) (port : Z)
| AV6 (b : list Z) (port : Z)
| AText (b : list Z + list Z) (port : Z)
| AUnix (path : list Z).

(** endpoint.hpp:165-179: the constructor from a static protocol.  None: there
    is no such overload for the family, or an exception. *)
Definition construct (p : proto) (a : args) : option endpoint :=
  let r := match a with
           | AV4 x port => if family p =? AF_INET then Some (make_v4 x port fresh) else None
           | AV4Text b port => if family p =? AF_INET then Some (make_v4_text b port fresh) else None
           | AV6 b port => if family p =? AF_INET6 then Some (make_v6 b port fresh) else None
           | AText b port => if family p =? AF_UNSPEC then Some (make_text b port fresh) else None
           | AUnix path => if family p =? AF_UNIX then make_unix path fresh else None
           end in
  match r with
  | Some (s, n) => Some (mke s n (ptype p) (pproto p))
  | None => None
  end.

(** endpoint.hpp:155-158 *)
Definition protocol (e : endpoint) : option proto :=
  match load 0 2 (st e) with Some f => Some (mkp f (etype e) (eproto e)) | None => None end.

(** endpoint.hpp:161-163  the copy constructor: for const endpoints only *)
Definition copy_const (e : endpoint) : endpoint := e.
(** endpoint.hpp:181-195  the constructor from another endpoint type.  It is also what
    copies a non-const endpoint and moves a temporary one: endpoint itself meets
    the requirements, and the match is better. *)
Definition copy_other (e : endpoint) : endpoint :=
  mke (firstn (esize e) (st e) ++ skipn (esize e) fresh) (esize e) (etype e) (eproto e).

(** ** Access *)
(** endpoint.hpp:280, 310, 350 *)
Definition port_of (e : endpoint) : option Z := option_map bswap16 (load 2 2 (st e)).
(** endpoint.hpp:281 *)
Definition addr4_of (e : endpoint) : option Z := load 4 4 (st e).
(** endpoint.hpp:311-317 *)
Definition addr6_of (e : endpoint) : option (list Z) := known (get_bytes 8 16 (st e)).
(** endpoint.cpp:155-171  ip_address::addr *)
Definition addr_of (e : endpoint) : option (list Z) :=
  match load 0 2 (st e) with
  | Some f => if f =? AF_INET then option_map (fun b => zeros 12 ++ b) (known (get_bytes 4 4 (st e))) else addr6_of e
  | None => None
  end.
(** endpoint.hpp:260  path(): up to the first 0 *)
Fixpoint cstr (l : list byte) : option (list Z) :=
  match l with
  | Some b :: r => if b =? 0 then Some [] else option_map (cons b) (cstr r)
  | _ => None
  end.
Definition path_of (e : endpoint) : option (list Z) := cstr (skipn 2 (st e)).

(** endpoint.cpp:47-54, 95-102, 145-152, 216-223 *)
Definition tag_get (want actual : Z) : bool :=
  if want =? AF_UNSPEC then (actual =? AF_INET) || (actual =? AF_INET6) else actual =? want.

(** endpoint.hpp:197-211  get_if; false: null *)
Definition get_if (p actual : proto) : bool :=
  if negb (ptype p =? 0) && negb (ptype actual =? 0) && negb (ptype actual =? ptype p) then false
  else if negb (pproto p =? 0) && negb (pproto actual =? 0) && negb (pproto actual =? pproto p) then false
  else tag_get (family p) (family actual).

(** endpoint.hpp:246-256  get; None: bad_endpoint_access *)
Definition get (p : proto) (e : endpoint) : option endpoint :=
  match protocol e with
  | Some a => if get_if p a then Some e else None
  | None => None
  end.
