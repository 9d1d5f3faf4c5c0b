(** * Model of io::acceptor (paths relative to /repo)

    - include/boost/cobalt/io/acceptor.hpp 20-108: the class, its members and its ops.
    - src/io/acceptor.cpp 14-56: constructors, bind, listen, and the initiation of the ops.
    - include/boost/cobalt/composition.hpp 18-24 and 130-134: accept() without a socket is a composition, whose
      cancellation slot is not connected (the base class is default constructed).
    - include/boost/cobalt/detail/race.hpp 229-243 and 274: a race cancels the losers, waits for them and drops their outcomes.

    asio's acceptor and the operating system, after their documentation: waiting accepts and waits are served in order of
    initiation; a completion is posted and runs later, and the socket is handed over when it runs; bind needs an open
    and unbound descriptor; destroying the acceptor aborts what waits.  Connections, sockets and operations are numbered.
    Not modelled: failures of the endpoint constructor (it throws: there is no acceptor), local_endpoint, the
    limit of the backlog, errors of accept other than those below, moving the acceptor. *)
From Coq Require Import List Bool Arith Lia.
Import ListNotations.

(** acceptor.hpp:82-85: accept(sock); 87-97: accept(proto), which makes a socket; 100-103: wait *)
Inductive kind := KInto (s : nat) | KNew | KWait.
Inductive error := aborted | bad_descriptor | already_open | invalid_argument.
(** What the operating system has for an operation when its completion is posted *)
Inductive res := RConn (c : nat) | RErr (e : error) | RReady.
(** What the awaiting coroutine gets *)
Inductive outcome := OSock (c : nat) | OErr (e : error) | OReady.

Inductive event :=
| EBind (r : option error)             (** result of bind; None: success *)
| EListen (r : option error)
| EResult (i : nat) (o : outcome)      (** operation [i] resumes its coroutine *)
| EDiscard (i : nat)                   (** operation [i] ends, nobody looks at its outcome *)
| EHeld (s c : nat)                    (** ... and its connection [c] is in the user's socket [s] *)
| EClosed (c : nat).                   (** a connection is closed that no coroutine has seen *)

(** acceptor.hpp:107: the descriptor of [acceptor_] *)
Record desc := mkd { opened : bool; bound : bool; listening : bool }.

Record state := mk
  { dsc : desc;
    alive : bool;                          (** the acceptor object exists *)
    backlog : list nat;                    (** connections that nobody has accepted, oldest first *)
    queue : list (nat * kind);             (** initiated operations, oldest first *)
    posted : list (nat * kind * res);      (** posted completions *)
    socks : nat -> option nat;             (** the connection of the user's sockets *)
    used : list nat;                       (** ids of operations *)
    lost : nat -> bool }.                  (** the operation is the loser of a race *)

(** acceptor.cpp:14: acceptor_{exec}; 15: acceptor_{exec, ep} opens, binds and listens *)
Definition init (ep : bool) : state := mk (mkd ep ep ep) true [] [] [] (fun _ => None) [] (fun _ => false).

Inductive label :=
| LBind | LListen
| LArrive (c : nat)                        (** a peer connects *)
| LAccept (i : nat) (k : kind)             (** co_await accept(...) or wait() *)
| LReact                                   (** the reactor serves the oldest operation *)
| LDeliver                                 (** the oldest posted completion runs *)
| LCancel (i : nat)                        (** the coroutine that awaits [i] is cancelled *)
| LLose (i : nat)                          (** [i] is a child of a race, another child wins *)
| LCloseSock (s : nat)                     (** the user closes a socket *)
| LDestroy.

Definition upd {A} (f : nat -> A) k v : nat -> A := fun n => if Nat.eqb n k then v else f n.
Definition set_desc d s := mk d (alive s) (backlog s) (queue s) (posted s) (socks s) (used s) (lost s).
Definition mem (i : nat) (l : list nat) : bool := existsb (Nat.eqb i) l.

(** Whether a cancellation reaches the operation: accept_op and wait_op hand the coroutine's handler with its slot to
    asio (acceptor.cpp:35-38, 52-56); the other two await asio inside a composition (acceptor.cpp:40-50), which has an unconnected
    slot (composition.hpp:18-24, 130-134) *)
Definition cancellable (k : kind) : bool := match k with KNew => false | _ => true end.

Definition find (i : nat) (q : list (nat * kind)) : option kind :=
  match List.find (fun x => Nat.eqb (fst x) i) q with Some x => Some (snd x) | None => None end.
Definition without (i : nat) (q : list (nat * kind)) := filter (fun x => negb (Nat.eqb (fst x) i)) q.

(** Emitting a cancellation signal for operation [i] *)
Definition cancel (i : nat) (s : state) : state :=
  match find i (queue s) with
  | Some k =>
      if cancellable k
      then mk (dsc s) (alive s) (backlog s) (without i (queue s)) (posted s ++ [(i, k, RErr aborted)]) (socks s) (used s) (lost s)
      else s
  | None => s
  end.

(** A posted completion runs.  accept(sock): asio assigns the descriptor to the socket, which fails if that is open; the
    descriptor is closed then.  accept(): the socket goes through the composition's result into the awaitable
    (acceptor.cpp:42-43, 48-49), and is destroyed with it if a race dropped it. *)
Definition deliver (i : nat) (k : kind) (r : res) (s : state) : state * list event :=
  match r with
  | RConn c =>
      match k with
      | KInto x =>
          match socks s x with
          | Some _ => (s, (if lost s i then EDiscard i else EResult i (OErr already_open)) :: [EClosed c])
          | None =>
              (mk (dsc s) (alive s) (backlog s) (queue s) (posted s) (upd (socks s) x (Some c)) (used s) (lost s),
               if lost s i then [EDiscard i; EHeld x c] else [EResult i (OSock c)])
          end
      | _ => (s, if lost s i then [EDiscard i; EClosed c] else [EResult i (OSock c)])
      end
  | RErr e => (s, [if lost s i then EDiscard i else EResult i (OErr e)])
  | RReady => (s, [if lost s i then EDiscard i else EResult i OReady])
  end.

Definition step (s : state) (l : label) : option (state * list event) :=
  match l with
  | LBind =>
      if negb (alive s) then None
      else if negb (opened (dsc s)) then Some (s, [EBind (Some bad_descriptor)])
      else if bound (dsc s) then Some (s, [EBind (Some invalid_argument)])
      else Some (set_desc (mkd true true (listening (dsc s))) s, [EBind None])
  | LListen =>
      if negb (alive s) then None
      else if negb (opened (dsc s)) then Some (s, [EListen (Some bad_descriptor)])
      else Some (set_desc (mkd true true true) s, [EListen None])
  | LArrive c =>
      if alive s && listening (dsc s)
      then Some (mk (dsc s) (alive s) (backlog s ++ [c]) (queue s) (posted s) (socks s) (used s) (lost s), [])
      else None
  | LAccept i k =>
      if negb (alive s) || mem i (used s) then None
      else
        let fail e := Some (mk (dsc s) (alive s) (backlog s) (queue s) (posted s ++ [(i, k, RErr e)]) (socks s) (used s ++ [i]) (lost s), []) in
        let busy := match k with KInto x => match socks s x with Some _ => true | None => false end | _ => false end in
        if busy then fail already_open
        else if negb (opened (dsc s)) then fail bad_descriptor
        else if negb (listening (dsc s)) then fail invalid_argument
        else Some (mk (dsc s) (alive s) (backlog s) (queue s ++ [(i, k)]) (posted s) (socks s) (used s ++ [i]) (lost s), [])
  | LReact =>
      match queue s, backlog s with
      | (i, KWait) :: q, _ :: _ =>
          Some (mk (dsc s) (alive s) (backlog s) q (posted s ++ [(i, KWait, RReady)]) (socks s) (used s) (lost s), [])
      | (i, k) :: q, c :: b =>
          Some (mk (dsc s) (alive s) b q (posted s ++ [(i, k, RConn c)]) (socks s) (used s) (lost s), [])
      | _, _ => None
      end
  | LDeliver =>
      match posted s with
      | (i, k, r) :: p =>
          Some (deliver i k r (mk (dsc s) (alive s) (backlog s) (queue s) p (socks s) (used s) (lost s)))
      | [] => None
      end
  | LCancel i => Some (cancel i s, [])
  | LLose i =>
      if mem i (used s)
      then let s1 := cancel i s in
           Some (mk (dsc s1) (alive s1) (backlog s1) (queue s1) (posted s1) (socks s1) (used s1) (upd (lost s1) i true), [])
      else None
  | LCloseSock x => Some (mk (dsc s) (alive s) (backlog s) (queue s) (posted s) (upd (socks s) x None) (used s) (lost s), [])
  | LDestroy =>
      if alive s
      then Some (mk (mkd false false false) false (backlog s) []
                    (posted s ++ map (fun x => (fst x, snd x, RErr aborted)) (queue s)) (socks s) (used s) (lost s), [])
      else None
  end.

Fixpoint run (s : state) (ls : list label) : option (state * list event) :=
  match ls with
  | [] => Some (s, [])
  | l :: r =>
      match step s l with
      | Some (s1, e) => match run s1 r with Some (s2, es) => Some (s2, e ++ es) | None => None end
      | None => None
      end
  end.
