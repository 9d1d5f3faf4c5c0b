(** * Model of io::resolver and io::lookup (paths relative to /repo)

    - include/boost/cobalt/io/resolver.hpp 23-57: the class and resolve_op_; 59-73: lookup, an operation with a resolver of its own.
    - src/io/resolver.cpp 16-17: constructor and cancel; 19-33: the transformation of the results; 36-48: the initiations.
    - include/boost/cobalt/op.hpp 48-85: the awaitable; ready (26) does nothing, so that every await initiates.
    - include/boost/cobalt/io/endpoint.hpp 141-145, 214-221: what an endpoint consists of.

    asio's resolvers, after their documentation and sources: async_resolve copies host and service, remembers a token of the resolver and
    queues the query for the worker threads of the context (one by default); the worker compares the token and either aborts the
    query or calls getaddrinfo, which cannot be interrupted; cancel and the destructor replace the token; the completion is posted to
    the context, which counts the query as work from its beginning; the operation has no cancellation slot.  getaddrinfo is asked with
    io::ip (endpoint.hpp:110), whose socket type is unspecified; the results keep entries of families AF_INET and AF_INET6 and of
    each only the address.  Destroying the context waits for the workers and destroys the queued handlers.
    Resolvers, operations, strings and awaits are numbered; strings have one of infinitely many contents.
    Not modelled: flags (passed through), host and service names in the results (dropped by the transformation), contexts that forbid
    threads, failure of async_resolve to get memory, several contexts.  The model also lets the user cancel and destroy the resolver of a lookup,
    which the code keeps private. *)
From Coq Require Import List Bool Arith Lia.
From Verif Require Import Sock_Model.
Import ListNotations.

(** an addrinfo: family, socket type, address with port *)
Record entry := I { i_fam : family; i_type : nat; i_addr : nat }.
(** what getaddrinfo gives *)
Inductive answer := AOk (l : list entry) | AErr (e : nat).

(** endpoint.hpp:214-220: protocol and address *)
Record ep := E { e_proto : proto; e_addr : nat }.
(** resolver.hpp:33, 59: op<error_code, endpoint_sequence> *)
Inductive outcome := ROk (l : list ep) | RErr (e : nat) | RAborted.

Inductive event :=
| EBegun (i x : nat) (n v : nat)     (** await [i] starts a query of resolver [x] for host [n] and service [v] *)
| EUb (i : nat)                      (** await [i] has undefined behaviour *)
| EAsk (i : nat) (n v : nat)         (** getaddrinfo is called for await [i] *)
| EReply (i : nat) (a : answer)      (** ... and returns *)
| EGot (i : nat) (r : outcome)       (** the coroutine that awaits [i] is resumed with [r] *)
| EGone (i : nat)                    (** ... or is destroyed *)
| EThrow                             (** an exception leaves the context's run() *)
| EReturn.                           (** run() returns: there is no work left *)

(** resolver.hpp:42-45, 69-72: members of the operations; [o_own]: lookup *)
Record oper := mko { o_res : nat; o_host : nat; o_serv : nat; o_own : bool }.
(** a query of asio: await, resolver, token, host, service *)
Record job := mkj { j_id : nat; j_res : nat; j_tok : nat; j_host : nat; j_serv : nat }.

Record state := mk
  { text : nat -> option nat;        (** the strings of the program, [None]: destroyed or not made yet *)
    live : nat -> bool;              (** resolver exists *)
    used : nat -> bool;              (** resolver exists or existed *)
    tok : nat -> nat;                (** its token *)
    ops : nat -> option oper;        (** operations *)
    begun : nat -> bool;             (** awaits *)
    queue : list job;                (** queries the workers have not taken *)
    active : list job;               (** queries in getaddrinfo *)
    done : list (nat * outcome);     (** completions posted to the context *)
    work : nat;                      (** the context's count of work *)
    up : bool }.                     (** the context exists *)

Definition init : state :=
  mk (fun _ => None) (fun _ => false) (fun _ => false) (fun _ => 0) (fun _ => None) (fun _ => false) [] [] [] 0 true.

Inductive label :=
| LText (k n : nat)                  (** string [k] is made or changed to [n] *)
| LFree (k : nat)                    (** string [k] is destroyed *)
| LMake (x : nat)                    (** resolver r; *)
| LCancel (x : nat)                  (** r.cancel() *)
| LDestroy (x : nat)
| LOp (o x h v : nat)                (** auto o = r.resolve(h, v) *)
| LLookup (o x h v : nat)            (** lookup o{h, v}; its resolver is [x] *)
| LDrop (o : nat)                    (** the operation object is destroyed *)
| LAwait (i o : nat)                 (** co_await o *)
| LSignal (i : nat)                  (** the coroutine that awaits [i] is cancelled, also by a race or a timeout *)
| LBegin                             (** a worker takes the next query *)
| LReply (k : nat) (a : answer)      (** getaddrinfo returns in a worker *)
| LRun (oom : bool)                  (** the context runs the next completion; [oom]: there is no memory for the results *)
| LReturn                            (** the context's run() returns *)
| LClose.                            (** the context is destroyed *)

Definition upd {A} (f : nat -> A) k v : nat -> A := fun n => if Nat.eqb n k then v else f n.

(** asio's results: entries of the internet families *)
Definition internet (e : entry) : bool := match i_fam e with AF_INET | AF_INET6 => true | _ => false end.
(** an endpoint made by resize and memcpy from an addrinfo: type_ and protocol_ stay 0 (endpoint.hpp:219-220) *)
Definition to_ep (e : entry) : ep := E (P (i_fam e) 0 0) (i_addr e).
(** resolver.cpp:22-32: r.assign(rr.begin(), rr.end()) *)
Definition transform (a : answer) : outcome :=
  match a with AOk l => ROk (map to_ep (filter internet l)) | AErr e => RErr e end.

(** do the results need memory? *)
Definition needs (r : outcome) : bool := match r with ROk (_ :: _) => true | _ => false end.

Definition set_queue q s := mk (text s) (live s) (used s) (tok s) (ops s) (begun s) q (active s) (done s) (work s) (up s).
Definition set_active a s := mk (text s) (live s) (used s) (tok s) (ops s) (begun s) (queue s) a (done s) (work s) (up s).
Definition set_done d s := mk (text s) (live s) (used s) (tok s) (ops s) (begun s) (queue s) (active s) d (work s) (up s).
Definition set_work w s := mk (text s) (live s) (used s) (tok s) (ops s) (begun s) (queue s) (active s) (done s) w (up s).
Definition set_text t s := mk t (live s) (used s) (tok s) (ops s) (begun s) (queue s) (active s) (done s) (work s) (up s).
Definition set_ops o s := mk (text s) (live s) (used s) (tok s) o (begun s) (queue s) (active s) (done s) (work s) (up s).
Definition set_begun b s := mk (text s) (live s) (used s) (tok s) (ops s) b (queue s) (active s) (done s) (work s) (up s).
Definition set_res l u t s := mk (text s) l u t (ops s) (begun s) (queue s) (active s) (done s) (work s) (up s).
Definition close s := mk (text s) (live s) (used s) (tok s) (ops s) (begun s) [] [] [] 0 false.

(** resolver.hpp:27, 64: asio's resolver is made with a token of its own *)
Definition make (x : nat) (s : state) : state := set_res (upd (live s) x true) (upd (used s) x true) (tok s) s.
(** ~basic_resolver: the token is gone *)
Definition kill (x : nat) (s : state) : state := set_res (upd (live s) x false) (used s) (tok s) s.
(** resolver.cpp:17: the token is replaced *)
Definition cancel (x : nat) (s : state) : state := set_res (live s) (used s) (upd (tok s) x (S (tok s x))) s.

(** the worker's test of the token *)
Definition expired (s : state) (j : job) : bool := negb (live s (j_res j)) || negb (tok s (j_res j) =? j_tok j).


Section code.
(** number of worker threads; asio's default is 1 *)
Variable W : nat.

Definition exec (l : label) (s : state) : option (state * list event) :=
  if negb (up s) then None else
  match l with
  | LText k n => Some (set_text (upd (text s) k (Some n)) s, [])
  | LFree k => Some (set_text (upd (text s) k None) s, [])
  | LMake x => if used s x then None else Some (make x s, [])                               (* resolver.cpp:16 *)
  | LCancel x => if live s x then Some (cancel x s, []) else None                           (* resolver.cpp:17 *)
  | LDestroy x => if live s x then Some (kill x s, []) else None                            (* resolver.hpp:56 *)
  | LOp o x h v =>                                                                          (* resolver.hpp:49-53 *)
      match ops s o with
      | Some _ => None
      | None => if live s x then Some (set_ops (upd (ops s) o (Some (mko x h v false))) s, []) else None
      end
  | LLookup o x h v =>                                                                      (* resolver.hpp:61-64 *)
      match ops s o with
      | Some _ => None
      | None => if used s x then None else Some (set_ops (upd (ops s) o (Some (mko x h v true))) (make x s), [])
      end
  | LDrop o =>                                                                              (* resolver.hpp:40, 67 *)
      match ops s o with
      | Some p => Some (set_ops (upd (ops s) o None) (if o_own p then kill (o_res p) s else s), [])
      | None => None
      end
  | LAwait i o =>                                                                           (* resolver.cpp:36-48 *)
      match ops s o with
      | Some p =>
          if begun s i then None else
          match live s (o_res p), text s (o_host p), text s (o_serv p) with
          | true, Some n, Some v =>
              Some (set_work (S (work s))
                     (set_queue (queue s ++ [mkj i (o_res p) (tok s (o_res p)) n v])
                       (set_begun (upd (begun s) i true) s)),
                    [EBegun i (o_res p) n v])
          | _, _, _ => Some (set_begun (upd (begun s) i true) s, [EUb i])
          end
      | None => None
      end
  | LSignal i => if begun s i then Some (s, []) else None       (* no slot: async_resolve does not look at it *)
  | LBegin =>
      match queue s with
      | j :: q =>
          if length (active s) <? W then
            if expired s j then Some (set_done (done s ++ [(j_id j, RAborted)]) (set_queue q s), [])
            else Some (set_active (active s ++ [j]) (set_queue q s), [EAsk (j_id j) (j_host j) (j_serv j)])
          else None
      | [] => None
      end
  | LReply k a =>
      match nth_error (active s) k with
      | Some j => Some (set_done (done s ++ [(j_id j, transform a)]) (set_active (firstn k (active s) ++ skipn (S k) (active s)) s),
                        [EReply (j_id j) a])
      | None => None
      end
  | LRun oom =>                                                                             (* resolver.cpp:22-32 *)
      match done s with
      | (i, r) :: d =>
          let s' := set_work (pred (work s)) (set_done d s) in
          if oom && needs r then Some (s', [EGone i; EThrow]) else Some (s', [EGot i r])
      | [] => None
      end
  | LReturn => if work s =? 0 then Some (s, [EReturn]) else None
  | LClose =>
      match active s with
      | [] => Some (close s, map EGone (map fst (done s)) ++ map EGone (map j_id (queue s)))
      | _ => None
      end
  end.

Fixpoint run (ls : list label) (s : state) : option (state * list event) :=
  match ls with
  | [] => Some (s, [])
  | l :: ls' =>
      match exec l s with
      | Some (s', es) => match run ls' s' with Some (s'', es') => Some (s'', es ++ es') | None => None end
      | None => None
      end
  end.
End code.
