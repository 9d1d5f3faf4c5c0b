(** * Model of socket::connect (paths relative to /repo)

    - include/boost/cobalt/io/socket.hpp 105-121: connect to one endpoint; 124-139: connect to a sequence of endpoints; 143: adopt_endpoint_.
    - src/io/socket.cpp 20-39: open, close, cancel; 205-217: the initiations of connect.
    - src/io/stream_socket.cpp 34-48, datagram_socket.cpp 32-47, seq_packet_socket.cpp 33-50: adopt_endpoint_ (Sock_Model.adopt).

    asio, after its documentation and sources: basic_socket::async_connect opens a closed socket with the protocol of the endpoint and
    completes with the error if that fails; the range version of async_connect copies the sequence, closes the socket before each attempt,
    connects to the next endpoint, and looks after each attempt, in this order, whether the socket is open (else operation_aborted),
    whether the attempt succeeded, whether it has been cancelled (operation_aborted), and takes the next endpoint; it passes
    terminal and partial cancellation on to the attempt and not total; an empty sequence gives not_found.
    One socket, one connect at a time, any number after another.  Completions run through the context: the shortcut of the immediate executor
    (C29) is not modelled, nor are other operations on the socket, moving it, errors of close, and failure to allocate. *)
From Coq Require Import List Bool Arith Lia.
From Verif Require Import Sock_Model Rsv_Model.
Import ListNotations.

Inductive err := Sys (n : nat) | Aborted | NotFound.
(** outcome; the void result of the single connect is written with the endpoint, too *)
Inductive res := COk (e : ep) | CErr (x : err).
(** the cancellation types of asio *)
Inductive ctype := Terminal | Partial | Total | All.

Inductive event :=
| EOpen (d : nat) (p : proto)              (** descriptor [d] is opened *)
| EClose (d : nat)
| EStart (i : nat) (single : bool) (l : list ep)   (** connect number [i] is awaited *)
| EFail (i : nat) (e : ep) (x : err)       (** no descriptor can be opened for the attempt of [e] *)
| ETry (i d : nat) (e : ep)                (** connect number [i] attempts [e] with descriptor [d] *)
| EAnswer (i : nat) (r : option err)       (** the attempt ends; [None]: connected *)
| ECancel (i : nat) | EShut (i : nat) | EStop (i : nat) (c : ctype)   (** cancel(), close(), a signal during connect number [i] *)
| EGot (i : nat) (r : res).                (** the coroutine gets its result *)

(** an open descriptor and what has been done to it (options, bind) *)
Record desc := mkd { d_id : nat; d_proto : proto; d_opts : list nat }.

(** the attempt is with the system, or its completion is posted *)
Inductive phase := Waiting | Posted (r : option err).

(** socket.hpp:107, 126: the operation; [o_idx]: asio's index_; [o_stop]: asio's cancellation state *)
Record oper := mko { o_id : nat; o_single : bool; o_eps : list ep; o_idx : nat; o_stop : bool; o_phase : phase }.

Record state := mk { fd : option desc; fresh : nat; count : nat; op : option oper }.
Definition init : state := mk None 0 0 None.

(** [ok]: the system's answer to an attempt to open, [None]: success *)
Inductive label :=
| LOpen (p : proto) (ok : option nat)      (** s.open(p) *)
| LOption (v : nat)                        (** options, bind *)
| LClose | LCancel                         (** s.close(), s.cancel() *)
| LConnect1 (e : ep) (ok : option nat)     (** co_await s.connect(e) *)
| LConnect (l : list ep) (ok : option nat) (** co_await s.connect(l) *)
| LStop (c : ctype)                        (** the awaiting coroutine is cancelled *)
| LDone (r : option nat)                   (** the system ends the attempt *)
| LRun (ok : option nat).                  (** the posted completion runs *)

Section code.
Variable k : kind.

(** adopt_endpoint_ *)
Definition adopted (e : ep) : ep := E (adopt k (e_proto e)) (e_addr e).

Definition closing (f : option desc) : list event := match f with Some d => [EClose (d_id d)] | None => [] end.

(** basic_socket::async_connect of a closed socket *)
Definition attempt (s : state) (o : oper) (e : ep) (ok : option nat) : state * list event :=
  match ok with
  | None => (mk (Some (mkd (fresh s) (e_proto e) [])) (S (fresh s)) (count s) (Some (mko (o_id o) (o_single o) (o_eps o) (o_idx o) (o_stop o) Waiting)),
             [EOpen (fresh s) (e_proto e); ETry (o_id o) (fresh s) e])
  | Some x => (mk None (fresh s) (count s) (Some (mko (o_id o) (o_single o) (o_eps o) (o_idx o) (o_stop o) (Posted (Some (Sys x))))),
               [EFail (o_id o) e (Sys x)])
  end.

(** the range version: socket_.close(ec); socket_.async_connect(...) *)
Definition next (s : state) (o : oper) (e : ep) (ok : option nat) : state * list event :=
  let '(s', es) := attempt s o e ok in (s', closing (fd s) ++ es).

Definition finish (s : state) (o : oper) (r : res) : state * list event :=
  (mk (fd s) (fresh s) (count s) None, [EGot (o_id o) r]).

(** range_connect_op::process after an attempt *)
Definition process (s : state) (o : oper) (r : option err) (ok : option nat) : state * list event :=
  match nth_error (o_eps o) (o_idx o) with
  | None => finish s o (CErr (match r with Some x => x | None => NotFound end))
  | Some e =>
      match fd s with
      | None => finish s o (CErr Aborted)
      | Some _ =>
          match r with
          | None => finish s o (COk e)
          | Some x =>
              if o_stop o then finish s o (CErr Aborted) else
              match nth_error (o_eps o) (S (o_idx o)) with
              | None => finish s o (CErr x)
              | Some e' => next s (mko (o_id o) (o_single o) (o_eps o) (S (o_idx o)) (o_stop o) (o_phase o)) e' ok
              end
          end
      end
  end.

(** what the completion of the single connect does *)
Definition single (s : state) (o : oper) (r : option err) : state * list event :=
  match r, nth_error (o_eps o) 0 with
  | None, Some e => finish s o (COk e)
  | Some x, _ => finish s o (CErr x)
  | None, None => finish s o (CErr NotFound)
  end.

(** the attempt that is with the system is aborted *)
Definition abort (o : oper) : oper * list event :=
  match o_phase o with
  | Waiting => (mko (o_id o) (o_single o) (o_eps o) (o_idx o) (o_stop o) (Posted (Some Aborted)), [EAnswer (o_id o) (Some Aborted)])
  | Posted _ => (o, [])
  end.

(** asio's filter enable_partial_cancellation; the single connect accepts every type *)
Definition passes (o : oper) (c : ctype) : bool := o_single o || match c with Total => false | _ => true end.

Definition exec (l : label) (s : state) : option (state * list event) :=
  match l with
  | LOpen p ok =>                                                                     (* socket.cpp:20-25 *)
      match fd s, ok with
      | None, None => Some (mk (Some (mkd (fresh s) p [])) (S (fresh s)) (count s) (op s), [EOpen (fresh s) p])
      | _, _ => Some (s, [])
      end
  | LOption v =>
      match fd s with
      | Some d => Some (mk (Some (mkd (d_id d) (d_proto d) (v :: d_opts d))) (fresh s) (count s) (op s), [])
      | None => None
      end
  | LClose =>                                                                         (* socket.cpp:27-32 *)
      match op s with
      | Some o => let '(o', es) := abort o in Some (mk None (fresh s) (count s) (Some o'), EShut (o_id o) :: closing (fd s) ++ es)
      | None => Some (mk None (fresh s) (count s) None, closing (fd s))
      end
  | LCancel =>                                                                        (* socket.cpp:34-39 *)
      match op s with
      | Some o => let '(o', es) := abort o in Some (mk (fd s) (fresh s) (count s) (Some o'), ECancel (o_id o) :: es)
      | None => Some (s, [])
      end
  | LConnect1 e ok =>                                                                 (* socket.cpp:205-209 *)
      match op s with
      | Some _ => None
      | None =>
          let i := count s in
          let o := mko i true [adopted e] 0 false Waiting in
          let s1 := mk (fd s) (fresh s) (S i) (Some o) in
          match fd s with
          | Some d => Some (s1, [EStart i true [e]; ETry i (d_id d) (adopted e)])
          | None => let '(s', es) := attempt s1 o (adopted e) ok in Some (s', EStart i true [e] :: es)
          end
      end
  | LConnect l ok =>                                                                  (* socket.cpp:211-217 *)
      match op s with
      | Some _ => None
      | None =>
          let i := count s in
          let eps := map adopted l in
          let o := mko i false eps 0 false (Posted (Some NotFound)) in
          let s1 := mk (fd s) (fresh s) (S i) (Some o) in
          match eps with
          | [] => Some (s1, [EStart i false l])
          | e :: _ => let '(s', es) := next s1 o e ok in Some (s', EStart i false l :: es)
          end
      end
  | LStop c =>
      match op s with
      | Some o =>
          if passes o c then
            let '(o', es) := abort (mko (o_id o) (o_single o) (o_eps o) (o_idx o) true (o_phase o)) in
            Some (mk (fd s) (fresh s) (count s) (Some o'), EStop (o_id o) c :: es)
          else Some (s, [EStop (o_id o) c])
      | None => None
      end
  | LDone r =>
      match op s with
      | Some o =>
          match o_phase o with
          | Waiting =>
              let r' := match r with None => None | Some x => Some (Sys x) end in
              Some (mk (fd s) (fresh s) (count s) (Some (mko (o_id o) (o_single o) (o_eps o) (o_idx o) (o_stop o) (Posted r'))), [EAnswer (o_id o) r'])
          | Posted _ => None
          end
      | None => None
      end
  | LRun ok =>
      match op s with
      | Some o =>
          match o_phase o with
          | Posted r => Some (if o_single o then single s o r else process s o r ok)
          | Waiting => None
          end
      | None => None
      end
  end.

Fixpoint run (ls : list label) (s : state) : option (state * list event) :=
  match ls with
  | [] => Some (s, [])
  | l :: ls' =>
      match exec l s with
      | Some (s', es) => match run ls' s' with Some (s'', es') => Some (s'', es ++ es') | None => None end
      | None => None
      end
  end.
End code.
