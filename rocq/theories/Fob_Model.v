(** * Model of file objects and their descriptors (paths relative to /repo)

    - include/boost/cobalt/io/file.hpp 26-134 and src/io/file.cpp 22-95 (with BOOST_ASIO_HAS_FILE), 99-189 (without): file.
    - include/boost/cobalt/io/stream_file.hpp 26-56, src/io/stream_file.cpp 18-40, 50-66, 71-93 and 113-120: stream_file.
    - include/boost/cobalt/io/random_access_file.hpp 25-53, src/io/random_access_file.cpp 17-48 and 52-78: random_access_file (the same code).

    With BOOST_ASIO_HAS_FILE the base class has a reference to the member implementation_ of the derived class (file.hpp:122-124,
    stream_file.cpp:18-38), and all functions of file go through it; reading and writing use implementation_ itself
    (stream_file.cpp:50-66).  The move constructor is the default one (stream_file.cpp:40, random_access_file.cpp:39): the
    member is moved, the reference is copied, so that it refers to the member of the object moved from.  Without
    BOOST_ASIO_HAS_FILE the member is in the base class.

    asio, after its documentation: open and assign of an open file give already_open and change nothing; they can fail otherwise,
    and then the file stays closed (open closes what it created, assign leaves the descriptor to its caller); close, release and
    the destructor abort the pending operations; release of a closed file gives -1 without an error.

    Simplifications: a descriptor is a number that is never used again; objects have identities that are not used again;
    completions are delivered at once; contents are in File_Model. *)
From Coq Require Import List Bool Arith Lia.
Import ListNotations.

(** file.hpp:122-131 *)
Inductive config := HasFile | Fallback.

Notation fd := nat (only parsing).
(** how an operation ends (stream_file.cpp:50-66): with data, with operation_aborted, or as the file was not open *)
Inductive outcome := Data | Aborted | Closed.

Inductive event :=
| ECreate (d : fd)              (** the system opened it for the library *)
| EMake (d : fd)                (** the program has got a descriptor of its own *)
| EGive (x : nat) (d : fd)      (** the program hands it to object [x] *)
| EGet (x : nat) (r : option fd)(** the program gets it from release() of [x]; [None]: -1 *)
| EClose (d : fd)
| EOk (x : nat) | EErr (x : nat) | EThrow (x : nat)     (** the result of a function of [x] *)
| EAct (x : nat) (r : option fd)(** is_open, native_handle, size, resize, sync of [x] saw descriptor [r] *)
| EMove (x y : nat)
| EStart (i x : nat) (d : fd)   (** operation [i] begins on [x], with descriptor [d] *)
| EEnd (i : nat) (o : outcome)
| EUb.                          (** a destroyed object is used *)

(** [own]: the descriptor in implementation_ or file_; [ref]: the object that file::file_ refers to *)
Record obj := mko { own : option fd; ref : nat }.

(** all objects and descriptors of a program *)
Record state := mk
  { objs : nat -> option obj;
    used : list nat;              (** identities of objects *)
    outs : list fd;               (** descriptors in the hands of the program *)
    fresh : fd;
    pend : list (nat * nat);      (** operation, object *)
    nops : nat;
    ub : bool }.

(** no object and no descriptor *)
Definition init : state := mk (fun _ => None) [] [] 0 [] 0 false.

(** plumbing, no code: update of a function, membership, removal *)
Definition upd {A} (f : nat -> A) x v : nat -> A := fun y => if y =? x then v else f y.
Definition mem (x : nat) (l : list nat) : bool := existsb (Nat.eqb x) l.
Definition remove_fd (d : fd) (l : list fd) : list fd := filter (fun e => negb (e =? d)) l.

(** what can happen: the public functions of file.hpp:96-120, constructors and destructors of stream_file.hpp:26-56 and random_access_file.hpp:25-53 *)
Inductive label :=
| LMake                                   (** the program opens a descriptor itself *)
| LShut (d : fd)                          (** ... and closes it *)
| LNew (x : nat)                          (** stream_file x; *)
| LNewPath (x : nat) (sys att : bool)     (** stream_file x(path, flags); does the system open it, does asio accept it *)
| LNewFd (x : nat) (d : fd) (att : bool)  (** stream_file x(fd); *)
| LOpen (x : nat) (sys att : bool)
| LAssign (x : nat) (d : fd) (att : bool)
| LRelease (x : nat)
| LClose (x : nat)
| LCancel (x : nat)
| LQuery (x : nat)                        (** is_open, native_handle, size, resize, sync_all, sync_data *)
| LMove (x y : nat)                       (** stream_file y(std::move(x)); *)
| LDestroy (x : nat)
| LRead (x : nat)                         (** read_some or write_some is awaited *)
| LDone (i : nat).                        (** the system completes operation [i] *)

Section code.
Variable c : config.

(** file_ of object [x]: file.hpp:122-124, 126-129 *)
Definition target (x : nat) (o : obj) : nat := match c with HasFile => ref o | Fallback => x end.

(** plumbing: asio's object in [x] has another descriptor *)
Definition set_own (x : nat) (v : option fd) (s : state) : state :=
  match objs s x with
  | Some o => mk (upd (objs s) x (Some (mko v (ref o)))) (used s) (outs s) (fresh s) (pend s) (nops s) (ub s)
  | None => s
  end.

(** the pending operations of [t] are aborted *)
Definition abort (t : nat) (s : state) : state * list event :=
  (mk (objs s) (used s) (outs s) (fresh s) (filter (fun p => negb (snd p =? t)) (pend s)) (nops s) (ub s),
   map (fun p => EEnd (fst p) Aborted) (filter (fun p => snd p =? t) (pend s))).

(** close() of asio's object in [t] *)
Definition shut (t : nat) (s : state) : state * list event :=
  match objs s t with
  | Some (mko (Some d) _) => let '(s1, e) := abort t s in (set_own t None s1, e ++ [EClose d])
  | _ => (s, [])
  end.

(** plumbing: a descriptor is used up, the program's descriptors change, an object is made (stream_file.cpp:18-38, 71-93), a
    reference is used whose object is destroyed *)
Definition next_fd (s : state) : state := mk (objs s) (used s) (outs s) (S (fresh s)) (pend s) (nops s) (ub s).
Definition set_outs (l : list fd) (s : state) : state := mk (objs s) (used s) l (fresh s) (pend s) (nops s) (ub s).
Definition add (x : nat) (o : obj) (s : state) : state :=
  mk (upd (objs s) x (Some o)) (x :: used s) (outs s) (fresh s) (pend s) (nops s) (ub s).
Definition ruin (s : state) : state * list event := (mk (objs s) (used s) (outs s) (fresh s) (pend s) (nops s) true, [EUb]).

(** file::open (file.cpp:40-45, 127-135) on asio's object in [t], called on [x] *)
Definition open (x t : nat) (sys att : bool) (s : state) : state * list event :=
  match objs s t with
  | None => ruin s
  | Some o =>
      match c with
      | HasFile =>                       (* asio looks whether it is open, opens, and closes again if it does not accept *)
          match own o, sys, att with
          | None, true, true => (set_own t (Some (fresh s)) (next_fd s), [ECreate (fresh s); EOk x])
          | None, true, false => (next_fd s, [ECreate (fresh s); EClose (fresh s); EErr x])
          | _, _, _ => (s, [EErr x])
          end
      | Fallback =>                      (* ::open, then assign *)
          if sys then
            match own o, att with
            | None, true => (set_own t (Some (fresh s)) (next_fd s), [ECreate (fresh s); EOk x])
            | _, _ => (next_fd s, [ECreate (fresh s); EErr x])
            end
          else (s, [EErr x])
      end
  end.

(** file::assign (file.cpp:22-27, 102-107) *)
Definition assign (x t : nat) (d : fd) (att : bool) (s : state) : state * list event :=
  match objs s t with
  | None => ruin s
  | Some o =>
      match own o, att with
      | None, true => (set_own t (Some d) (set_outs (remove_fd d (outs s)) s), [EGive x d; EOk x])
      | _, _ => (s, [EErr x])
      end
  end.

(** file::release (file.cpp:54-59, 142-147) *)
Definition release (x t : nat) (s : state) : state * list event :=
  match objs s t with
  | None => ruin s
  | Some o =>
      match own o with
      | Some d => let '(s1, e) := abort t s in (set_outs (d :: outs s1) (set_own t None s1), e ++ [EGet x (Some d)])
      | None => (s, [EGet x None])
      end
  end.

(** a label with None is not possible in this state *)
Definition exec (l : label) (s : state) : option (state * list event) :=
  match l with
  | LMake => Some (set_outs (fresh s :: outs s) (next_fd s), [EMake (fresh s)])
  | LShut d => if mem d (outs s) then Some (set_outs (remove_fd d (outs s)) s, [EClose d]) else None
  | LNew x => if mem x (used s) then None else Some (add x (mko None x) s, [EOk x])
  | LNewPath x sys att =>
      if mem x (used s) then None else
      match c, sys, att with
      | _, true, true => Some (add x (mko (Some (fresh s)) x) (next_fd s), [ECreate (fresh s); EOk x])
      | HasFile, true, false => Some (next_fd s, [ECreate (fresh s); EClose (fresh s); EThrow x])
      | Fallback, true, false => Some (next_fd s, [ECreate (fresh s); EThrow x])    (* stream_file.cpp:75-80: open(...).value() *)
      | _, false, _ => Some (s, [EThrow x])
      end
  | LNewFd x d att =>
      if mem x (used s) || negb (mem d (outs s)) then None else
      if att then Some (add x (mko (Some d) x) (set_outs (remove_fd d (outs s)) s), [EGive x d; EOk x]) else Some (s, [EThrow x])
  | LOpen x sys att => match objs s x with Some o => Some (open x (target x o) sys att s) | None => None end
  | LAssign x d att =>
      match objs s x with Some o => if mem d (outs s) then Some (assign x (target x o) d att s) else None | None => None end
  | LRelease x => match objs s x with Some o => Some (release x (target x o) s) | None => None end
  | LClose x =>                                                                        (* file.cpp:90-95, 184-189 *)
      match objs s x with
      | Some o => let t := target x o in
          match objs s t with
          | Some _ => let '(s1, e) := shut t s in Some (s1, e ++ [EOk x])
          | None => Some (ruin s)
          end
      | None => None
      end
  | LCancel x =>                                                                       (* file.cpp:28-33, 108-111 *)
      match objs s x with
      | Some o => let t := target x o in
          match objs s t with
          | Some _ =>
              match c with
              | HasFile => let '(s1, e) := abort t s in Some (s1, e ++ [EOk x])
              | Fallback => Some (s, [EOk x])
              end
          | None => Some (ruin s)
          end
      | None => None
      end
  | LQuery x =>
      match objs s x with
      | Some o => match objs s (target x o) with Some o' => Some (s, [EAct x (own o')]) | None => Some (ruin s) end
      | None => None
      end
  | LMove x y =>
      if mem y (used s) then None else
      match objs s x with
      | Some o =>
          Some (mk (upd (upd (objs s) x (Some (mko None (ref o)))) y (Some (mko (own o) (match c with HasFile => ref o | Fallback => y end))))
                   (y :: used s) (outs s) (fresh s) (map (fun p => if snd p =? x then (fst p, y) else p) (pend s)) (nops s) (ub s),
                [EMove x y])
      | None => None
      end
  | LDestroy x =>
      match objs s x with
      | Some _ => let '(s1, e) := shut x s in
          Some (mk (upd (objs s1) x None) (used s1) (outs s1) (fresh s1) (pend s1) (nops s1) (ub s1), e)
      | None => None
      end
  | LRead x =>                                                                         (* stream_file.cpp:50-66, 113-120 *)
      match objs s x with
      | Some (mko (Some d) _) =>
          Some (mk (objs s) (used s) (outs s) (fresh s) (pend s ++ [(nops s, x)]) (S (nops s)) (ub s), [EStart (nops s) x d])
      | Some (mko None _) =>
          Some (mk (objs s) (used s) (outs s) (fresh s) (pend s) (S (nops s)) (ub s), [EEnd (nops s) Closed])
      | None => None
      end
  | LDone i =>
      if existsb (fun p => fst p =? i) (pend s)
      then Some (mk (objs s) (used s) (outs s) (fresh s) (filter (fun p => negb (fst p =? i)) (pend s)) (nops s) (ub s), [EEnd i Data])
      else None
  end.

(** nothing is said after a destroyed object was used *)
Definition step (l : label) (s : state) : option (state * list event) := if ub s then None else exec l s.

Fixpoint run (ls : list label) (s : state) : option (state * list event) :=
  match ls with
  | [] => Some (s, [])
  | l :: ls' =>
      match step l s with
      | Some (s', es) => match run ls' s' with Some (s'', es') => Some (s'', es ++ es') | None => None end
      | None => None
      end
  end.
End code.
