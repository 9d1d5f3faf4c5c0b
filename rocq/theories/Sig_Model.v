(** * Model of io::signal_set (paths relative to /repo)

    - include/boost/cobalt/io/signal_set.hpp 21-45: the class, its members and wait_op_.
    - src/io/signal_set.cpp 13-52: constructors, cancel, clear, add, remove and the initiation of wait.
    - include/boost/cobalt/op.hpp 26-97: the awaitable; ready does nothing, so that every wait is initiated.
    - include/boost/cobalt/detail/race.hpp 229-243 and 274: a race cancels the losers, waits for them and drops their outcomes.

    asio's signal sets, after their documentation and sources: registrations are kept in the order of signal numbers, each with the
    number of occurrences that found no waiting operation; an occurrence completes all operations that wait on a set in
    which its number is registered; a wait takes the first registration that has an occurrence left; completions are
    posted and run later; removing a registration forgets its occurrences; a destroyed set forgets its registrations and
    aborts what waits.  Sets, operations and signals are numbered, and signals occur one at a time.
    Not modelled: flags of add (the wrapper passes none), async-signal-safety, failures of sigaction other than the rejection of
    a number, programs that install their own handlers, fork. *)
From Coq Require Import List Bool Arith Lia.
Import ListNotations.

(** signal_set.hpp:33: op<error_code, int>: a signal number or operation_aborted *)
Inductive outcome := OSig (n : nat) | OAborted.

Inductive event :=
| EMade (x : nat)                          (** a constructor returns *)
| EThrown                                  (** ... or throws *)
| EOk | EInvalid                           (** result of add, remove, clear or cancel *)
| EGot (i x : nat) (r : outcome)           (** the coroutine that awaits operation [i] of set [x] gets [r] *)
| ELost (i x : nat) (r : outcome)          (** [i] was the loser of a race, which drops [r] *)
| EDefault (n : nat).                      (** the process handles signal [n] in the default way *)

(** signal_set.hpp:44: signal_set_, as asio keeps it *)
Record sset := mks
  { alive : bool;
    regs : list (nat * nat);               (** registered numbers in order, each with its undelivered occurrences *)
    waits : list nat }.                    (** operations that wait, oldest first *)

Record state := mk
  { count : nat;                           (** number of sets made *)
    sets : nat -> sset;
    posted : list (nat * outcome);         (** posted completions *)
    begun : nat -> option nat;             (** the set of an initiated operation *)
    loser : nat -> bool }.                 (** the operation is the loser of a race *)

Definition none : sset := mks false [] [].
Definition init : state := mk 0 (fun _ => none) [] (fun _ => None) (fun _ => false).

Inductive label :=
| LNew                                     (** signal_set s; *)
| LMake (ns : list nat)                    (** signal_set s = {ns}; *)
| LAdd (x n : nat) | LRemove (x n : nat) | LClear (x : nat) | LCancel (x : nat)
| LDestroy (x : nat)
| LWait (i x : nat)                        (** co_await s.wait() *)
| LStop (i : nat)                          (** the coroutine that awaits [i] is cancelled *)
| LLose (i : nat)                          (** [i] is a child of a race, another child wins *)
| LRaise (n : nat)                         (** signal [n] occurs *)
| LRun (k : nat).                          (** a posted completion runs *)

Definition upd {A} (f : nat -> A) k v : nat -> A := fun n => if Nat.eqb n k then v else f n.

Section code.
(** the numbers that the system rejects: out of range or not catchable *)
Variable bad : nat -> bool.

(** basic_signal_set::add: nothing if registered, else inserted in order *)
Fixpoint insert (n : nat) (l : list (nat * nat)) : list (nat * nat) :=
  match l with
  | [] => [(n, 0)]
  | (m, c) :: l' => if n =? m then l else if n <? m then (n, 0) :: l else (m, c) :: insert n l'
  end.

(** basic_signal_set::remove *)
Definition erase (n : nat) (l : list (nat * nat)) : list (nat * nat) := filter (fun p => negb (fst p =? n)) l.

(** async_wait: the first registration with an undelivered occurrence *)
Fixpoint take (l : list (nat * nat)) : option (nat * list (nat * nat)) :=
  match l with
  | [] => None
  | (m, 0) :: l' => match take l' with Some (n, l'') => Some (n, (m, 0) :: l'') | None => None end
  | (m, S c) :: l' => Some (m, (m, c) :: l')
  end.

Definition has (n : nat) (t : sset) : bool := existsb (fun p => fst p =? n) (regs t).

(** an occurrence that no operation waits for *)
Definition bump (n : nat) (l : list (nat * nat)) : list (nat * nat) :=
  map (fun p => if fst p =? n then (fst p, S (snd p)) else p) l.

Definition hit (n : nat) (t : sset) : sset :=
  if has n t then match waits t with [] => mks (alive t) (bump n (regs t)) [] | _ => mks (alive t) (regs t) [] end
  else t.
Definition woken (n : nat) (t : sset) : list (nat * outcome) :=
  if has n t then map (fun i => (i, OSig n)) (waits t) else [].

(** signal_set.cpp:14-19: add(i).value() throws at the first rejected number *)
Fixpoint adds (ns : list nat) (l : list (nat * nat)) : option (list (nat * nat)) :=
  match ns with
  | [] => Some l
  | n :: ns' => if bad n then None else adds ns' (insert n l)
  end.

Definition with_set (s : state) x t := mk (count s) (upd (sets s) x t) (posted s) (begun s) (loser s).
Definition post (s : state) l := mk (count s) (sets s) (posted s ++ l) (begun s) (loser s).
Definition make (s : state) l := mk (S (count s)) (upd (sets s) (count s) (mks true l [])) (posted s) (begun s) (loser s).

(** the cancellation slot of the operation: aborts it if it still waits *)
Definition stop (s : state) (i : nat) : state :=
  match begun s i with
  | None => s
  | Some x =>
      let t := sets s x in
      if existsb (Nat.eqb i) (waits t)
      then post (with_set s x (mks (alive t) (regs t) (filter (fun j => negb (j =? i)) (waits t)))) [(i, OAborted)]
      else s
  end.

(** signal_set.cpp:21-26: cancel *)
Definition cancel (s : state) (x : nat) : state :=
  let t := sets s x in
  post (with_set s x (mks (alive t) (regs t) [])) (map (fun i => (i, OAborted)) (waits t)).

Definition exec (l : label) (s : state) : option (state * list event) :=
  match l with
  | LNew => Some (make s [], [EMade (count s)])                                              (* signal_set.cpp:13 *)
  | LMake ns => match adds ns [] with                                                        (* signal_set.cpp:14-19 *)
                | Some l => Some (make s l, [EMade (count s)])
                | None => Some (s, [EThrown])
                end
  | LAdd x n =>                                                                              (* signal_set.cpp:35-40 *)
      let t := sets s x in
      if alive t then
        if bad n then Some (s, [EInvalid])
        else Some (with_set s x (mks true (insert n (regs t)) (waits t)), [EOk])
      else None
  | LRemove x n =>                                                                           (* signal_set.cpp:42-47 *)
      let t := sets s x in
      if alive t then Some (with_set s x (mks true (erase n (regs t)) (waits t)), [EOk]) else None
  | LClear x =>                                                                              (* signal_set.cpp:28-33 *)
      let t := sets s x in
      if alive t then Some (with_set s x (mks true [] (waits t)), [EOk]) else None
  | LCancel x =>                                                                             (* signal_set.cpp:21-26 *)
      if alive (sets s x) then Some (cancel s x, [EOk]) else None
  | LDestroy x =>                                                                            (* signal_set.hpp:44 *)
      if alive (sets s x) then Some (with_set (cancel s x) x none, []) else None
  | LWait i x =>                                                                             (* signal_set.cpp:49-52 *)
      let t := sets s x in
      if alive t then
        match begun s i with
        | Some _ => None
        | None =>
            let s := mk (count s) (sets s) (posted s) (upd (begun s) i (Some x)) (loser s) in
            match take (regs t) with
            | Some (n, l) => Some (post (with_set s x (mks true l (waits t))) [(i, OSig n)], [])
            | None => Some (with_set s x (mks true (regs t) (waits t ++ [i])), [])
            end
        end
      else None
  | LStop i => match begun s i with Some _ => Some (stop s i, []) | None => None end
  | LLose i =>                                                                               (* race.hpp:229-243 *)
      match begun s i with
      | Some _ => let s := stop s i in
                  Some (mk (count s) (sets s) (posted s) (begun s) (upd (loser s) i true), [])
      | None => None
      end
  | LRaise n =>
      let ids := seq 0 (count s) in
      Some (mk (count s) (fun x => hit n (sets s x))
               (posted s ++ flat_map (fun x => woken n (sets s x)) ids) (begun s) (loser s),
            if existsb (fun x => has n (sets s x)) ids then [] else [EDefault n])
  | LRun k =>
      match nth_error (posted s) k with
      | Some (i, r) =>
          let x := match begun s i with Some x => x | None => 0 end in
          Some (mk (count s) (sets s) (firstn k (posted s) ++ skipn (S k) (posted s)) (begun s) (loser s),
                [if loser s i then ELost i x r else EGot i x r])                             (* race.hpp:274 *)
      | None => None
      end
  end.

(** a history: the labels, the events of each, the state reached *)
Fixpoint run (ls : list label) (s : state) : option (state * list event) :=
  match ls with
  | [] => Some (s, [])
  | l :: ls' =>
      match exec l s with
      | Some (s', es) => match run ls' s' with Some (s'', es') => Some (s'', es ++ es') | None => None end
      | None => None
      end
  end.
End code.
