(** * Model of wait_group
    /repo/include/boost/cobalt/wait_group.hpp lines 13-99 and
    /repo/include/boost/cobalt/detail/wait_group.hpp lines 21-123.

    A promise in the group is an identity with a state.  Its coroutine finishes
    at any time, with or without an exception.

    race over the list (wait_one) is what detail/race.hpp 379-690 does over
    awaited promises (the combinator itself is modelled in Comb_Model): it takes
    the result of exactly one promise that is done, any one of those that are
    done when it begins (the order is shuffled, detail/race.hpp 470), otherwise the
    first that gets done; the others are interrupted and left alone.  gather over
    the list (wait) takes all results and throws none of them.

    Simplifications: one coroutine waits on the group at a time; a pending wait
    is neither cancelled nor destroyed; promises are pushed with their coroutine
    attached and not moved from. *)
From Coq Require Import List Bool Arith Lia.
Import ListNotations.

Definition pid := nat.
Definition ctype := nat.
Definition ct_none : ctype := 0.
Definition ct_all : ctype := 7.

(** detail/promise.hpp 71-119: done, exception, result_taken *)
Inductive pstate := Fresh | Running | Done (ok : bool) (taken : bool).

Inductive wait := NoWait | WOne (snap : list pid) | WAll (snap : list pid).

Record state := mk
  { members : list pid;          (** waitables_, wait_group.hpp:71 *)
    st : pid -> pstate;
    pend : wait }.

(** wait_group.hpp:16-18, 72, 77-80: the two cancellation types of the constructor *)
Record config := mkc { ct_normal : ctype; ct_except : ctype }.

Inductive event :=
| EPush (p : pid)
| EFinish (p : pid) (ok : bool)
| ECancel (p : pid) (ct : ctype)           (** the coroutine of p gets a signal *)
| EOneBegin
| EOne (r : option (pid * bool)) (removed : list pid)   (** wait_one returns (true, or None if empty) or throws p's exception (false) *)
| EAllBegin (snap : list pid)
| EAll (removed : list pid)                (** wait returns *)
| EReap (removed : list pid)
| EExit (ep : bool).                       (** await_exit was called *)

Inductive label :=
| LPush (p : pid) (already : option bool)  (** already: p has finished before *)
| LFinish (p : pid) (ok : bool)
| LCancel (ct : ctype)
| LWaitOne (choice : nat)
| LWait
| LReap
| LExit (ep : bool).

Definition upd (f : pid -> pstate) p v : pid -> pstate := fun q => if q =? p then v else f q.
Definition isdone (x : pstate) : bool := match x with Done _ _ => true | _ => false end.
Definition isrun (x : pstate) : bool := match x with Running => true | _ => false end.
Definition take (x : pstate) : pstate := match x with Done ok _ => Done ok true | y => y end.
Definition okof (x : pstate) : bool := match x with Done ok _ => ok | _ => false end.

(** promise.hpp:112-118  promise::cancel: only if not done *)
Definition cancel_all (s : state) (ct : ctype) : list event :=
  map (fun p => ECancel p ct) (filter (fun p => isrun (st s p)) (members s)).

(** std::list::erase(std::next(begin, idx)) *)
Fixpoint erase_nth {A} (i : nat) (l : list A) : list A :=
  match l, i with
  | [], _ => []
  | _ :: r, 0 => r
  | x :: r, S i => x :: erase_nth i r
  end.

Fixpoint index_of (p : pid) (l : list pid) : nat :=
  match l with [] => 0 | q :: r => if q =? p then 0 else S (index_of p r) end.

Definition opt_list {A} (o : option A) : list A := match o with Some x => [x] | None => [] end.

(** detail/wait_group.hpp:47-54  race_wrapper::awaitable_type::await_resume.
    The result of p is taken; an exception leaves before the erase.  Destroying
    the promise of a running coroutine would cancel it (promise.hpp:62-66). *)
Definition one_done (s : state) (i : nat) (p : pid) : state * list event :=
  let st' := upd (st s) p (take (st s p)) in
  if okof (st s p) then
    (mk (erase_nth i (members s)) st' NoWait, [EOne (Some (p, true)) (opt_list (nth_error (members s) i))])
  else (mk (members s) st' NoWait, [EOne (Some (p, false)) []]).

(** detail/wait_group.hpp:99-106  gather_wrapper::awaitable_type::await_resume:
    everything is erased; ~promise (promise.hpp:62-66) cancels what still runs. *)
Definition all_done (s : state) : state * list event :=
  (mk [] (st s) NoWait, EAll (members s) :: cancel_all s ct_all).

(** Beginning a gather takes the results of what is done already. *)
Definition take_all (ps : list pid) (f : pid -> pstate) : pid -> pstate :=
  fun q => if existsb (fun p => p =? q) ps then take (f q) else f q.

(** detail/wait_group.hpp:83-121; wait_group.hpp:50-58 *)
Definition begin_wait (s : state) : state * list event :=
  match members s with
  | [] => (s, [EAllBegin []; EAll []])
  | ms =>
      let s1 := mk ms (take_all ms (st s)) (WAll ms) in
      if forallb (fun p => isdone (st s p)) ms
      then let '(s2, es) := all_done s1 in (s2, EAllBegin ms :: es)
      else (s1, [EAllBegin ms])
  end.

Definition idle (s : state) : bool := match pend s with NoWait => true | _ => false end.

(** None: the label is not possible in this state. *)
Definition step (c : config) (s : state) (l : label) : option (state * list event) :=
  match l with
  | LPush p already =>                          (* wait_group.hpp:98-99 *)
      match st s p with
      | Fresh =>
          let v := match already with Some ok => Done ok false | None => Running end in
          Some (mk (members s ++ [p]) (upd (st s) p v) (pend s),
                match already with Some ok => [EFinish p ok] | None => [] end ++ [EPush p])
      | _ => None
      end
  | LFinish p ok =>
      match st s p with
      | Running =>
          let s1 := mk (members s) (upd (st s) p (Done ok false)) (pend s) in
          match pend s with
          | NoWait => Some (s1, [EFinish p ok])
          | WOne snap =>
              if existsb (fun q => q =? p) snap
              then let '(s2, es) := one_done s1 (index_of p snap) p in Some (s2, EFinish p ok :: es)
              else Some (s1, [EFinish p ok])
          | WAll snap =>
              if existsb (fun q => q =? p) snap then
                let s2 := mk (members s) (upd (st s) p (Done ok true)) (pend s) in
                if forallb (fun q => isdone (st s2 q)) snap
                then let '(s3, es) := all_done s2 in Some (s3, EFinish p ok :: es)
                else Some (s2, [EFinish p ok])
              else Some (s1, [EFinish p ok])
          end
      | _ => None
      end
  | LCancel ct => Some (s, cancel_all s ct)     (* wait_group.hpp:91-96 *)
  | LWaitOne choice =>                          (* wait_group.hpp:45-48, detail 30-71 *)
      if idle s then
        match members s with
        | [] => Some (s, [EOneBegin; EOne None []])
        | ms =>
            match filter (fun p => isdone (st s p)) ms with
            | [] => Some (mk ms (st s) (WOne ms), [EOneBegin])
            | ds => match nth_error ds choice with
                    | Some p => let '(s1, es) := one_done s (index_of p ms) p in Some (s1, EOneBegin :: es)
                    | None => None
                    end
            end
        end
      else None
  | LWait => if idle s then Some (begin_wait s) else None
  | LReap =>                                    (* wait_group.hpp:85-89; promise.hpp:120-129: ready() and operator bool *)
      let gone p := match st s p with Done _ false => true | _ => false end in
      Some (mk (filter (fun p => negb (gone p)) (members s)) (st s) (pend s),
            [EReap (filter gone (members s))])
  | LExit ep =>                                 (* wait_group.hpp:60-67 *)
      if idle s then
        let ct := if ep then ct_except c else ct_normal c in
        let cs := if ct =? ct_none then [] else cancel_all s ct in
        let '(s1, es) := begin_wait s in Some (s1, EExit ep :: cs ++ es)
      else None
  end.

Definition init : state := mk [] (fun _ => Fresh) NoWait.

Fixpoint run (c : config) (s : state) (ls : list label) : option (state * list event) :=
  match ls with
  | [] => Some (s, [])
  | l :: r => match step c s l with
              | Some (s1, es) => match run c s1 r with
                                 | Some (s2, es') => Some (s2, es ++ es')
                                 | None => None
                                 end
              | None => None
              end
  end.
