(** * Model of several coroutines that wait for the same promises
    (paths relative to /repo/include/boost/cobalt)

    - detail/promise.hpp 187-219, 252-259: the awaitable of a promise;
      375-400: the end of its coroutine; 158-162 and promise.hpp 62-66: the promise is destroyed.
    - detail/gather.hpp 293-413, detail/race.hpp 473-486, 507-662: gather and race over a
      range of promises (lvalues, so that race interrupts).
    - detail/wait_group.hpp 41-54, 93-106: wait_one and wait.
    - detail/fork.hpp 51-56, 147-163: helpers of combinators.

    A coroutine awaits a promise, gathers, races, or waits on one wait_group.
    Each awaited promise belongs to a helper; a plain co_await is one helper.

    Simplifications.  One thread.  What a coroutine does after it was resumed is a
    later step (the awaitable's own await_resume is part of the step).  Promises
    are pushed to the group before they are awaited.  A waiting coroutine owns no
    promise of the model.  Cancellation signals are in Cfw_Model. *)
From Coq Require Import List Bool Arith Lia.
Import ListNotations.

Inductive res :=
| ROk              (** the promise's coroutine has returned *)
| RErr             (** ... has thrown *)
| RAlready         (** error: already awaited, detail/promise.hpp:198-202 *)
| RDetached        (** the awaitable was interrupted, detail/promise.hpp:256 *)
| RUnfinished.     (** get_result of a promise that is not done, detail/promise.hpp:93-103: success for void, otherwise
                       an empty optional is read (48-53) *)

Inductive hst := HWait | HEnd (r : res) | HLost.   (** HLost: the helper was destroyed *)
Record helper := mkh { hp : nat; hi : nat; hs : hst }.  (** promise, index in the range *)
Inductive kind := KDirect | KGather | KRace.
(** [g]: wait() or wait_one() of the wait_group *)
Inductive cst := Idle | Gone | Busy (k : kind) (g : bool) (l : list helper).

Record state := mk
  { done : nat -> option bool;            (** promise: has returned (true) or thrown *)
    awr : nat -> option (nat * nat);      (** awaited_from: coroutine, position of the helper *)
    dead : nat -> bool;                   (** the promise object is destroyed *)
    group : list nat;                     (** waitables_ *)
    co : nat -> cst }.

Inductive event :=
| EGot (c : nat) (k : kind) (l : list helper)   (** [c] is resumed with these results *)
| EGone (c : nat)                               (** [c] is destroyed while it waits *)
| EUb.

Definition upd {A} (f : nat -> A) k v : nat -> A := fun n => if Nat.eqb n k then v else f n.
Definition set_co c v s := mk (done s) (awr s) (dead s) (group s) (upd (co s) c v).
Definition set_awr p v s := mk (done s) (upd (awr s) p v) (dead s) (group s) (co s).
Definition set_done p v s := mk (upd (done s) p v) (awr s) (dead s) (group s) (co s).
Definition set_dead p s := mk (done s) (awr s) (upd (dead s) p true) (group s) (co s).
Definition set_group l s := mk (done s) (awr s) (dead s) l (co s).

Fixpoint set_nth (i : nat) (x : hst) (l : list helper) : list helper :=
  match l, i with
  | [], _ => []
  | h :: r, 0 => mkh (hp h) (hi h) x :: r
  | h :: r, S i => h :: set_nth i x r
  end.

Definition is_wait (h : helper) := match hs h with HWait => true | _ => false end.
Definition is_lost (h : helper) := match hs h with HLost => true | _ => false end.

(** ~promise: awaited_from (detail/promise.hpp:111) destroys the helper; the last
    helper of a combinator destroys the coroutine (detail/fork.hpp:52-56). *)
Definition destroy (p : nat) (s : state) : state * list event :=
  let s1 := set_dead p (set_awr p None s) in
  match awr s p with
  | Some (c, i) =>
      match co s c with
      | Busy k g l =>
          let l1 := set_nth i HLost l in
          if existsb is_wait l1 then (set_co c (Busy k g l1) s1, [])
          else (set_co c Gone s1, [EGone c])
      | _ => (s1, [])
      end
  | None => (s1, [])
  end.

Fixpoint destroy_all (ps : list nat) (s : state) : state * list event :=
  match ps with
  | [] => (s, [])
  | p :: r => let (s1, e1) := destroy p s in let (s2, e2) := destroy_all r s1 in (s2, e1 ++ e2)
  end.

(** The index of a race is that of the first helper with a result of its own. *)
Definition winner (l : list helper) : option helper :=
  find (fun h => match hs h with HEnd RDetached | HWait | HLost => false | HEnd _ => true end) l.

(** await_resume of the combinator and of the group's awaitable *)
Definition finish (c : nat) (k : kind) (g : bool) (l : list helper) (s : state) : state * list event :=
  let s1 := set_co c Idle s in
  match k with
  | KDirect => (s1, [EGot c k l])
  | KGather =>
      (* detail/gather.hpp:400: a helper without a result *)
      let ub := if existsb is_lost l then [EUb] else [] in
      if g then
        (* detail/wait_group.hpp:101-105 *)
        let (s2, e) := destroy_all (group s) (set_group [] s1) in (s2, EGot c k l :: ub ++ e)
      else (s1, EGot c k l :: ub)
  | KRace =>
      if g then
        (* detail/wait_group.hpp:49-53 *)
        match group s, winner l with
        | [], _ => (s1, [EGot c k l])
        | _ :: _, Some h =>
            match hs h with
            | HEnd ROk | HEnd RUnfinished =>
                match nth_error (group s) (hi h) with
                | Some p =>
                    let (s2, e) := destroy p (set_group (firstn (hi h) (group s) ++ skipn (S (hi h)) (group s)) s1) in
                    (s2, EGot c k l :: e)
                | None => (s1, [EGot c k l; EUb])     (* std::next past the end *)
                end
            | _ => (s1, [EGot c k l])                 (* throws, line 51 *)
            end
        | _ :: _, None => (s1, [EGot c k l])
        end
      else (s1, [EGot c k l])
  end.

(** The waiting helpers of a race are interrupted (detail/race.hpp:480-486).  Each is the
    awaiter of its promise, so that each is resumed with RDetached. *)
Definition forget (l : list helper) (s : state) : state :=
  fold_right (fun h s => if is_wait h then set_awr (hp h) None s else s) s l.
Definition detach (h : helper) : helper := if is_wait h then mkh (hp h) (hi h) (HEnd RDetached) else h.

(** Helper [i] of [c] is resumed with [r]. *)
Definition deliver (c i : nat) (r : res) (s : state) : state * list event :=
  match co s c with
  | Busy k g l =>
      let l1 := set_nth i (HEnd r) l in
      match k with
      | KRace =>
          let ub := if existsb is_lost l1 then [EUb] else [] in   (* working holds a destroyed awaitable *)
          let (s1, e) := finish c k g (map detach l1) (forget l1 s) in (s1, ub ++ e)
      | _ => if existsb is_wait l1 then (set_co c (Busy k g l1) s, []) else finish c k g l1 s
      end
  | _ => (s, [EUb])
  end.

(** interrupt_await of the awaitable of promise [p] (detail/promise.hpp:252-259), used by
    helper [j] of [c]: it resumes whoever awaits the promise. *)
Definition interrupt (c j p : nat) (s : state) : state * list event :=
  match awr s p with
  | None => (s, [])
  | Some (c', i) =>
      let s1 := set_awr p None s in
      if Nat.eqb c c' && Nat.eqb j i then deliver c j RDetached s1 else deliver c' i RUnfinished s1
  end.

Definition result_of (b : bool) : res := if b then ROk else RErr.

(** gather (and a plain co_await): starts the helpers in order (detail/gather.hpp:304-349, 367-372) *)
Fixpoint start_gather (c pos : nat) (l : list (nat * nat)) (s : state) : state * list helper :=
  match l with
  | [] => (s, [])
  | (i, p) :: r =>
      match done s p, awr s p with
      | Some b, _ => let (s1, t) := start_gather c (S pos) r s in (s1, mkh p i (HEnd (result_of b)) :: t)
      | None, Some _ => let (s1, t) := start_gather c (S pos) r s in (s1, mkh p i (HEnd RAlready) :: t)
      | None, None => let (s1, t) := start_gather c (S pos) r (set_awr p (Some (c, pos)) s) in (s1, mkh p i HWait :: t)
      end
  end.

Definition gather (c : nat) (k : kind) (g : bool) (l : list (nat * nat)) (s : state) : state * list event :=
  let (s1, t) := start_gather c 0 l s in
  if existsb is_wait t then (set_co c (Busy k g t) s1, []) else finish c k g t s1.

(** race: starts helpers until one has a result (detail/race.hpp:608-651).  [acc]: the helpers so far.
    When helper [i] has its result it runs cancel_all (lines 473-486, 591), which interrupts the
    helpers in the order of their indices, itself too: first those with a smaller index, then the
    awaitable of its own promise [p], then the others; then the race is over. *)
Definition stop (c : nat) (g : bool) (acc : list helper) (i p : nat) (x : res) (s : state) : state * list event :=
  let low h := hi h <? i in
  let acc1 := map (fun h => if low h then detach h else h) acc in
  let s1 := set_co c (Busy KRace g (acc1 ++ [mkh p i HWait])) (forget (filter low acc) s) in
  let (s2, e2) :=
    match awr s1 p with
    | Some (c', j) => deliver c' j RUnfinished (set_awr p None s1)
    | None => (s1, [])
    end in
  match co s2 c with
  | Busy _ _ l2 =>
      let acc2 := firstn (length acc) l2 in
      let ub := if existsb is_lost acc2 then [EUb] else [] in
      let (s3, e3) := finish c KRace g (map detach acc2 ++ [mkh p i (HEnd x)]) (forget acc2 s2) in
      (s3, e2 ++ ub ++ e3)
  | _ => (s2, e2 ++ [EUb])
  end.

Fixpoint start_race (c : nat) (g : bool) (acc : list helper) (l : list (nat * nat)) (s : state) : state * list event :=
  match l with
  | [] => (set_co c (Busy KRace g acc) s, [])
  | (i, p) :: r =>
      match done s p, awr s p with
      | Some b, _ => stop c g acc i p (result_of b) s
      | None, Some _ => stop c g acc i p RAlready s
      | None, None => start_race c g (acc ++ [mkh p i HWait]) r (set_awr p (Some (c, length acc)) s)
      end
  end.

Definition race (c : nat) (g : bool) (l : list (nat * nat)) (s : state) : state * list event :=
  start_race c g [] l s.

(** A gather of [c] that is a child of a race is interrupted: all its awaitables are, whatever
    became of their helpers (detail/gather.hpp:293-302).  When the last helper has ended the gather
    is destroyed with its race's helper; the loop must not go on then (C54). *)
Fixpoint interrupt_all (c j : nat) (ps : list nat) (s : state) : state * list event :=
  match ps with
  | [] => (s, [])
  | p :: r =>
      let (s1, e1) :=
        match co s c with
        | Busy _ _ _ => if dead s p then (s, [EUb]) else interrupt c j p s
        | _ => (s, [EUb])
        end in
      let (s2, e2) := interrupt_all c (S j) r s1 in (s2, e1 ++ e2)
  end.

Inductive label :=
| LAwait (c p : nat)
| LGather (c : nat) (ps : list nat)
| LRace (c : nat) (l : list (nat * nat))        (** indices and promises, in the order in which race starts them *)
| LPush (p : nat)
| LWait (c : nat)                               (** wait() *)
| LWaitOne (c : nat) (order : list nat)         (** wait_one(), with the shuffled order *)
| LInterrupt (c : nat)
| LFinish (p : nat) (ok : bool).

Definition index (ps : list nat) : list (nat * nat) := combine (seq 0 (length ps)) ps.
Definition alive (s : state) (ps : list nat) : bool := forallb (fun p => negb (dead s p)) ps.
Fixpoint distinct (l : list nat) : bool :=
  match l with [] => true | x :: r => negb (existsb (Nat.eqb x) r) && distinct r end.
(** A permutation of 0 .. n-1 *)
Definition shuffles (n : nat) (l : list nat) : bool :=
  Nat.eqb (length l) n && distinct l && forallb (fun i => i <? n) l.

Definition step (s : state) (l : label) : option (state * list event) :=
  match l with
  | LAwait c p =>
      match co s c with Idle => if dead s p then None else Some (gather c KDirect false [(0, p)] s) | _ => None end
  | LGather c ps =>
      match co s c with Idle => if alive s ps && distinct ps then Some (gather c KGather false (index ps) s) else None | _ => None end
  | LRace c l =>
      match co s c, l with
      | Idle, _ :: _ => if alive s (map snd l) && distinct (map snd l) && shuffles (length l) (map fst l) then Some (race c false l s) else None
      | _, _ => None
      end
  | LPush p =>
      match awr s p with
      | None => if dead s p || (if in_dec Nat.eq_dec p (group s) then true else false) then None else Some (set_group (group s ++ [p]) s, [])
      | Some _ => None
      end
  | LWait c =>
      match co s c with Idle => Some (gather c KGather true (index (group s)) s) | _ => None end
  | LWaitOne c order =>
      match co s c with
      | Idle =>
          match group s with
          | [] => Some (s, [EGot c KRace []])      (* detail/wait_group.hpp:35-36, 49-50 *)
          | _ => if shuffles (length (group s)) order then Some (race c true (map (fun i => (i, nth i (group s) 0)) order) s) else None
          end
      | _ => None
      end
  | LInterrupt c =>
      match co s c with
      | Busy KGather false l => Some (interrupt_all c 0 (map hp l) s)
      | _ => None
      end
  | LFinish p ok =>
      match done s p with
      | Some _ => None
      | None =>
          if dead s p then None else
          let s1 := set_done p (Some ok) (set_awr p None s) in
          Some (match awr s p with Some (c, i) => deliver c i (result_of ok) s1 | None => (s1, []) end)
      end
  end.

Definition init : state := mk (fun _ => None) (fun _ => None) (fun _ => false) [] (fun _ => Idle).

Fixpoint run (s : state) (ls : list label) : option (state * list event) :=
  match ls with
  | [] => Some (s, [])
  | l :: r =>
      match step s l with
      | Some (s1, e1) => match run s1 r with Some (s2, e2) => Some (s2, e1 ++ e2) | None => None end
      | None => None
      end
  end.
