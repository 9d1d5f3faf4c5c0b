(** * What a user of io::signal_set relies on *)
From Coq Require Import List Bool Arith Lia.
From Verif Require Import Sig_Model.
Import ListNotations.

(** [n] is registered in set [x] *)
Definition registered (x n : nat) (s : state) : Prop := In n (map fst (regs (sets s x))).
(** operation [i] waits on set [x] *)
Definition waiting (i x : nat) (s : state) : Prop := In i (waits (sets s x)).

Fixpoint total {A} (f : A -> nat) (l : list A) : nat := match l with [] => 0 | a :: l' => f a + total f l' end.

(** occurrences of [n] that set [x] keeps for later waits *)
Definition pending (x n : nat) (s : state) : nat :=
  total (fun p => if fst p =? n then snd p else 0) (regs (sets s x)).

Definition is_sig (n : nat) (r : outcome) : bool := match r with OSig m => m =? n | OAborted => false end.
Definition is_set (x : nat) (o : option nat) : bool := match o with Some y => y =? x | None => false end.

(** completions with [n] of waits on [x] that are on the way *)
Definition in_flight (x n : nat) (s : state) : nat :=
  total (fun p => if is_sig n (snd p) && is_set x (begun s (fst p)) then 1 else 0) (posted s).

(** number of waits on [x] that told a coroutine [n] *)
Definition told (x n : nat) (es : list event) : nat :=
  total (fun e => match e with EGot _ y r => if is_sig n r && (y =? x) then 1 else 0 | _ => 0 end) es.
Definition dropped (x n : nat) (es : list event) : nat :=
  total (fun e => match e with ELost _ y r => if is_sig n r && (y =? x) then 1 else 0 | _ => 0 end) es.

(** number of occurrences of [n] *)
Definition raised (n : nat) (ls : list label) : nat :=
  total (fun l => match l with LRaise m => if m =? n then 1 else 0 | _ => 0 end) ls.

(** nobody takes [n] from set [x] *)
Definition keeps (x n : nat) (ls : list label) : Prop :=
  ~ In (LRemove x n) ls /\ ~ In (LClear x) ls /\ ~ In (LDestroy x) ls.

Definition no_race (ls : list label) : Prop := forall i, ~ In (LLose i) ls.

(** a wait on [x] is begun only if none waits there *)
Definition one_at_a_time (bad : nat -> bool) (x : nat) (ls : list label) (s : state) : Prop :=
  forall l1 i l2 s1 e1, ls = l1 ++ LWait i x :: l2 -> run bad l1 s = Some (s1, e1) -> waits (sets s1 x) = [].

(** the operation that an event ends *)
Definition ends (e : event) : list nat := match e with EGot i _ _ | ELost i _ _ => [i] | _ => [] end.
