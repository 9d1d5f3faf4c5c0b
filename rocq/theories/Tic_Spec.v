(** * What is asked of cancellation and throw_if_cancelled, on histories *)
From Coq Require Import List Bool NArith.
From Verif Require Import Tic_Model.
Import ListNotations.
Local Open Scope N_scope.

Definition is_reset (l : label) : bool :=
  match l with LReset0 | LReset1 _ | LReset2 _ _ | LSource _ | LClear => true | _ => false end.
Definition is_signal (l : label) : bool := match l with LSignal _ => true | _ => false end.

(** whether the source is connected after a history *)
Fixpoint connected_after (c : bool) (ls : list label) : bool :=
  match ls with
  | [] => c
  | LSource c' :: r => connected_after c' r
  | _ :: r => connected_after c r
  end.
(** the filter the last reset set; without one everything asio knows passes *)
Fixpoint in_filter_after (f : filter) (ls : list label) : filter :=
  match ls with
  | [] => f
  | LReset0 :: r | LSource _ :: r => in_filter_after enable_total r
  | LReset1 g :: r => in_filter_after g r
  | LReset2 g _ :: r => in_filter_after g r
  | _ :: r => in_filter_after f r
  end.
(** the same for what is passed on *)
Fixpoint out_filter_after (f : filter) (ls : list label) : filter :=
  match ls with
  | [] => f
  | LReset0 :: r | LSource _ :: r => out_filter_after enable_total r
  | LReset1 g :: r => out_filter_after g r
  | LReset2 _ g :: r => out_filter_after g r
  | _ :: r => out_filter_after f r
  end.
(** throw_if_cancelled is on unless it was switched off last *)
Fixpoint throws_after (b : bool) (ls : list label) : bool :=
  match ls with
  | [] => b
  | LThrowIf b' :: r => throws_after b' r
  | _ :: r => throws_after b r
  end.

(** a signal that passes the filter arrived, and the state was not reset since *)
Definition cancelled_by (c0 : bool) (ls : list label) : Prop :=
  exists a t b, ls = a ++ LSignal t :: b /\ connected_after c0 a = true /\
    in_filter_after enable_total a t <> 0 /\ existsb is_reset b = false.

(** the same, and no signal since was kept out by the filter *)
Definition cancelled_and_stays (c0 : bool) (ls : list label) : Prop :=
  exists a t b, ls = a ++ LSignal t :: b /\ connected_after c0 a = true /\
    in_filter_after enable_total a t <> 0 /\ existsb is_reset b = false /\
    forall u, In (LSignal u) b -> in_filter_after enable_total a u <> 0.
