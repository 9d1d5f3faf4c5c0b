(** * Reading a trace of a loop over a channel (for C82) *)
From Coq Require Import List Bool Arith.
From Verif Require Import Channel_Model Channel_Spec Crd_Model.
Import ListNotations.

Section Spec.
Context {V : Type}.
Notation state := (Crd_Model.state V).
Notation event := (Crd_Model.event V).
Notation label := (Crd_Model.label V).

(** The values the body ran with, in order. *)
Definition visits : list event -> list V := flat_map (fun e => match e with Visit v => [v] | _ => [] end).
(** What completed on the channel. *)
Definition on_channel : list event -> list (Channel_Model.event V) := flat_map (fun e => match e with C e => [e] | _ => [] end).
(** What happened in the loop. *)
Definition in_loop : list event -> list event := flat_map (fun e => match e with C _ => [] | e => [e] end).

(** How the loop's own reads ended, in order. *)
Definition own_reads : list event -> list (rresult V) :=
  flat_map (fun e => match e with C (ERead i r) => if Nat.even i then [r] else [] | _ => [] end).

(** Nobody but the loop reads. *)
Definition only_reader (ls : list label) : Prop :=
  forall l, In (RChan l) ls -> match l with MkRead _ | AwRead _ _ | CancelR _ | InterruptR _ | DestroyR _ => False | _ => True end.

(** A restriction [P] on the use of the channel, along a history. *)
Fixpoint robeys (P : Channel_Model.state V -> Channel_Model.label V -> bool) (s : state) (ls : list label) : Prop :=
  match ls with
  | [] => True
  | l :: r => obeys P (chan s) (ops s l) = true /\ match rstep s l with Some (s1, _) => robeys P s1 r | None => True end
  end.
End Spec.
