(** C88: what a user relies on about file objects; written against events, labels and what the program can see. *)
From Coq Require Import List Bool Arith.
From Verif Require Import Fob_Model.
Import ListNotations.

(** descriptors that came into being, and that were closed, in order *)
Definition born (es : list event) : list fd := flat_map (fun e => match e with ECreate d | EMake d => [d] | _ => [] end) es.
Definition closed (es : list event) : list fd := flat_map (fun e => match e with EClose d => [d] | _ => [] end) es.

(** descriptors that were opened for a call that then failed without closing them *)
Fixpoint lost (es : list event) : list fd :=
  match es with
  | ECreate d :: r => match r with EErr _ :: _ | EThrow _ :: _ => [d] | _ => [] end ++ lost r
  | _ :: r => lost r
  | [] => []
  end.

(** object [x] exists and has [d] *)
Definition has (s : state) (x : nat) (d : fd) : Prop := exists r, objs s x = Some (mko (Some d) r).

(** object [x] was not made by moving another one *)
Definition moved (es : list event) (y : nat) : Prop := exists x, In (EMove x y) es.

Definition started (es : list event) : list nat := flat_map (fun e => match e with EStart i _ _ => [i] | EEnd i Closed => [i] | _ => [] end) es.
Definition ended (es : list event) : list nat := flat_map (fun e => match e with EEnd i _ => [i] | _ => [] end) es.
