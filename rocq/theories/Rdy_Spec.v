(** C89: what a user relies on about reading from a stream; written against events. *)
From Coq Require Import List Bool Arith.
From Verif Require Import Rdy_Model.
Import ListNotations.

(** what the peer sent, and what reads took, in order *)
Definition arrived (es : list event) : list nat := flat_map (fun e => match e with EArrive bs => bs | _ => [] end) es.
Definition taken (es : list event) : list nat := flat_map (fun e => match e with ETake _ bs => bs | _ => [] end) es.

(** the operations that took something, that began and that ended, in order *)
Definition takers (es : list event) : list nat := flat_map (fun e => match e with ETake i _ => [i] | _ => [] end) es.
Definition started (es : list event) : list nat := flat_map (fun e => match e with EStart i _ => [i] | _ => [] end) es.
Definition ended (es : list event) : list nat := flat_map (fun e => match e with EDone i _ => [i] | _ => [] end) es.

(** operation [i] has begun and not ended *)
Definition open_op (es : list event) (i : nat) : Prop := In i (started es) /\ ~ In i (ended es).

Fixpoint increasing (l : list nat) : Prop := match l with [] => True | x :: r => (forall y, In y r -> x < y) /\ increasing r end.
