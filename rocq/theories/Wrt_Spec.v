(** C90: what a user relies on about writing to a stream; written against events. *)
From Coq Require Import List Bool Arith.
From Verif Require Import Wrt_Model.
Import ListNotations.

(** what enters the stream, and what of it write [i] puts there *)
Definition stream (es : list event) : list nat := flat_map (fun e => match e with ESent _ bs => bs | _ => [] end) es.
Definition bytes (i : nat) (es : list event) : list nat := flat_map (fun e => match e with ESent j bs => if j =? i then bs else [] | _ => [] end) es.

(** the beginnings of write [i] with what it is to write, and its results *)
Definition starts (i : nat) (es : list event) : list (list nat) := flat_map (fun e => match e with EStart j bs => if j =? i then [bs] else [] | _ => [] end) es.
Definition results (i : nat) (es : list event) : list (option err * nat) := flat_map (fun e => match e with EDone j r n => if j =? i then [(r, n)] else [] | _ => [] end) es.

(** no write is going on *)
Definition quiet (es : list event) : Prop := forall j, starts j es <> [] -> results j es <> [].
