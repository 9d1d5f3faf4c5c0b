(** * What is asked of co_main's signal handling, on histories *)
From Coq Require Import List Bool ZArith.
From Verif Require Import Main_Model.
Import ListNotations.

(** how many signals of a kind arrived *)
Definition is_sig (s : sig) (l : label) : bool :=
  match s, l with SIGINT, LSig SIGINT => true | SIGTERM, LSig SIGTERM => true | _, _ => false end.
Definition arrived (s : sig) (ls : list label) : nat := length (List.filter (is_sig s) ls).

(** SIGINT is to be seen as a total, SIGTERM as a terminal cancellation *)
Definition is_for (s : sig) (e : event) : bool :=
  match s, e with SIGINT, EEmit total => true | SIGTERM, EEmit terminal => true | _, _ => false end.
Definition delivered (s : sig) (es : list event) : nat := length (List.filter (is_for s) es).

Definition is_end (l : label) : bool := match l with LReturn _ | LThrow => true | _ => false end.
(** co_main has not ended *)
Definition running (ls : list label) : Prop := existsb is_end ls = false.

(** it uses or touches co_main after it is gone, or delivers to it *)
Definition touches (e : event) : bool :=
  match e with EEmit _ | EDangling _ => true | _ => false end.
