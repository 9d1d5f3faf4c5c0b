(** * Reading a trace of a loop (for C51) *)
From Coq Require Import List Bool Arith.
From Verif Require Import Gen_Model For_Model.
Import ListNotations.

Section Spec.
Context {Y E : Type}.
Notation event := (For_Model.event Y E).
Notation label := (For_Model.label Y E).

(** The values the body ran with, in order. *)
Definition visits : list event -> list Y :=
  flat_map (fun e => match e with Visit y => [y] | _ => [] end).
(** The values the coroutine gave to co_yield and co_return, in order. *)
Definition produced : list event -> list Y :=
  flat_map (fun e => match e with G (EYield y) | G (EReturn y) => [y] | _ => [] end).
(** The coroutine has ended. *)
Definition finished (es : list event) : Prop := In (G EFinal) es \/ In (G EKill) es.

(** The coroutine awaits this_coro::initial first, if at all (see Gen_Spec.ok). *)
Fixpoint proper (s : For_Model.state Y E) (ls : list label) : Prop :=
  match ls with
  | [] => True
  | l :: r =>
      match l with
      | FGen LInitial => lazy (gen s) = false /\ aw (gen s) = None
      | _ => True
      end /\ match fstep s l with Some (s1, _) => proper s1 r | None => True end
  end.

(** Nothing happens between the co_return and the end of the coroutine: the destructors of its
    local variables do not let the loop go on. *)
Fixpoint ends_at_once (ls : list label) : Prop :=
  match ls with
  | FGen (LReturn _) :: ((l :: _) as r) => l = FGen LFinal /\ ends_at_once r
  | _ :: r => ends_at_once r
  | [] => True
  end.
End Spec.
