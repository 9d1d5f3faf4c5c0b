(** * Specification vocabulary for composed operations *)
From Coq Require Import List Bool Arith.
From Verif Require Import Comp_Model.
Import ListNotations.

(** The composition is called directly, does not throw, and nobody destroys a
    suspended coroutine. *)
Definition plain (l : label) : Prop :=
  match l with LBegin true | LThrow _ | LKill | LKillOuter => False | _ => True end.

(** What the awaiting coroutine sees: everything but the fate of the
    composition's own frame. *)
Definition visible (e : event) : bool :=
  match e with EFree | EUb UFreedHandler | EUb ULateFree => false | _ => true end.
Definition seen (tr : list event) : list event := filter visible tr.

(** The composition returned a before/after it had ever suspended. *)
Definition suspended_first (ls : list label) : bool :=
  existsb (fun l => match l with LSuspend => true | _ => false end) ls.

Definition returned (ls : list label) : list args :=
  flat_map (fun l => match l with LReturn a => [a] | _ => [] end) ls.

(** What should be seen: nothing as long as it runs during the initiation; the
    result at once if it returns then; otherwise suspended once, and resumed
    once with the result when it returns. *)
Definition expected (ls : list label) : list event :=
  match suspended_first ls, returned ls with
  | false, [] => []
  | false, a :: _ => [ECompleted a; EContinue; EResult (RArgs a)]
  | true, [] => [ESuspend]
  | true, a :: _ => [ESuspend; ECompleted a; EResume; EResult (RArgs a)]
  end.
