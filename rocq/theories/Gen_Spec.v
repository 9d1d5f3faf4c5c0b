(** * Reading a trace of generator operations (for C24, C25 and C26) *)
From Coq Require Import List Bool Arith.
From Verif Require Import Gen_Model.
Import ListNotations.

Section Spec.
Context {Y P E : Type}.
Notation event := (event Y P E).
Notation state := (state Y P E).
Notation label := (label Y P E).

(** The values the coroutine gave to co_yield and co_return, in order. *)
Definition yielded : list event -> list Y :=
  flat_map (fun e => match e with EYield y | EReturn y => [y] | _ => [] end).
(** The values the consumers got from co_await and get(), in order. *)
Definition taken : list event -> list Y :=
  flat_map (fun e => match e with EResult _ (RVal y) | EGet (RVal y) => [y] | _ => [] end).
(** The values given to co_await g(p), in order; without the awaits that threw
    already_awaited. *)
Definition pushes : list event -> list P :=
  flat_map (fun e => match e with EAwait _ p => [p] | _ => [] end).
(** The values the coroutine got from co_yield and initial, in order. *)
Definition received : list event -> list P :=
  flat_map (fun e => match e with EPush p => [p] | _ => [] end).
(** How often the coroutine reached a co_yield or initial. *)
Definition points (tr : list event) : nat :=
  length (flat_map (fun e => match e with EYield _ | EInitial => [tt] | _ => [] end) tr).
(** The coroutine ended. *)
Definition ended (tr : list event) : Prop := In EFinal tr \/ In EKill tr.
(** The consumer got an exception of the coroutine. *)
Definition failures (tr : list event) : nat :=
  length (flat_map (fun e => match e with EResult _ (RExc (XUser _)) => [tt] | _ => [] end) tr).
Definition undefined (tr : list event) : Prop := exists b, In (EBad b) tr.

(** ** Correct use
    - this_coro::initial is awaited at most once, and nobody awaits the generator then;
    - get() is only called if there is a value or an exception, and not on an eager
      generator that is still going on. *)
Definition ok (s : state) (l : label) : bool :=
  match l with
  | LInitial => negb (lazy s) && negb (is_some (aw s))
  | LGet => (is_some (exc s) || is_some (res s)) && (lazy s || negb (yielding s))
  | _ => true
  end.
(** No await is interrupted and get() is not used. *)
Definition calm (l : label) : bool :=
  match l with
  | LInterrupt _ | LGet => false
  | _ => true
  end.
(** The coroutine does not await initial. *)
Definition eager (ls : list label) : Prop := ~ In LInitial ls.

Fixpoint correct (nv : bool) (s : state) (ls : list label) : Prop :=
  match ls with
  | [] => True
  | l :: t => ok s l = true /\ match step nv l s with Some (s1, _) => correct nv s1 t | None => True end
  end.

(** operator bool (generator.hpp:84-88) *)
Definition truthy (s : state) : bool := negb (done s) || is_some (res s) || is_some (exc s).
End Spec.
