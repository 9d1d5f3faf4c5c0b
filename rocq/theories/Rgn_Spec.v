(** Vocabulary in which the properties of races over generators are stated (C76). *)
From Coq Require Import List Bool Arith.
From Verif Require Import Gen_Model Gen_Spec Rgn_Model.
Import ListNotations.

Section Spec.
Context {Y P E : Type}.
Notation rstate := (rstate Y P E).
Notation rlabel := (rlabel Y P E).
Notation revent := (revent Y P E).
Notation result := (outcome Y E).

(** What happened in generator [g]. *)
Definition at_gen (g : nat) (tr : list revent) : list (event Y P E) :=
  flat_map (fun e => match e with G h x => if h =? g then [x] else [] | _ => [] end) tr.

(** Something the generator gave: a value, its exception, or that it has ended.  Not: the await
    was interrupted or refused. *)
Definition given (r : result) : bool :=
  match r with RExc XDetached | RExc XAlready => false | _ => true end.

(** What the races took from generator [g], in order.  (The forks of a race have even numbers.) *)
Definition raced (g : nat) (tr : list revent) : list result :=
  flat_map (fun e => match e with EResult w r => if Nat.even w && given r then [r] else [] | _ => [] end) (at_gen g tr).

(** What the racing coroutine got from generator [g], in order. *)
Definition won (g : nat) (tr : list revent) : list result :=
  flat_map (fun e => match e with Win _ h r => if (h =? g) && given r then [r] else [] | _ => [] end) tr.

(** The values among them. *)
Definition values : list result -> list Y := flat_map (fun r => match r with RVal y => [y] | _ => [] end).

(** What other coroutines took from generator [g] by co_await or get(). *)
Definition taken_by_others (g : nat) (tr : list revent) : list Y :=
  flat_map (fun e => match e with
                     | EResult w (RVal y) => if Nat.even w then [] else [y]
                     | EGet (RVal y) => [y]
                     | _ => [] end) (at_gen g tr).

(** In every race [g] is an lvalue argument if it takes part. *)
Definition as_lvalue (g : nat) (ls : list rlabel) : Prop :=
  forall ms o mb, In (Await ms o) ls -> In mb ms -> gen mb = g -> lv mb = true.

(** In every race all arguments are lvalues. *)
Definition all_lvalues (ls : list rlabel) : Prop := forall ms o mb, In (Await ms o) ls -> In mb ms -> lv mb = true.

(** Nobody but the race awaits the generators that take part, and no race has the same generator
    twice. *)
Definition alone (ls : list rlabel) : Prop :=
  (forall ms o, In (Await ms o) ls -> NoDup (map gen ms)) /\
  (forall ms o mb w p, In (Await ms o) ls -> In mb ms -> ~ In (Env (gen mb) (LAwait w p)) ls).

Section Nv.
Variable nv : nat -> bool.

(** The generators are used as the implementation supports it (Gen_Spec.ok). *)
Fixpoint proper (s : rstate) (ls : list rlabel) : Prop :=
  match ls with
  | [] => True
  | l :: t =>
      match l with Env g x => ok (gens s g) x = true | _ => True end /\
      match rstep nv s l with Some (s1, _) => proper s1 t | None => True end
  end.

(** No race goes on to start members although it is decided: whenever the next member is to be
    started, the race is undecided or the member started last has ended. *)
Fixpoint steady (s : rstate) (ls : list rlabel) : Prop :=
  match ls with
  | [] => True
  | l :: t =>
      match l, pc s with
      | Next, Starting last _ _ => idx s = None \/ stop last s = true
      | _, _ => True
      end /\
      match rstep nv s l with Some (s1, _) => steady s1 t | None => True end
  end.
End Nv.
End Spec.
