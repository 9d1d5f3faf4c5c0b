(** Vocabulary in which the properties of a race over channel reads are stated. *)
From Coq Require Import List Bool Arith.
From Verif Require Import Channel_Model Channel_Spec Rch_Model.
Import ListNotations.

Section Spec.
Context {V : Type}.

(** The values that the members of the race took out of their channels, with the member. *)
Definition taken (cf : cfg) (tr : list (revent V)) : list (nat * V) :=
  flat_map (fun e => match e with
                     | C _ (ERead k (RVal v)) => if k <? n cf then [(k, v)] else []
                     | _ => [] end) tr.

(** What happened on channel [c]. *)
Definition at_channel (c : nat) (tr : list (revent V)) : list (event V) :=
  flat_map (fun e => match e with C c' x => if Nat.eqb c' c then [x] else [] | _ => [] end) tr.

(** What the race delivers, given its result. *)
Definition winnings (m : nat) (r : rresult V) : list (nat * V) :=
  match r with RVal v => [(m, v)] | _ => [] end.

(** How the await of the race ended. *)
Definition ends (tr : list (revent V)) : list (nat * rresult V) :=
  flat_map (fun e => match e with Win m r => [(m, r)] | _ => [] end) tr.

(** No write is waiting in a channel of the race. *)
Definition no_writer_waits (cf : cfg) (s : rstate V) : Prop := forall k, k < n cf -> wq (chs s (chan cf k)) = [].

(** Whenever the race is awaited in the run, no write is waiting in its channels. *)
Definition quiet_start (cf : cfg) (ls : list (rlabel V)) : Prop :=
  forall a b s e, ls = a ++ Await :: b -> rrun cf (rinit cf) a = Some (s, e) -> no_writer_waits cf s.

(** The values that reads outside the race took out of channel [c]. *)
Definition taken_by_others (cf : cfg) (c : nat) (tr : list (revent V)) : list V :=
  flat_map (fun e => match e with ERead k (RVal v) => if k <? n cf then [] else [v] | _ => [] end) (at_channel c tr).

(** What a race that ended with member [m]'s result [r] got out of channel [c]. *)
Definition won (cf : cfg) (c m : nat) (r : rresult V) : list V :=
  match r with RVal v => if Nat.eqb (chan cf m) c then [v] else [] | _ => [] end.

(** The executor resumes a waiting operation of some channel. *)
Definition resumption (l : rlabel V) : Prop := exists c q, l = Env c (Run q).

End Spec.
