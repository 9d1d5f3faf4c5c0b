(** Vocabulary in which the properties of gather and join over channel operations are stated. *)
From Coq Require Import List Bool Arith.
From Verif Require Import Channel_Model Channel_Spec Sel_Model Sel_Spec Gch_Model.
Import ListNotations.

Section Spec.
Context {V : Type}.

(** The event is the end of the operation of a member: which one, and with what. *)
Definition done_by (cf : cfg V) (e : gevent V) : option (nat * result V) :=
  match e with
  | GC c (ERead k r) => if (k <? n cf) && negb (isw cf k) && Nat.eqb (chan cf k) c then Some (k, Got r) else None
  | GC c (EWrite k _ r) => if (k <? n cf) && isw cf k && Nat.eqb (chan cf k) c then Some (k, Put r) else None
  | Ends _ => None
  end.

(** What the operation of member [k] ended with, each time it ended. *)
Definition op_results (cf : cfg V) (k : nat) (tr : list (gevent V)) : list (result V) :=
  flat_map (fun e => match done_by cf e with Some (j, r) => if Nat.eqb j k then [r] else [] | None => [] end) tr.

(** The failures of members, in the order in which they happened. *)
Definition failures (cf : cfg V) (tr : list (gevent V)) : list (result V) :=
  flat_map (fun e => match done_by cf e with Some (_, r) => if ok r then [] else [r] | None => [] end) tr.

(** How the await of the combinator ended. *)
Definition gends (tr : list (gevent V)) : list (gend V) :=
  flat_map (fun e => match e with Ends x => [x] | _ => [] end) tr.

(** What happened on channel [c]. *)
Definition gat_channel (c : nat) (tr : list (gevent V)) : list (event V) :=
  flat_map (fun e => match e with GC c' x => if Nat.eqb c' c then [x] else [] | _ => [] end) tr.

(** The values that reads outside the combinator took out of channel [c], and the values that writes
    outside the combinator put in. *)
Definition gtaken_by_others (cf : cfg V) (c : nat) (tr : list (gevent V)) : list V :=
  flat_map (fun e => match e with ERead _ (RVal v) => if is_some (done_by cf (GC c e)) then [] else [v] | _ => [] end) (gat_channel c tr).
Definition gwritten_by_others (cf : cfg V) (c : nat) (tr : list (gevent V)) : list V :=
  flat_map (fun e => match e with EWrite _ v WOk => if is_some (done_by cf (GC c e)) then [] else [v] | _ => [] end) (gat_channel c tr).

(** What a combinator that returned [rs] got out of channel [c], and what it put into it, going by
    these results. *)
Definition gtook (cf : cfg V) (c : nat) (rs : list (result V)) : list V :=
  flat_map (fun p => took cf c (fst p) (snd p)) (combine (seq 0 (n cf)) rs).
Definition gput (cf : cfg V) (c : nat) (rs : list (result V)) : list V :=
  flat_map (fun p => put cf c (fst p) (snd p)) (combine (seq 0 (n cf)) rs).

(** The executor resumes a waiting operation of some channel. *)
Definition gresumption (l : glabel V) : Prop := exists c q, l = GEnv c (Run q).

(** No operation is interrupted in the run, neither by the combinator nor elsewhere (interruption is what an
    enclosing race does to its other members). *)
Definition undisturbed (ls : list (glabel V)) : Prop := forall l, In l ls ->
  match l with GInterrupt | GEnv _ (InterruptR _) | GEnv _ (InterruptW _) => False | _ => True end.

End Spec.
