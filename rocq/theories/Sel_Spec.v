(** Vocabulary in which the properties of a race over channel operations are stated. *)
From Coq Require Import List Bool Arith.
From Verif Require Import Channel_Model Channel_Spec Sel_Model.
Import ListNotations.

Section Spec.
Context {V : Type}.

(** What the members of the race did to their channels: the values they took out or put in,
    with the member. *)
Definition effects (cf : cfg V) (tr : list (revent V)) : list (nat * V) :=
  flat_map (fun e => match e with
                     | C _ (ERead k (RVal v)) | C _ (EWrite k v WOk) => if k <? n cf then [(k, v)] else []
                     | _ => [] end) tr.

(** What happened on channel [c]. *)
Definition at_channel (c : nat) (tr : list (revent V)) : list (event V) :=
  flat_map (fun e => match e with C c' x => if Nat.eqb c' c then [x] else [] | _ => [] end) tr.

(** What the race did, going by the result it returned: the value that was read, or the value that
    was to be written. *)
Definition reported (cf : cfg V) (m : nat) (r : result V) : list (nat * V) :=
  match r, act cf m with
  | Got (RVal v), None => [(m, v)]
  | Put WOk, Some v => [(m, v)]
  | _, _ => []
  end.

(** How the await of the race ended. *)
Definition ends (tr : list (revent V)) : list (nat * result V) :=
  flat_map (fun e => match e with Win m r => [(m, r)] | _ => [] end) tr.

(** No write is waiting in a channel that a member reads from, and no read in one that a member
    writes to. *)
Definition no_partner_waits (cf : cfg V) (s : rstate V) : Prop := forall k, k < n cf ->
  if isw cf k then rq (chs s (chan cf k)) = [] else wq (chs s (chan cf k)) = [].

(** Whenever the race is awaited in the run, no partner is waiting in its channels. *)
Definition quiet_start (cf : cfg V) (ls : list (rlabel V)) : Prop :=
  forall a b s e, ls = a ++ Await :: b -> rrun cf (rinit cf) a = Some (s, e) -> no_partner_waits cf s.

(** No channel is both read and written by the race. *)
Definition apart (cf : cfg V) : Prop := forall j k, j < n cf -> k < n cf -> chan cf j = chan cf k -> isw cf j = isw cf k.

(** The values that reads outside the race took out of channel [c], and the values that writes
    outside the race put in. *)
Definition taken_by_others (cf : cfg V) (c : nat) (tr : list (revent V)) : list V :=
  flat_map (fun e => match e with ERead k (RVal v) => if k <? n cf then [] else [v] | _ => [] end) (at_channel c tr).
Definition written_by_others (cf : cfg V) (c : nat) (tr : list (revent V)) : list V :=
  flat_map (fun e => match e with EWrite k v WOk => if k <? n cf then [] else [v] | _ => [] end) (at_channel c tr).

(** What a race that ended with member [m]'s result [r] got out of channel [c], and what it put into
    it. *)
Definition took (cf : cfg V) (c m : nat) (r : result V) : list V :=
  if negb (isw cf m) && Nat.eqb (chan cf m) c then map snd (reported cf m r) else [].
Definition put (cf : cfg V) (c m : nat) (r : result V) : list V :=
  if isw cf m && Nat.eqb (chan cf m) c then map snd (reported cf m r) else [].

(** The executor resumes a waiting operation of some channel. *)
Definition resumption (l : rlabel V) : Prop := exists c q, l = Env c (Run q).

End Spec.
