(** * What is asked of as_result and as_tuple *)
From Coq Require Import List ZArith.
From Verif Require Import Res_Model.
Import ListNotations.

(** as_result holds the value iff the plain form returns it, and the error iff it throws it *)
Definition same_result (p : out val) (r : out (res val)) : Prop :=
  (forall v, p = Ret v <-> r = Ret (Ok v)) /\ (forall e, p = Thr e <-> r = Ret (Err e)).

(** Whether the type of the tuple begins with an error: not if the awaitable cannot
    fail by throwing, or if its completion does not begin with one. *)
Definition has_slot (s : source) : bool :=
  match s with
  | SOp _ (Some (AErr _ :: _)) => true
  | SOp _ _ => false
  | SGeneric _ noexc _ => negb noexc
  | _ => true
  end.

(** the same for a tuple: it is a tuple; its first element is the error, or the absence
    of one and the value after it *)
Definition same_tuple (slot : bool) (p : out val) (t : out tup) : Prop :=
  match p with
  | Ret v => t = Ret (mkt false (if slot then AErr None :: v else v))
  | Thr e => slot = true /\ exists rest, t = Ret (mkt false (AErr (Some e) :: rest))
  | Ub => True
  end.

(** neither form throws *)
Definition no_throw {A} (o : out A) : Prop := forall e, o <> Thr e.
