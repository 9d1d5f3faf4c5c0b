(** * What is asked of combinators inside combinators, on traces *)
From Coq Require Import List Bool Arith.
From Verif Require Import Nst_Model.
Import ListNotations.

Section Spec.
Context {V E : Type}.
Notation tree := (tree V E).
Notation out := (out V E).
Notation event := (event V E).
Notation comp := (comp V E).

(** The operations in a tree. *)
Fixpoint leaves (t : tree) : list nat :=
  match t with Op id _ => [id] | Comb _ _ l => flat_map leaves l end.

(** Every operation is one of its own, and no combinator is empty. *)
Fixpoint filled (t : tree) : Prop :=
  match t with
  | Op _ _ => True
  | Comb _ _ l => l <> [] /\ fold_right (fun t P => filled t /\ P) True l
  end.
Definition wf (t : tree) : Prop := NoDup (leaves t) /\ filled t.

(** The operations started, those that completed (in order), those that got a signal. *)
Definition started (tr : list event) : list nat :=
  flat_map (fun e => match e with EStart id => [id] | _ => [] end) tr.
Definition dones (tr : list event) : list (nat * comp) :=
  flat_map (fun e => match e with EDone id x => [(id, x)] | _ => [] end) tr.
Definition signalled (tr : list event) : list nat :=
  flat_map (fun e => match e with ESig id _ => [id] | _ => [] end) tr.
Definition results (tr : list event) : list out :=
  flat_map (fun e => match e with EResult o => [o] | _ => [] end) tr.

(** started and not completed *)
Definition pending (tr : list event) (id : nat) : Prop := In id (started tr) /\ ~ In id (map fst (dones tr)).

(** When in [d] the operation completes, and how. *)
Fixpoint find_at (n : nat) (id : nat) (d : list (nat * comp)) : option (nat * out) :=
  match d with
  | [] => None
  | (j, x) :: r => if j =? id then Some (n, op_out x) else find_at (S n) id r
  end.

Fixpoint every {A} (l : list (option A)) : option (list A) :=
  match l with
  | [] => Some []
  | None :: _ => None
  | Some a :: r => match every r with Some s => Some (a :: s) | None => None end
  end.

(** The first of several (index from [i] on, time, outcome). *)
Fixpoint first_of (i : nat) (l : list (option (nat * out))) : option (nat * nat * out) :=
  match l with
  | [] => None
  | None :: r => first_of (S i) r
  | Some (n, o) :: r =>
      match first_of (S i) r with
      | Some (j, m, o') => if m <? n then Some (j, m, o') else Some (i, n, o)
      | None => Some (i, n, o)
      end
  end.
Definition fails (r : option (nat * out)) : option (nat * out) :=
  match r with Some (_, OErr _) => r | _ => None end.
Definition times (l : list (option (nat * out))) : list nat :=
  flat_map (fun r => match r with Some (n, _) => [n] | None => [] end) l.
Definition values (l : list out) := flat_map (fun o => match o with OVal v => [v] | _ => [] end) l.

(** Some operation in it has been started. *)
Definition begun (tr : list event) (t : tree) : bool :=
  existsb (fun id => existsb (Nat.eqb id) (started tr)) (leaves t).

(** When, and with what, an awaitable ends.
    gather: when all its arguments have ended, with all their outcomes.
    join: when all have, with their values or with the failure that came first.
    race: when all those that were begun have, with the outcome of the one that ended first. *)
Fixpoint ends (tr : list event) (t : tree) : option (nat * out) :=
  match t with
  | Op id _ => find_at 0 id (dones tr)
  | Comb k _ l =>
      let rs := map (ends tr) l in
      match k with
      | Gather => match every rs with Some xs => Some (list_max (times rs), OVal (VAll (map snd xs))) | None => None end
      | Join =>
          match every rs with
          | Some xs => Some (list_max (times rs),
                             match first_of 0 (map fails rs) with
                             | Some (_, _, o) => o
                             | None => OVal (VVals (values (map snd xs)))
                             end)
          | None => None
          end
      | Race =>
          if existsb (fun t => begun tr t && match ends tr t with None => true | Some _ => false end) l then None
          else match first_of 0 rs with
               | Some (i, _, OVal v) => Some (list_max (times rs), OVal (VWin i v))
               | Some (_, _, o) => Some (list_max (times rs), o)
               | None => None
               end
      end
  end.

(** [u] is [t] or a part of it. *)
Inductive part : tree -> tree -> Prop :=
| part_self t : part t t
| part_arg u t k ct l : In t l -> part u t -> part u (Comb k ct l).

(** A race one of whose arguments has ended, a join one of whose arguments has failed *)
Definition decided (tr : list event) (u : tree) : Prop :=
  match u with
  | Comb Race _ l => exists t n o, In t l /\ ends tr t = Some (n, o)
  | Comb Join _ l => exists t n e, In t l /\ ends tr t = Some (n, OErr e)
  | _ => False
  end.
(** ... which then cancels the others with this type *)
Definition own (u : tree) : ctype := match u with Comb Race ct _ => ct | _ => ct_all end.

(** [id] is in a race or join of [t] that is decided. *)
Definition below_decided (tr : list event) (t : tree) (id : nat) : Prop :=
  exists u, part u t /\ In id (leaves u) /\ decided tr u.
End Spec.
