(** What the per-thread executor and memory resource are expected to be, in terms of the history. *)
From Coq Require Import List Bool Arith.
From Verif Require Import Tls_Model.
Import ListNotations.

(** Thread [t] set the executor of [c], nothing else since, and has not destroyed [c] since. *)
Definition current (h : list act) (t c : nat) : Prop :=
  exists h1 h2, h = h1 ++ SetEx t c :: h2 /\ (forall d, ~ In (SetEx t d) h2) /\ ~ In (Destroy t c) h2.

(** Thread [t] set the resource [m] and nothing else since, or never set one and [m] is the
    default. *)
Definition current_res (h : list act) (t m : nat) : Prop :=
  (exists h1 h2, h = h1 ++ SetRes t m :: h2 /\ forall d, ~ In (SetRes t d) h2)
  \/ (forall d, ~ In (SetRes t d) h) /\ m = 0.

Definition destroyed (h : list act) (c : nat) : Prop := exists t, In (Destroy t c) h.

(** Every context that is destroyed is destroyed by the only thread that uses it. *)
Definition own_contexts (h : list act) : Prop :=
  forall t u c, In (SetEx t c) h -> In (Destroy u c) h -> u = t.
