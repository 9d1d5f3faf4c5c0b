(** * What is assumed and said about [run] (C37) *)
From Coq Require Import List.
From Verif Require Import Run_Model.
Import ListNotations.

(** A thread state that can occur: the executor's context exists and will clear the
    executor when it is destroyed; numbers are not reused. *)
Definition sane (t : thread) : Prop :=
  (forall k, exec t = Some k -> In k (alive t) /\ In k (svc t)) /\
  (forall k, In k (alive t) -> k < next t) /\ (forall k, In k (mine t) -> In k (alive t)).

Section Spec.
Context {V E : Type}.
(** The body does not itself replace the executor; nested calls of run may. *)
Fixpoint keeps_executor (b : body V E) : Prop :=
  match b with
  | BEnd _ => True
  | BSetExec _ _ => False
  | BSetRes _ b | BNew b | BDestroy _ b | BRun _ b => keeps_executor b
  end.
(** No call of set_executor and no destruction of a context anywhere. *)
Fixpoint plain (b : body V E) : Prop :=
  match b with
  | BEnd _ => True
  | BSetExec _ _ | BDestroy _ _ => False
  | BSetRes _ b | BNew b => plain b
  | BRun i b => plain i /\ plain b
  end.
(** How the task ended. *)
Fixpoint ends (b : body V E) : finish V E :=
  match b with
  | BEnd f => f
  | BSetExec _ b | BSetRes _ b | BNew b | BDestroy _ b | BRun _ b => ends b
  end.
End Spec.
