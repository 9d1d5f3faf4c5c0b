(** * Theorems about run() (C37)

    [sane] (Run_Spec.v) says which thread states can occur; every run keeps it. *)
From Coq Require Import List.
From Verif Require Import Run_Model Run_Spec Run_Final.
Import ListNotations.

Section Props.
Context {V E : Type}.
(** C37: afterwards the default memory resource is the one from before, whatever the
    task did and however it ended; so is the executor, if there was one or the task
    does not itself call set_executor. *)
Theorem C37_run_restores : forall (b : body V E) t t' r, sane t -> run_task b t = Some (t', r) ->
  sane t' /\ resource t' = resource t /\ (exec t <> None \/ keeps_executor b -> exec t' = exec t).
Proof. exact run_restores. Qed.
(** C37: run returns the task's value or rethrows its exception. *)
Theorem C37_run_outcome : forall (b : body V E) t t' r, run_task b t = Some (t', r) ->
  (forall v, ends b = Value v -> r = Returned v) /\ (forall e, ends b = Exn e -> r = Thrown e).
Proof. intros b t t' r H. apply run_delivers in H. subst r. split; intros x ->; reflexivity. Qed.
(** C37: inside, the executor is that of a new context, gone afterwards, and the
    resource is a new one. *)
Theorem C37_run_inside : forall (b : body V E) t t' r, sane t -> run_task b t = Some (t', r) ->
  exists t3 t4 f, perform b t3 = Some (t4, f) /\ exec t3 = Some (S (next t)) /\ resource t3 = next t /\
    ~ In (S (next t)) (alive t) /\ ~ In (S (next t)) (alive t').
Proof. exact run_inside. Qed.
(** C37: nothing undefined happens when the task neither calls set_executor nor
    destroys contexts; nested calls of run are allowed. *)
Theorem C37_run_defined : forall (b : body V E) t, sane t -> plain b -> exists t' r, run_task b t = Some (t', r).
Proof. exact run_defined. Qed.
End Props.
Print Assumptions C37_run_restores.
Print Assumptions C37_run_outcome.
Print Assumptions C37_run_inside.
Print Assumptions C37_run_defined.

(** ** Where the English property fails *)
(** C37: an executor the task installs stays, when there was none before. *)
Theorem C37_foreign_executor_refuted : exists (b : body nat nat) t t' r, sane t /\ run_task b t = Some (t', r) /\ exec t = None /\ exec t' = Some 3.
Proof.
  exists (BNew (BSetExec 3 (BEnd (Value 5)))), (mkT 0 None [] [] [] 1). eexists. eexists.
  split; [|split; [vm_compute; reflexivity|split; reflexivity]].
  split; [discriminate|]. split; intros k [].
Qed.
(** C37: a task that can never continue is not reported: run throws broken_promise. *)
Theorem C37_starved_refuted : exists (b : body nat nat) t t' r, sane t /\ run_task b t = Some (t', r) /\ ends b = Starved /\ r = BrokenPromise.
Proof.
  exists (BEnd Starved), (mkT 0 None [] [] [] 1). eexists. eexists.
  split; [|split; [vm_compute; reflexivity|split; reflexivity]].
  split; [discriminate|]. split; intros k [].
Qed.
(** C37: a task that destroys the context of the executor from before makes run()
    use it after its end. *)
Theorem C37_destroyed_context_refuted : exists (b : body nat nat) t, sane t /\ run_task b t = None.
Proof.
  exists (BDestroy 1 (BEnd (Value 5))), (mkT 0 (Some 1) [1] [1] [1] 2). split; [|vm_compute; reflexivity].
  split; [intros k [= <-]; cbn; auto|]. split; [intros k [<-|[]]; cbn; auto|auto].
Qed.
Print Assumptions C37_foreign_executor_refuted.
Print Assumptions C37_starved_refuted.
Print Assumptions C37_destroyed_context_refuted.

(** ** The hypotheses are met *)
Example C37_run_nonvacuous : exists t : thread, sane t /\ exec t = Some 1 /\
  (exists t' r, run_task (BSetRes 9 (BRun (BSetRes 8 (BEnd (Exn 4))) (BNew (BEnd (Value 5)))) : body nat nat) t = Some (t', r) /\ r = Returned 5 /\ exec t' = Some 1 /\ resource t' = 0) /\
  exists t' r, run_task (BNew (BSetExec 4 (BDestroy 4 (BEnd (Exn 6)))) : body nat nat) t = Some (t', r) /\ r = Thrown 6 /\ exec t' = Some 1.
Proof.
  exists (mkT 0 (Some 1) [1] [1] [1] 2). split; [|split; [reflexivity|split]].
  - split; [intros k [= <-]; cbn; auto|]. split; [intros k [<-|[]]; cbn; auto|auto].
  - eexists. eexists. split; [vm_compute; reflexivity|]. auto.
  - eexists. eexists. split; [vm_compute; reflexivity|]. auto.
Qed.
