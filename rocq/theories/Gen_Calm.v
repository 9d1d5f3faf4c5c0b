(** * Generators whose awaits are not interrupted, or with a pushed value *)
From Coq Require Import List Bool Arith Lia.
From Verif Require Import Gen_Model Gen_Spec Gen_Inv.
Import ListNotations.

Section Calm.
Context {Y P E : Type}.
Notation event := (event Y P E).
Notation state := (state Y P E).
Notation label := (label Y P E).

(** Holds with [calm] steps. *)
Record CINV (s : state) (tr : list event) : Prop := {
  c_run : cst s = Running -> res s = None /\ pushed s = None;
  c_lazy : cst s = Running -> rec s = true -> lazy s = true -> wpush s = [] /\ aw s <> None;
  c_yield : cst s = Yielding -> pushed s = None /\ (lazy s = true -> res s = None);
  c_buf : buf s = None;
  c_push : (match cst s with Running | Yielding | Posted => rec s | _ => false end) = true -> pushes tr = received tr ++ o2l (pushed s) ++ wpush s;
  c_rest : exists rest, pushes tr = received tr ++ rest;
  c_absent : lifeof s = Absent -> pushes tr = [] /\ received tr = [];
  c_exc : exc s <> None -> res s = None;
  c_ow : res s <> None -> pushed s = None }.

(** Holds with [novalue] = false, and as long as the generator is eager, whatever the steps. *)
Record NINV (s : state) : Prop := {
  n_run : cst s = Running -> res s = None;
  n_buf : buf s = None;
  n_exc : exc s <> None -> res s = None }.

Lemma init_CINV : CINV init [].
Proof. constructor; cbn; try congruence; auto; try (intros; discriminate). now exists []. Qed.
Lemma init_NINV : NINV init.
Proof. constructor; cbn; congruence. Qed.

Lemma step_lazy nv (l : label) (s s' : state) ev : l <> LInitial -> lazy s = false -> step nv l s = Some (s', ev) -> lazy s' = false.
Proof.
  intros D L S. destruct s as [lf r b x d a lz pu c rc w]. cbn -[upd] in *. subst lz.
  destruct l; [| |congruence|..]; clear D.
  all: unfold step, cancel, final, arrive, resume, continue, kill_w, await_resume, store, get_result, ready, live, frame, yielding in S; cbn -[upd] in S; split_step S.
  all: injection S as <- <-; reflexivity.
Qed.
Lemma step_NINV nv (l : label) (s s' : state) ev : nv = false \/ lazy s = false /\ l <> LInitial ->
  INV nv s -> NINV s -> ok s l = true -> step nv l s = Some (s', ev) -> NINV s'.
Proof.
  intros O I N K S. destruct (step_INV _ _ _ _ _ I K S) as [I' _].
  assert (N1 : cst s' = Running -> res s' = None).
  { intros Q. destruct (res s') eqn:R; auto. exfalso. destruct (i_run_res _ _ I' Q) as (_ & A & B); [congruence|].
    destruct O as [O|[O D]]; [congruence|]. rewrite (step_lazy nv l s s' ev D O S) in B. discriminate. }
  destruct s as [lf r b x d a lz pu c rc w]. destruct I as [J1 J2 J3 J4 J5 J6 J7 J8 J9 J10 J11 J12 J13 J14 J15 J16].
  destruct N as [M1 M2 M3]. clear I'.
  cbn -[upd] in *. unfold ready, live, frame, yielding in *. cbn -[upd] in *. subst b.
  destruct l.
  all: unfold step, cancel, final, arrive, resume, continue, kill_w, await_resume, store, get_result, ready, live, frame, yielding in S; cbn -[upd] in S; split_step S.
  all: injection S as <- <-.
  all: cbn -[upd] in *; subst; sat; constructor; cbn -[upd] in *; intros; sat; try congruence; auto; try solve [intuition congruence].
  all: destruct O as [O|[O D]]; sat; try congruence; try solve [intuition congruence].
Qed.

Lemma wpush_upd lf r b x d a lz pu c rc w i v : a <> Some i ->
  wpush (mkS lf r b x d a lz pu c rc (upd w i v) : state) = wpush (mkS lf r b x d a lz pu c rc w).
Proof. intros N. unfold wpush. cbn -[upd]. destruct a; auto. rewrite upd_ne; auto; congruence. Qed.

Ltac app := cbn -[upd]; rewrite ?pushes_app, ?received_app; cbn -[upd]; rewrite ?app_nil_r.

Lemma step_CINV nv l s s' ev tr : INV nv s -> CINV s tr -> ok s l = true -> calm l = true -> step nv l s = Some (s', ev) ->
  CINV s' (tr ++ ev).
Proof.
  intros I C K M S. destruct s as [lf r b x d a lz pu c rc w]. destruct I as [J1 J2 J3 J4 J5 J6 J7 J8 J9 J10 J11 J12 J13 J14 J15 J16].
  destruct C as [C1 C2 C3 C4 C5 C6 C7 C8 C9].
  unfold wpush in *. cbn -[upd] in *. unfold ready, live, frame, yielding in *. cbn -[upd] in *. subst b.
  destruct l; try discriminate M; clear M.
  all: unfold step, cancel, final, arrive, resume, continue, kill_w, await_resume, store, get_result, ready, live, frame, yielding in S; cbn -[upd] in S; split_step S.
  all: injection S as <- <-.
  all: cbn -[upd] in *; subst; sat; constructor; unfold wpush; cbn -[upd] in *; rewrite ?upd_eq; app.
  all: try solve [intros; sat; try congruence; auto; try solve [intuition congruence]].
  all: try solve [match goal with H : pushes ?tr = received ?tr ++ _ |- context [pushes ?tr] => rewrite H end; rewrite <- ?app_assoc; cbn; eexists; reflexivity].
  all: try solve [match goal with b : bool |- _ => destruct b end; intros; sat; try congruence; intuition congruence].
  all: try match goal with H : pushes ?tr = received ?tr ++ ?x |- _ => is_var x; clear H end.
  all: intros; try match goal with H : pushes ?tr = received ?tr ++ _ |- context [pushes ?tr] => rewrite H end; cbn; rewrite <- ?app_assoc; cbn; rewrite ?app_nil_r; try reflexivity; try (eexists; reflexivity).
  all: try solve [eexists; rewrite <- app_assoc; reflexivity | exists []; now rewrite app_nil_r].
  all: match goal with J : (forall w0, ?a = Some w0 -> _) |- _ => destruct a end; [sat|reflexivity].
Qed.
Lemma step_overwrite nv l s s' ev tr q : CINV s tr -> (exc s <> None -> cst s = Dead) -> step nv l s = Some (s', ev) -> ~ In (EOverwrite q) ev.
Proof.
  intros N X S. pose proof (c_run _ _ N) as N1. pose proof (c_ow _ _ N) as N2. clear N. destruct s as [lf r b x d a lz pu c rc w]. cbn -[upd] in *.
  destruct l.
  all: unfold step, cancel, final, arrive, resume, continue, kill_w, await_resume, store, get_result, ready, live, frame, yielding in S; cbn -[upd] in S; split_step S.
  all: injection S as <- <-.
  all: cbn -[upd] in *; try solve [intuition discriminate]; subst.
  all: sat.
  all: intuition discriminate.
Qed.
End Calm.
