(** * The coroutine's exception comes after all its values *)
From Coq Require Import List Bool Arith Lia.
From Verif Require Import Gen_Model Gen_Spec Gen_Inv.
Import ListNotations.

Section Last.
Context {Y P E : Type}.
Notation event := (event Y P E).
Notation state := (state Y P E).
Notation label := (label Y P E).

(** With this an exception comes last. *)
Definition Q2 (a : list event) (e : event) : Prop :=
  match e with
  | EResult w (RExc (XUser _)) | EResult w (RExc XUnexpected) => taken a = yielded a
  | _ => True
  end.
Fixpoint Q2all (a : list event) (ev : list event) : Prop :=
  match ev with
  | [] => True
  | e :: t => Q2 a e /\ Q2all (a ++ [e]) t
  end.
Lemma Q2all_app ev1 : forall a ev2, Q2all a (ev1 ++ ev2) <-> Q2all a ev1 /\ Q2all (a ++ ev1) ev2.
Proof.
  induction ev1 as [|e t IH]; intros; cbn; [rewrite app_nil_r; tauto|].
  rewrite IH, <- app_assoc. cbn. tauto.
Qed.
Lemma step_Q2 nv l s s' ev tr : yielded tr = taken tr ++ o2l (res s) ++ o2l (buf s) ->
  (cst s = Running -> res s = None) -> buf s = None -> (exc s <> None -> res s = None /\ cst s = Dead) ->
  step nv l s = Some (s', ev) -> Q2all tr ev.
Proof.
  intros T1 M1 M2 M3 S. destruct s as [lf r b x d a lz pu c rc w].
  cbn -[upd] in *. subst b.
  destruct l.
  all: unfold step, cancel, final, arrive, resume, continue, kill_w, await_resume, store, get_result, ready, live, frame, yielding in S; cbn -[upd] in S; split_step S.
  all: injection S as <- <-.
  all: cbn -[upd] in *; try exact I; repeat split.
  all: try match goal with |- match ?e with XUser _ => _ | _ => _ end => destruct e; try exact I end.
  all: try (rewrite M1 in T1 by reflexivity); try (destruct M3 as [M3 M4]; [discriminate|]; try discriminate M4; rewrite M3 in T1); subst; try discriminate.
  all: cbn in T1; rewrite ?app_nil_r in T1; rewrite ?yielded_app, ?taken_app; cbn; rewrite ?app_nil_r; try congruence.
  all: discriminate (M1 eq_refl).
Qed.
End Last.
