(** * Trace invariants of the generator model *)
From Coq Require Import List Bool Arith Lia.
From Verif Require Import Gen_Model Gen_Spec Gen_Inv.
Import ListNotations.

Section Step.
Context {Y P E : Type}.
Notation event := (event Y P E).
Notation state := (state Y P E).
Notation label := (label Y P E).

Definition returns (tr : list event) : nat :=
  length (flat_map (fun e => match e with EReturn _ => [tt] | _ => [] end) tr).
Lemma returns_app (a b : list event) : returns (a ++ b) = returns a + returns b.
Proof. unfold returns. now rewrite flat_map_app, app_length. Qed.

Definition user_exc (s : state) : nat := match exc s with Some (XUser _) => 1 | _ => 0 end.

Record TINV (s : state) (tr : list event) : Prop := {
  t_vals : yielded tr = taken tr ++ o2l (res s) ++ o2l (buf s);
  t_run : cst s = Running -> rec s = true -> points tr = length (received tr) /\ returns tr = 0;
  t_susp : (match cst s with Yielding | Posted => true | _ => false end) = true -> points tr = S (length (received tr)) /\ returns tr = 0;
  t_all : points tr + returns tr <= S (length (received tr));
  t_cnt : length (received tr) + length (o2l (pushed s)) + length (wpush s) <= length (pushes tr);
  t_user : forall e, exc s = Some (XUser e) -> In (EThrow e) tr;
  t_unexp : exc s = Some XUnexpected -> In EKill tr;
  t_exc : exc s <> Some XDetached /\ exc s <> Some XAlready /\ exc s <> Some XVoid;
  t_done : done s = true -> ended tr;
  t_fail : failures tr + user_exc s <= if done s then 1 else 0;
  t_absent : lifeof s = Absent -> tr = [];
  t_low : length (received tr) <= points tr;
  t_gone : lifeof s = Gone -> In EDestroy tr }.

Definition Q (a : list event) (e : event) : Prop :=
  match e with
  | EResult w (RExc (XUser x)) => In (EThrow x) a
  | EResult w (RExc XVoid) => ended a /\ taken a = yielded a
  | EResult w (RExc XDetached) => exists a', a = a' ++ [EInterrupt w]
  | EResult w (RExc XUnexpected) => In EKill a
  | EResult w (RExc XAlready) => False
  | EBad _ => False
  | ELost _ => In EDestroy a
  | _ => True
  end.
Fixpoint Qall (a : list event) (ev : list event) : Prop :=
  match ev with
  | [] => True
  | e :: t => Q a e /\ Qall (a ++ [e]) t
  end.
Lemma Qall_app ev1 : forall a ev2, Qall a (ev1 ++ ev2) <-> Qall a ev1 /\ Qall (a ++ ev1) ev2.
Proof.
  induction ev1 as [|e t IH]; intros; cbn; [rewrite app_nil_r; tauto|].
  rewrite IH, <- app_assoc. cbn. tauto.
Qed.

Lemma init_TINV : TINV init [].
Proof. constructor; cbn; try congruence; try lia; auto; intros; try discriminate. repeat split; discriminate. Qed.

Ltac simp :=
  rewrite ?yielded_app, ?taken_app, ?pushes_app, ?received_app, ?points_app, ?failures_app, ?returns_app, ?app_length; cbn -[upd];
  rewrite ?app_nil_r.

Ltac vals :=
  try match goal with T : yielded ?tr = _ |- context [yielded ?tr] => rewrite T; clear - T end; cbn; rewrite <- ?app_assoc; cbn; rewrite ?app_nil_r; try reflexivity.
Ltac cases_exc := try match goal with |- context [match ?e with XUser _ => _ | _ => _ end] => destruct e end.
Ltac nums := cases_exc; intros; sat; cbn -[upd] in *; try lia.
Ltac trace := cases_exc; unfold ended in *; rewrite ?app_nil_r in *; intros; subst; sat; simp; rewrite ?in_app_iff in *; cbn in *; rewrite ?in_app_iff in *;
  try match goal with H : forall b, ~ (EBad _ = EBad b \/ _) |- _ => exfalso; eapply H; left; reflexivity end;
  try solve [tauto | congruence | intuition congruence | eauto].

Lemma step_TINV nv l s s' ev tr : INV nv s -> TINV s tr -> ok s l = true -> step nv l s = Some (s', ev) ->
  TINV s' (tr ++ ev) /\ Qall tr ev.
Proof.
  intros I T K S. pose proof (proj2 (step_INV _ _ _ _ _ I K S)) as NB. destruct s as [lf r b x d a lz pu c rc w]. destruct I as [J1 J2 J3 J4 J5 J6 J7 J8 J9 J10 J11 J12 J13 J14 J15 J16].
  destruct T as [T1 T2 T3 T4 T5 T6 T7 T8 T9 T10 T11 T12 T13].
  unfold wpush, user_exc in *. cbn -[upd] in *. unfold ready, live, frame, yielding in *. cbn -[upd] in *.
  destruct l.
  all: unfold step, cancel, final, arrive, resume, continue, kill_w, await_resume, store, get_result, ready, live, frame, yielding in S; cbn -[upd] in S; split_step S.
  all: injection S as <- <-.
  all: cbn -[upd] in *; subst.
  all: sat.
  all: cbn -[upd] in *.
  all: split; [constructor; unfold wpush, user_exc; cbn -[upd]; rewrite ?upd_eq; simp;
    [ vals | nums | nums | nums | nums | trace | trace | trace | trace | nums | trace | nums | trace ] | trace ].
  all: destruct d; [discriminate (J16 eq_refl)|]; destruct lf; sat; tauto.
Qed.
End Step.
