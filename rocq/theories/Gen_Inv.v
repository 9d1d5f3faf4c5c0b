(** * Invariants of the generator model *)
From Coq Require Import List Bool Arith Lia.
From Verif Require Import Gen_Model Gen_Spec.
Import ListNotations.

Section Inv.
Context {Y P E : Type}.
Notation event := (event Y P E).
Notation state := (state Y P E).
Notation label := (label Y P E).

Lemma upd_eq {A} (f : nat -> A) i a : upd f i a i = a.
Proof. unfold upd. now rewrite Nat.eqb_refl. Qed.
Lemma upd_ne {A} (f : nat -> A) i a j : j <> i -> upd f i a j = f j.
Proof. unfold upd. intros N. apply Nat.eqb_neq in N. now rewrite N. Qed.

Lemma yielded_app (a b : list event) : yielded (a ++ b) = yielded a ++ yielded b.
Proof. apply flat_map_app. Qed.
Lemma taken_app (a b : list event) : taken (a ++ b) = taken a ++ taken b.
Proof. apply flat_map_app. Qed.
Lemma pushes_app (a b : list event) : pushes (a ++ b) = pushes a ++ pushes b.
Proof. apply flat_map_app. Qed.
Lemma received_app (a b : list event) : received (a ++ b) = received a ++ received b.
Proof. apply flat_map_app. Qed.
Lemma points_app (a b : list event) : points (a ++ b) = points a + points b.
Proof. unfold points. now rewrite flat_map_app, app_length. Qed.
Lemma failures_app (a b : list event) : failures (a ++ b) = failures a + failures b.
Proof. unfold failures. now rewrite flat_map_app, app_length. Qed.

Definition o2l {A} (o : option A) : list A := match o with Some a => [a] | None => [] end.
(** The value a waiting awaiter still has to push. *)
Definition wpush (s : state) : list P :=
  match aw s with
  | Some w => match ws s w with WSusp tp => o2l tp | _ => [] end
  | None => []
  end.

Record INV (nv : bool) (s : state) : Prop := {
  i_buf : res s = None -> buf s = None;
  i_run_buf : cst s = Running -> buf s = None;
  i_run_res : cst s = Running -> res s <> None -> pushed s = None /\ nv = true /\ lazy s = true;
  i_run_eager : cst s = Running -> lazy s = false -> pushed s = None;
  i_posted : cst s = Posted -> pushed s <> None /\ lazy s = false /\ res s = None;
  i_yield : cst s = Yielding -> rec s = true /\ (lazy s = false -> res s <> None);
  i_live : live s = true -> done s = false -> rec s = true;
  i_rec : rec s = true -> live s = true /\ done s = false /\
          (cst s = Running \/ cst s = Yielding \/ cst s = Posted \/ cst s = Returning);
  i_aw : forall w, aw s = Some w -> rec s = true /\ cst s <> Yielding /\ exists tp, ws s w = WSusp tp;
  i_ws : forall w tp, ws s w = WSusp tp -> aw s = Some w;
  i_aw_eager : forall w, aw s = Some w -> lazy s = false -> ws s w <> WSusp None;
  i_eager_buf : lazy s = false -> buf s = None;
  i_exc : exc s <> None -> done s = true;
  i_absent : lifeof s = Absent -> res s = None /\ buf s = None /\ exc s = None /\ done s = false /\ aw s = None /\ lazy s = false /\
             pushed s = None /\ cst s = NotYet /\ rec s = false;
  i_notyet : cst s = NotYet -> lifeof s = Absent;
  i_done : done s = true -> cst s = Dead }.

Lemma init_INV nv : INV nv init.
Proof. constructor; cbn; try congruence; auto. intros _. repeat split. Qed.

Ltac crush_upd :=
  repeat match goal with
  | H : context [upd _ ?i _ ?j] |- _ => destruct (Nat.eq_dec j i) as [?|?]; [subst; rewrite upd_eq in H|rewrite upd_ne in H by assumption]
  | |- context [upd _ ?i _ ?j] => destruct (Nat.eq_dec j i) as [?|?]; [subst; rewrite upd_eq|rewrite upd_ne by assumption]
  end.

Ltac split_step S :=
  repeat (match type of S with
          | context [match ?x with _ => _ end] =>
              match x with
              | context [match _ with _ => _ end] => fail 1
              | _ => destruct x eqn:?
              end
          end; cbn -[upd] in S; rewrite ?upd_eq in S; try discriminate S).
Ltac open_step S :=
  unfold step, cancel, final, arrive, resume, continue, kill_w, await_resume, store, get_result in S; cbn -[upd] in S; split_step S.

Ltac sat :=
  repeat (match goal with
  | H : ?x = ?x -> _ |- _ => specialize (H eq_refl)
  | H : ?x = ?x |- _ => clear H
  | H : ?x <> ?x |- _ => exfalso; exact (H eq_refl)
  | H : ?a = ?b -> _ |- _ => 
      first [ let K := fresh in assert (K : a <> b) by discriminate; clear H K
            | match goal with E : a = b |- _ => specialize (H E) end ]
  | H : Some _ <> None -> _ |- _ => specialize (H ltac:(discriminate))
  | H : None <> None -> _ |- _ => clear H
  | H : Some _ = Some _ |- _ => injection H as H; subst
  | H : _ /\ _ |- _ => destruct H
  | H : exists _, _ |- _ => destruct H
  | H : forall e, Some (XUser ?a) = Some (XUser e) -> _ |- _ => specialize (H a eq_refl)
  | H : forall e, Some ?x = Some (XUser e) -> _ |- _ => assert_fails (is_var x); clear H
  | H : forall e, None = Some (XUser e) -> _ |- _ => clear H
  | H : forall w, Some ?a = Some w -> _ |- _ => specialize (H a eq_refl)
  | H : forall w, None = Some w -> _ |- _ => clear H
  | H : _ && _ = true |- _ => apply andb_true_iff in H
  | H : _ || _ = false |- _ => apply orb_false_iff in H
  | H : negb _ = true |- _ => apply negb_true_iff in H
  | H : negb _ = false |- _ => apply negb_false_iff in H
  | H : _ && _ = false |- _ => apply andb_false_iff in H; destruct H
  | H : match ?x with _ => _ end = true |- _ => destruct x eqn:?; try discriminate H; clear H
  | H : _ || false = true |- _ => rewrite orb_false_r in H
  | H : ?b = false -> Some _ = None |- _ => is_var b; destruct b
  | H : is_some ?o = _ |- _ => destruct o eqn:?; cbn in H; try discriminate H; clear H
  end; subst; try discriminate; try congruence).

Ltac fin :=
  intros; subst; crush_upd; sat;
  repeat match goal with
  | J : (forall w tp, ?f w = WSusp tp -> _), H : ?f _ = WSusp _ |- _ => pose proof (J _ _ H); revert H
  end; intros; subst; sat; try solve [congruence | discriminate | tauto | (repeat split; congruence) | (intuition congruence) | eauto | (repeat split; try congruence; eauto)
    | (match goal with b : bool |- _ => destruct b; sat; intuition congruence end)].

Lemma step_INV nv l s s' ev : INV nv s -> ok s l = true -> step nv l s = Some (s', ev) -> INV nv s' /\ forall b, ~ In (EBad b) ev.
Proof.
  intros I K S. destruct s as [lf r b x d a lz pu c rc w]. destruct I as [J1 J2 J3 J4 J5 J6 J7 J8 J9 J10 J11 J12 J13 J14 J15 J16]. 
  cbn -[upd] in *. unfold ready, live, frame, yielding in *. cbn -[upd] in *.
  destruct l.
  all: unfold step, cancel, final, arrive, resume, continue, kill_w, await_resume, store, get_result, ready, live, frame, yielding in S; cbn -[upd] in S; split_step S.
  all: injection S as <- <-.
  all: cbn -[upd] in *; subst.
  all: sat.
  all: split; [constructor; cbn -[upd]; unfold live; cbn -[upd]; fin|cbn; intros; try solve [intuition congruence]; fin].
Qed.
End Inv.

Ltac crush_upd :=
  repeat match goal with
  | H : context [upd _ ?i _ ?j] |- _ => destruct (Nat.eq_dec j i) as [?|?]; [subst; rewrite upd_eq in H|rewrite upd_ne in H by assumption]
  | |- context [upd _ ?i _ ?j] => destruct (Nat.eq_dec j i) as [?|?]; [subst; rewrite upd_eq|rewrite upd_ne by assumption]
  end.
Ltac split_step S :=
  repeat (match type of S with
          | context [match ?x with _ => _ end] =>
              match x with
              | context [match _ with _ => _ end] => fail 1
              | _ => destruct x eqn:?
              end
          end; cbn -[upd] in S; rewrite ?upd_eq in S; try discriminate S).
Ltac open_step S :=
  unfold step, cancel, final, arrive, resume, continue, kill_w, await_resume, store, get_result in S; cbn -[upd] in S; split_step S.

Ltac sat :=
  repeat (match goal with
  | H : ?x = ?x -> _ |- _ => specialize (H eq_refl)
  | H : ?x = ?x |- _ => clear H
  | H : ?x <> ?x |- _ => exfalso; exact (H eq_refl)
  | H : ?a = ?b -> _ |- _ => 
      first [ let K := fresh in assert (K : a <> b) by discriminate; clear H K
            | match goal with E : a = b |- _ => specialize (H E) end ]
  | H : Some _ <> None -> _ |- _ => specialize (H ltac:(discriminate))
  | H : None <> None -> _ |- _ => clear H
  | H : Some _ = Some _ |- _ => injection H as H; subst
  | H : _ /\ _ |- _ => destruct H
  | H : exists _, _ |- _ => destruct H
  | H : forall e, Some (XUser ?a) = Some (XUser e) -> _ |- _ => specialize (H a eq_refl)
  | H : forall e, Some ?x = Some (XUser e) -> _ |- _ => assert_fails (is_var x); clear H
  | H : forall e, None = Some (XUser e) -> _ |- _ => clear H
  | H : forall w, Some ?a = Some w -> _ |- _ => specialize (H a eq_refl)
  | H : forall w, None = Some w -> _ |- _ => clear H
  | H : _ && _ = true |- _ => apply andb_true_iff in H
  | H : _ || _ = false |- _ => apply orb_false_iff in H
  | H : negb _ = true |- _ => apply negb_true_iff in H
  | H : negb _ = false |- _ => apply negb_false_iff in H
  | H : _ && _ = false |- _ => apply andb_false_iff in H; destruct H
  | H : match ?x with _ => _ end = true |- _ => destruct x eqn:?; try discriminate H; clear H
  | H : _ || false = true |- _ => rewrite orb_false_r in H
  | H : ?b = false -> Some _ = None |- _ => is_var b; destruct b
  | H : is_some ?o = _ |- _ => destruct o eqn:?; cbn in H; try discriminate H; clear H
  end; subst; try discriminate; try congruence).

Ltac fin :=
  intros; subst; crush_upd; sat;
  repeat match goal with
  | J : (forall w tp, ?f w = WSusp tp -> _), H : ?f _ = WSusp _ |- _ => pose proof (J _ _ H); revert H
  end; intros; subst; sat; try solve [congruence | discriminate | tauto | (repeat split; congruence) | (intuition congruence) | eauto | (repeat split; try congruence; eauto)
    | (match goal with b : bool |- _ => destruct b; sat; intuition congruence end)].


