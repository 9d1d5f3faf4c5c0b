(** * An exception of the coroutine is not lost *)
From Coq Require Import List Bool Arith.
From Verif Require Import Gen_Model Gen_Spec.
Import ListNotations.

Section Thrown.
Context {Y P E : Type}.
Notation state := (state Y P E).
Notation event := (event Y P E).
Notation label := (label Y P E).

Definition given (tr : list event) (e : E) : Prop := exists w, In (EResult w (RExc (XUser e))) tr.

Definition over (s : state) : Prop := cst s = Dead \/ cst s = Leaked.

Definition TH (s : state) (tr : list event) : Prop :=
  forall e, In (EThrow e) tr -> over s /\ (In (EEscape e) tr \/ given tr e \/ exc s = Some (XUser e)).

Ltac inv H := inversion H; subst; clear H.

(** a step that throws nothing and leaves the end of the coroutine and its exception *)
Lemma TH_keep : forall s tr s' ev, TH s tr -> (forall e, ~ In (EThrow e) ev) ->
  (over s -> over s') ->
  (forall e, exc s = Some (XUser e) -> exc s' = Some (XUser e) \/ given ev e) -> TH s' (tr ++ ev).
Proof.
  intros s tr s' ev H N O X e I. apply in_app_or in I as [I|I]; [|destruct (N _ I)].
  destruct (H e I) as [A B]. split; auto. destruct B as [B|[[w B]|B]].
  - left. apply in_or_app; auto.
  - right; left. exists w. apply in_or_app; auto.
  - destruct (X e B) as [C|[w C]]; auto. right; left. exists w. apply in_or_app; auto.
Qed.

Lemma await_resume_th : forall w tp (s s' : state) ev, await_resume w tp s = (s', ev) ->
  (forall e, ~ In (EThrow e) ev) /\ (over s -> over s') /\
  (forall e, exc s = Some (XUser e) -> exc s' = Some (XUser e) \/ given ev e).
Proof.
  intros w tp s s' ev A. unfold await_resume in A. destruct (exc s) as [x|] eqn:X.
  - inv A. split; [intros e [I|[]]; discriminate|]. split; [auto|]. intros e Q. inv Q. right. exists w. left; auto.
  - destruct (res s) as [y|].
    + split; [|split; [|congruence]].
      * destruct tp; [destruct (pushed s)|]; inv A; cbn; intros e I; intuition discriminate.
      * intros O. destruct tp; inv A; unfold yielding; cbn; destruct O as [O|O]; rewrite O; cbn; unfold over; cbn; auto.
    + inv A. split; [intros e [I|[]]; discriminate|]. split; [auto|congruence].
Qed.

Lemma resume_th : forall w (s s' : state) ev, resume w s = (s', ev) ->
  (forall e, ~ In (EThrow e) ev) /\ (over s -> over s') /\
  (forall e, exc s = Some (XUser e) -> exc s' = Some (XUser e) \/ given ev e).
Proof.
  intros w s s' ev R. unfold resume in R. destruct (ws s w).
  - inv R. split; [intros e [I|[]]; discriminate|auto].
  - apply await_resume_th in R. exact R.
  - inv R. split; [intros e [I|[]]; discriminate|auto].
Qed.

Lemma continue_th : forall (s s' : state) ev, continue s = (s', ev) ->
  (forall e, ~ In (EThrow e) ev) /\ exc s' = exc s.
Proof. intros s s' ev R. unfold continue in R. destruct (pushed s); inv R; (split; [intros e [I|[]]; discriminate|auto]). Qed.

Lemma arrive_th : forall nv (s s' : state) ev, arrive nv s = (s', ev) -> ~ over s ->
  (forall e, ~ In (EThrow e) ev).
Proof.
  intros nv s s' ev R O. unfold arrive in R. destruct (is_some (pushed s) && _).
  - apply continue_th in R. tauto.
  - destruct (aw s); [apply resume_th in R; tauto|inv R; auto].
Qed.

Lemma final_th : forall (s s' : state) ev, final s = (s', ev) ->
  (forall e, ~ In (EThrow e) ev) /\ over s' /\
  (forall e, exc s = Some (XUser e) -> exc s' = Some (XUser e) \/ given ev e).
Proof.
  intros s s' ev R. unfold final in R. destruct (rec s).
  - destruct (aw s) as [w|].
    + match type of R with context [resume w ?x] => destruct (resume w x) as [s3 e3] eqn:Q end. inv R.
      apply resume_th in Q as (A & B & C). split; [intros e [I|I]; [discriminate|exact (A e I)]|].
      split; [apply B; left; auto|]. intros e X. destruct (C e X) as [D|[v D]]; auto. right. exists v. right; auto.
    + inv R. split; [intros e [I|[]]; discriminate|]. split; [left; auto|auto].
  - inv R. split; [intros e [I|[]]; discriminate|]. split; [left; auto|auto].
Qed.

Lemma fresh_TH : forall (s : state) tr, TH s tr -> ~ over s -> forall e, ~ In (EThrow e) tr.
Proof. intros s tr H O e I. destruct (H e I). auto. Qed.

Lemma TH_new : forall (s' : state) tr ev, (forall e, ~ In (EThrow e) tr) -> (forall e, ~ In (EThrow e) ev) -> TH s' (tr ++ ev).
Proof. intros s' tr ev A B e I. apply in_app_or in I as [I|I]; [destruct (A _ I)|destruct (B _ I)]. Qed.

Ltac nothrow := cbn; intros ? I; repeat (destruct I as [I|I]; try discriminate); try destruct I.

Lemma step_TH : forall nv l (s s' : state) tr ev, TH s tr -> step nv l s = Some (s', ev) -> TH s' (tr ++ ev).
Proof.
  intros nv l s s' tr ev H S.
  assert (NO : forall c, cst s = c -> c <> Dead -> c <> Leaked -> forall e, ~ In (EThrow e) tr).
  { intros c Q A B. refine (fresh_TH s tr H _). intros [O|O]; congruence. }
  destruct l as [|y| |y|y|e| | | |w p|w|w t| |t| |]; cbn in S.
  - destruct (lifeof s), (cst s) eqn:Q; inv S. apply TH_new; [exact (NO _ eq_refl ltac:(discriminate) ltac:(discriminate))|nothrow].
  - destruct (lifeof s), (cst s) eqn:Q; inv S. apply TH_new; [exact (NO _ eq_refl ltac:(discriminate) ltac:(discriminate))|nothrow].
  - destruct (cst s) eqn:Q; try discriminate.
    assert (ND : ~ over s) by (intros [O|O]; congruence).
    pose proof (NO _ eq_refl ltac:(discriminate) ltac:(discriminate)) as N.
    destruct (rec s); [|inv S; apply TH_new; [auto|nothrow]].
    destruct (arrive nv (set_lazy true s)) as [s1 e1] eqn:A. inv S. apply TH_new; auto.
    pose proof (arrive_th _ _ _ _ A ND) as A1. intros e [I|I]; [discriminate|exact (A1 e I)].
  - destruct (cst s) eqn:Q; try discriminate.
    assert (ND : ~ over s) by (intros [O|O]; congruence).
    pose proof (NO _ eq_refl ltac:(discriminate) ltac:(discriminate)) as N.
    destruct (rec s); [|inv S; apply TH_new; [auto|nothrow]].
    destruct (store y s) as [s1|] eqn:ST; [|inv S; apply TH_new; [auto|nothrow]].
    destruct (arrive nv s1) as [s2 e1] eqn:A. inv S. apply TH_new; auto.
    assert (C : cst s1 = cst s) by (unfold store in ST; destruct (res s), (buf s); inv ST; auto).
    pose proof (arrive_th _ _ _ _ A ltac:(intros [O|O]; congruence)) as A1. intros e [I|I]; [discriminate|exact (A1 e I)].
  - destruct (cst s) eqn:Q; try discriminate.
    pose proof (NO _ eq_refl ltac:(discriminate) ltac:(discriminate)) as N.
    destruct (rec s); [|inv S; apply TH_new; [auto|nothrow]].
    destruct (store y s) as [s1|] eqn:ST; inv S; (apply TH_new; [auto|nothrow]).
  - destruct (cst s) eqn:Q; try discriminate.
    pose proof (NO _ eq_refl ltac:(discriminate) ltac:(discriminate)) as N.
    destruct (rec s).
    + destruct (final (set_exc (Some (XUser e)) s)) as [s1 e1] eqn:F. inv S.
      apply final_th in F as (A & B & C). intros e' I. apply in_app_or in I as [I|[I|I]]; [destruct (N _ I)| |destruct (A _ I)].
      inv I. split; auto. right. destruct (C e' eq_refl) as [D|[w D]]; auto. left. exists w. apply in_or_app; right; right; auto.
    + inv S. intros e' I. apply in_app_or in I as [I|[I|[I|[]]]]; [destruct (N _ I)| |discriminate].
      inv I. split; [right; auto|]. left. apply in_or_app. right. right; left; auto.
  - destruct (cst s) eqn:Q; try discriminate.
    pose proof (NO _ eq_refl ltac:(discriminate) ltac:(discriminate)) as N.
    destruct (final s) as [s1 e1] eqn:F. inv S. apply final_th in F as (A & _). apply TH_new; auto.
  - destruct (cst s) eqn:Q; try discriminate.
    pose proof (NO _ eq_refl ltac:(discriminate) ltac:(discriminate)) as N.
    destruct (rec s); [|inv S; apply TH_new; [auto|nothrow]].
    destruct (aw s); inv S; (apply TH_new; [auto|nothrow]).
  - destruct (cst s) eqn:Q; try discriminate.
    pose proof (NO _ eq_refl ltac:(discriminate) ltac:(discriminate)) as N.
    destruct (rec s); [|inv S; apply TH_new; [auto|nothrow]].
    destruct (continue s) as [s1 e1] eqn:C. inv S. apply continue_th in C as [A _]. apply TH_new; auto.
  - destruct (ws s w) eqn:W; try discriminate. destruct (lifeof s); try discriminate.
    destruct (ready s).
    + destruct (await_resume w (Some p) s) as [s1 e1] eqn:A. inv S. apply await_resume_th in A as (A & B & C).
      eapply TH_keep; eauto.
      * intros e [I|I]; [discriminate|exact (A e I)].
      * intros e X. destruct (C e X) as [D|[v D]]; auto. right. exists v. right; auto.
    + destruct (aw s); [inv S; eapply TH_keep; eauto; nothrow|].
      match type of S with (let (_, _) := if yielding s then continue ?x else _ in _) = _ => set (s2 := x) in * end.
      assert (X2 : exc s2 = exc s) by (unfold s2; destruct (lazy s && _); auto).
      assert (C2 : cst s2 = cst s) by (unfold s2; destruct (lazy s && _); auto).
      destruct (yielding s) eqn:YL.
      * destruct (continue s2) as [s3 e3] eqn:C. inv S. apply continue_th in C as [A B].
        apply TH_new; [|intros e [I|I]; [discriminate|exact (A e I)]].
        unfold yielding in YL. destruct (cst s) eqn:Q; try discriminate. exact (NO _ eq_refl ltac:(discriminate) ltac:(discriminate)).
      * inv S. eapply TH_keep; eauto; [nothrow| |rewrite X2; auto]. unfold over. rewrite C2. auto.
  - destruct (ws s w); try discriminate. destruct (live s); inv S. eapply TH_keep; eauto; nothrow.
  - destruct (ws s w); try discriminate. destruct (frame s); inv S; eapply TH_keep; eauto; nothrow.
  - destruct (lifeof s); try discriminate. destruct (exc s) eqn:X; [|destruct (res s)]; inv S; eapply TH_keep; eauto; try nothrow.
  - destruct (lifeof s); try discriminate. unfold cancel in S. destruct (done s); [|destruct (frame s); [destruct (rec s)|]]; inv S; eapply TH_keep; eauto; nothrow.
  - destruct (lifeof s); try discriminate. unfold cancel in S. destruct (done s); [|destruct (frame s); [destruct (rec s)|]]; inv S; eapply TH_keep; eauto; nothrow.
  - destruct (lifeof s); try discriminate. destruct (negb (done s) && negb (frame s)); [inv S; eapply TH_keep; eauto; nothrow|].
    set (s1 := if done s then s else set_rec false s) in *.
    assert (X1 : exc s1 = exc s) by (unfold s1; destruct (done s); auto).
    assert (C1 : cst s1 = cst s) by (unfold s1; destruct (done s); auto).
    destruct (yielding s1) eqn:YL.
    + unfold kill_w in S. cbn in S. assert (N : forall e, ~ In (EThrow e) tr).
      { unfold yielding in YL. rewrite C1 in YL. destruct (cst s) eqn:Q; try discriminate. exact (NO _ eq_refl ltac:(discriminate) ltac:(discriminate)). }
      destruct (aw s1); inv S; (apply TH_new; [auto|nothrow]).
    + unfold kill_w in S. cbn in S. destruct (aw s1); inv S; (eapply TH_keep; eauto; [nothrow| |cbn; rewrite X1; auto]);
        unfold over; cbn; rewrite C1; auto.
Qed.

Lemma run_TH : forall nv ls (s s' : state) tr ev, TH s tr -> run nv s ls = Some (s', ev) -> TH s' (tr ++ ev).
Proof.
  induction ls as [|l ls IH]; intros s s' tr ev H R; cbn in R.
  - inv R. rewrite app_nil_r. auto.
  - destruct (step nv l s) as [[s1 e1]|] eqn:S; [|discriminate].
    destruct (run nv s1 ls) as [[s2 e2]|] eqn:R2; [|discriminate]. inv R. rewrite app_assoc.
    eapply IH; eauto. eapply step_TH; eauto.
Qed.

Theorem exception_not_lost : forall nv ls (s : state) tr, run nv init ls = Some (s, tr) ->
  forall e, In (EThrow e) tr -> In (EEscape e) tr \/ given tr e \/
  forall w p s' ev, step nv (LAwait w p) s = Some (s', ev) -> In (EResult w (RExc (XUser e))) ev.
Proof.
  intros nv ls s tr R e I. assert (H : TH s ([] ++ tr)) by (eapply run_TH; eauto; intros x []).
  destruct (H e I) as [_ [A|[A|A]]]; auto. right; right. intros w p s' ev S. cbn in S.
  destruct (ws s w); try discriminate. destruct (lifeof s); try discriminate.
  unfold ready in S. rewrite A in S. cbn in S. unfold await_resume in S. rewrite A in S. inv S. right; left; auto.
Qed.

(** and it escapes only if the generator is gone *)
End Thrown.
