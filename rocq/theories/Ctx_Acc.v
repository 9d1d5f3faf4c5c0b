(** How often a coroutine begins, and how often its parts are destroyed. *)
From Coq Require Import List Bool Arith Lia Permutation.
From Verif Require Import Ctx_Model Ctx_Spec.
Import ListNotations.

Section Acc.
Context {V X : Type}.
Notation label := (label V X).
Notation event := (event V X).

Lemma times_app : forall f (a b : list event), times f (a ++ b) = times f a + times f b.
Proof. intros f a b. unfold times. rewrite filter_app, app_length. reflexivity. Qed.

Lemma times_perm : forall f (a b : list event), Permutation a b -> times f a = times f b.
Proof.
  intros f a b P. unfold times. induction P; cbn; auto.
  - destruct (f x); cbn; lia.
  - destruct (f x), (f y); cbn; lia.
  - lia.
Qed.

(** The frames below the top belong to suspended calls. *)
Inductive below_ok : list cframe -> Prop :=
| bo_nil : below_ok []
| bo_s : forall p rs, below_ok rs -> below_ok (KSusp p false :: KResume :: rs)
| bo_o : forall rs, below_ok rs -> below_ok (KOther :: rs).

Inductive wf (c : cstate) : list cframe -> Prop :=
| wf_nil : c <> CRun -> wf c []
| wf_run : forall b, c = CRun -> below_ok b -> wf c (KResume :: b)
| wf_fresh : forall p b, c = CSusp p -> below_ok b -> wf c (KSusp p true :: KResume :: b)
| wf_old : forall p b, c <> CRun -> below_ok b -> wf c (KSusp p false :: KResume :: b)
| wf_other : forall b, c <> CRun -> below_ok b -> wf c (KOther :: b).

Lemma wf_below : forall c b, below_ok b -> c <> CRun -> wf c b.
Proof. intros c b [|p rs H|rs H] N; constructor; auto. Qed.
Lemma touched_below : forall c st, wf c st -> env_turn st = true -> below_ok (touched st).
Proof. intros c st [H|b H H'|p b H H'|p b H H'|b H H'] E; cbn in *; try discriminate; constructor; auto. Qed.

Lemma wf_step : forall cf s l s' (e : list event), cstep cf s l = Some (s', e) -> wf (co s) (stk s) -> wf (co s') (stk s').
Proof.
  intros cf [c st] l s' e E W. cbn [co stk] in *.
  destruct l as [rd|k y [o|]|v|x|o|r o| | |]; cbn in E.
  - destruct c; try discriminate. destruct st; try discriminate.
    destruct (lazy cf), rd; injection E as <- <-; cbn in *; repeat constructor; discriminate.
  - destruct c; try discriminate. destruct st as [|[]]; try discriminate. injection E as <- <-. auto.
  - destruct c; try discriminate. destruct st as [|[]]; try discriminate. injection E as <- <-.
    inversion W; subst. constructor; auto.
  - destruct c; try discriminate. destruct st as [|[]]; try discriminate. injection E as E. unfold ended in E.
    inversion W; subst. destruct (never cf); injection E as <- <-; cbn [co stk]. apply wf_below; auto; discriminate. constructor; auto.
  - destruct c; try discriminate. destruct st as [|[]]; try discriminate. unfold ended in E. inversion W; subst.
    destruct (rethrow cf); [|destruct (never cf)]; injection E as <- <-; cbn [co stk]; try (apply wf_below; auto; discriminate). constructor; auto.
  - destruct c as [| |q|]; try discriminate.
    destruct q; try discriminate; destruct (env_turn st) eqn:ET; try discriminate; injection E as <- <-;
      (constructor; [reflexivity|exact (touched_below _ _ W ET)]).
  - destruct st as [|[|q fr|] st]; try (destruct r, c; discriminate).
    destruct st as [|[] st]; try (destruct r, c, fr; discriminate).
    assert (BO : below_ok st) by (inversion W; auto).
    assert (NR : c <> CRun) by (inversion W; subst; congruence).
    destruct r as [| | |x].
    + assert (E' : Some (mkC c st, [EBack]) = Some (s', e)) by (rewrite <- E; destruct c; reflexivity).
      injection E' as <- <-. apply wf_below; auto.
    + destruct c as [| |q'|]; try discriminate. destruct fr; try discriminate.
      destruct q; injection E as <- <-; cbn; try (constructor; auto). apply wf_below; auto; discriminate.
    + assert (E' : Some (mkC c (KOther :: st), []) = Some (s', e)) by (rewrite <- E; destruct c; reflexivity).
      injection E' as <- <-. constructor; auto.
    + destruct c as [| |q'|]; try discriminate. destruct fr; try discriminate.
      destruct q; try discriminate; injection E as <- <-; cbn. apply wf_below; auto; discriminate. constructor; auto.
  - destruct st as [|[] st]; try (destruct c; discriminate).
    assert (E' : Some (mkC c st, [EBack]) = Some (s', e)) by (rewrite <- E; destruct c; reflexivity).
    injection E' as <- <-. inversion W; subst. apply wf_below; auto.
  - destruct c as [| |q|]; try discriminate. destruct (env_turn st) eqn:ET; try discriminate. injection E as <- <-.
    apply wf_below. exact (touched_below _ _ W ET). discriminate.
  - destruct c as [| |q|]; try discriminate. destruct (env_turn st); try discriminate. injection E as <- <-. auto.
Qed.

Definition acc (c : cstate) (b l p f : nat) : Prop :=
  match c with
  | CNone | CSusp PInit => b = 0 /\ l = 0 /\ p = 0 /\ f = 0
  | CRun | CSusp (PAt _ _) => b = 1 /\ l = 0 /\ p = 0 /\ f = 0
  | CSusp PFinal => b = 1 /\ l = 1 /\ p = 0 /\ f = 0
  | CGone => b <= 1 /\ l = b /\ p = 1 /\ f = 1
  end.

Lemma acc_step : forall cf s l s' (e : list event) b lo p f,
  cstep cf s l = Some (s', e) -> acc (co s) b lo p f ->
  wf (co s) (stk s) ->
  acc (co s') (b + times is_begin e) (lo + times is_locals e) (p + times is_promise e) (f + times is_free e).
Proof.
  intros cf [c st] l s' e b lo p f E A W. cbn [co stk] in *.
  destruct l as [rd|k y [o|]|v|x|o|r o| | |]; cbn in E.
  - destruct c; try discriminate. destruct st; try discriminate.
    destruct (lazy cf), rd; injection E as <- <-; cbn in *; lia.
  - destruct c; try discriminate. destruct st as [|[]]; try discriminate. injection E as <- <-. cbn in *; lia.
  - destruct c; try discriminate. destruct st as [|[]]; try discriminate. injection E as <- <-. cbn in *; lia.
  - destruct c; try discriminate. destruct st as [|[]]; try discriminate. injection E as E. unfold ended in E.
    destruct (never cf); injection E as <- <-; cbn in *; lia.
  - destruct c; try discriminate. destruct st as [|[]]; try discriminate. unfold ended in E.
    destruct (rethrow cf); [|destruct (never cf)]; injection E as <- <-; cbn in *; lia.
  - destruct c as [| |q|]; try discriminate.
    destruct q; try discriminate; destruct (env_turn st); try discriminate; injection E as <- <-; cbn in *; lia.
  - destruct st as [|[|q fr|] st]; try (destruct r, c; discriminate).
    destruct st as [|[] st]; try (destruct r, c, fr; discriminate).
    destruct r as [| | |x].
    + assert (E' : Some (mkC c st, [EBack]) = Some (s', e)) by (rewrite <- E; destruct c; reflexivity).
      injection E' as <- <-. cbn [co]. cbn [times is_begin is_locals is_promise is_free filter length]. rewrite !Nat.add_0_r. exact A.
    + destruct c as [| |q'|]; try discriminate. destruct fr; try discriminate.
      assert (D : q = q') by (inversion W; congruence). subst q'.
      destruct q; injection E as <- <-; cbn in *; lia.
    + assert (E' : Some (mkC c (KOther :: st), []) = Some (s', e)) by (rewrite <- E; destruct c; reflexivity).
      injection E' as <- <-. cbn [co]. cbn [times is_begin is_locals is_promise is_free filter length]. rewrite !Nat.add_0_r. exact A.
    + destruct c as [| |q'|]; try discriminate. destruct fr; try discriminate.
      assert (D : q = q') by (inversion W; congruence). subst q'.
      destruct q; try discriminate; injection E as <- <-; cbn in *; lia.
  - destruct st as [|[] st]; try (destruct c; discriminate).
    assert (E' : Some (mkC c st, [EBack]) = Some (s', e)) by (rewrite <- E; destruct c; reflexivity).
    injection E' as <- <-. cbn [co]. cbn [times is_begin is_locals is_promise is_free filter length]. rewrite !Nat.add_0_r. exact A.
  - destruct c as [| |q|]; try discriminate. destruct (env_turn st); try discriminate. injection E as <- <-.
    destruct q; cbn in *; lia.
  - destruct c as [| |q|]; try discriminate. destruct (env_turn st); try discriminate. injection E as <- <-.
    cbn [co]. destruct q; cbn in *; lia.
Qed.

Lemma acc_run : forall cf ls s s' (e : list event) b lo p f, crun cf s ls = Some (s', e) ->
  wf (co s) (stk s) -> acc (co s) b lo p f ->
  wf (co s') (stk s') /\
  acc (co s') (b + times is_begin e) (lo + times is_locals e) (p + times is_promise e) (f + times is_free e).
Proof.
  intros cf. induction ls as [|l ls IH]; intros s s' e b lo p f E W A; cbn in E.
  - injection E as <- <-. cbn. rewrite !Nat.add_0_r. auto.
  - destruct (cstep cf s l) as [[s1 e1]|] eqn:E1; try discriminate.
    destruct (crun cf s1 ls) as [[s2 e2]|] eqn:E2; try discriminate. injection E as <- <-.
    rewrite !times_app, !Nat.add_assoc. eapply IH; eauto. eapply wf_step; eauto. eapply acc_step; eauto.
Qed.

Lemma acc_init : forall cf ls s (e : list event), crun cf cinit ls = Some (s, e) ->
  wf (co s) (stk s) /\ acc (co s) (times is_begin e) (times is_locals e) (times is_promise e) (times is_free e).
Proof.
  intros cf ls s e E. apply (acc_run cf ls cinit s e 0 0 0 0 E).
  - constructor; discriminate.
  - cbn; auto.
Qed.
End Acc.
