(** * Proofs about composed operations *)
From Coq Require Import List Bool Arith Lia.
From Verif Require Import Comp_Model Comp_Spec.
Import ListNotations.

Ltac inv H := inversion H; subst; clear H.

Lemma run_app : forall d l1 s0 s2 e l2, run d s0 (l1 ++ l2) = Some (s2, e) ->
  exists s1 e1 e2, run d s0 l1 = Some (s1, e1) /\ run d s1 l2 = Some (s2, e2) /\ e = e1 ++ e2.
Proof.
  induction l1 as [|l l1 IH]; intros s0 s2 e l2 R; cbn in *.
  - exists s0, [], e. auto.
  - destruct (step d s0 l) as [[sa ea]|]; [|discriminate].
    destruct (run d sa (l1 ++ l2)) as [[sb eb]|] eqn:Q; [|discriminate]. inv R.
    destruct (IH _ _ _ _ Q) as (s1 & e1 & e2 & A & B & ->). rewrite A. exists s1, (ea ++ e1), e2. rewrite app_assoc. auto.
Qed.

Lemma run_snoc : forall d ls l s e, run d init (ls ++ [l]) = Some (s, e) ->
  exists s1 e1 e2, run d init ls = Some (s1, e1) /\ step d s1 l = Some (s, e2) /\ e = e1 ++ e2.
Proof.
  intros d ls l s e R. destruct (run_app _ _ _ _ _ _ R) as (s1 & e1 & e2 & A & B & ->).
  cbn in B. destruct (step d s1 l) as [[sx ex]|] eqn:S; [|discriminate]. inv B.
  exists s1, e1, ex. rewrite app_nil_r. auto.
Qed.

Lemma seen_app : forall a b, seen (a ++ b) = seen a ++ seen b.
Proof. intros. apply filter_app. Qed.
Lemma susp_app : forall a b, suspended_first (a ++ b) = suspended_first a || suspended_first b.
Proof. intros. apply existsb_app. Qed.
Lemma ret_app : forall a b, returned (a ++ b) = returned a ++ returned b.
Proof. intros. apply flat_map_app. Qed.

Definition PI (ls : list label) (s : state) (tr : list event) : Prop :=
  seen tr = expected ls /\
  match inner s with
  | NotYet => suspended_first ls = false /\ returned ls = [] /\ outer s = Suspending
  | Run true => suspended_first ls = false /\ returned ls = [] /\ ci s = initiating /\ outer s = Suspending
  | Run false | Susp => suspended_first ls = true /\ returned ls = [] /\ ci s = no /\ outer s = Suspended
  | ToDelete | Freed => exists a, returned ls = [a] /\ outer s = Going
  | Stuck => False
  end.

Lemma plain_inv : forall d ls s tr, Forall plain ls -> run d init ls = Some (s, tr) -> PI ls s tr.
Proof.
  intros d ls. induction ls as [|l ls IH] using rev_ind; intros s tr P R.
  - inv R. unfold PI. cbn. auto.
  - apply Forall_app in P as [P P1]. inv P1. destruct (run_snoc _ _ _ _ _ R) as (s1 & e1 & e2 & A & S & ->).
    destruct (IH _ _ P A) as [SE IV]. clear IH A R P.
    unfold PI. unfold expected in *. rewrite seen_app, susp_app, ret_app, SE.
    destruct s1 as [c o i im]. cbn in IV. destruct l as [[|]| | |a|e| | |]; cbn in *; try tauto.
    + destruct i; try discriminate. destruct IV as (-> & -> & ->). inv S. cbn. auto.
    + destruct i as [|[|]| | | |]; try discriminate.
      * destruct IV as (-> & -> & -> & ->). inv S. cbn. auto.
      * destruct IV as (-> & -> & -> & ->). inv S. cbn. auto.
    + destruct i as [|[|]| | | |]; try discriminate. destruct IV as (-> & -> & -> & ->). inv S. cbn. auto.
    + destruct i as [|[|]| | | |]; try discriminate; destruct IV as (-> & -> & -> & ->); destruct d; inv S; cbn; eauto.
    + destruct i as [|[|]| | | |]; try discriminate. destruct IV as (a & -> & ->). inv S. cbn. split; [|eauto].
      rewrite !app_nil_r, !orb_false_r. auto.
Qed.

Theorem composition_seen : forall d ls s tr, Forall plain ls -> run d init ls = Some (s, tr) ->
  seen tr = expected ls /\ length (returned ls) <= 1.
Proof.
  intros d ls s tr P R. destruct (plain_inv _ _ _ _ P R) as [A B]. split; auto.
  destruct (inner s) as [|[|]| | | |]; try tauto; try (destruct B as (_ & -> & _); cbn; lia).
  all: destruct B as (a & -> & _); cbn; lia.
Qed.

(** every return is undefined behaviour *)

Lemma step_return_ub : forall s a s' es, step true s (LReturn a) = Some (s', es) -> In (EUb UFreedHandler) es /\ In EFree es.
Proof.
  intros [c o i im] a s' es S. cbn in S. destruct i; try discriminate.
  destruct c; cbn in S; try (destruct inside); inv S; cbn; tauto.
Qed.

Theorem return_ub : forall ls s tr, run true init ls = Some (s, tr) -> returned ls <> [] -> In (EUb UFreedHandler) tr.
Proof.
  intros ls. induction ls as [|l ls IH] using rev_ind; intros s tr R N; [destruct (N eq_refl)|].
  destruct (run_snoc _ _ _ _ _ R) as (s1 & e1 & e2 & A & S & ->). apply in_or_app.
  rewrite ret_app in N. destruct (returned ls) eqn:Q.
  - destruct l; cbn in N; try congruence. right. exact (proj1 (step_return_ub _ _ _ _ S)).
  - left. eapply IH; eauto. congruence.
Qed.

(** with posted deletion, deleting is *)
Theorem delete_ub : forall ls s tr s' es, run false init ls = Some (s, tr) -> step false s LDelete = Some (s', es) ->
  In (EUb ULateFree) es.
Proof.
  intros ls s tr s' es R S.
  assert (H : inner s = ToDelete -> gone s = true).
  { clear S. revert s tr R. induction ls as [|l ls IH] using rev_ind; intros s tr R; [inv R; discriminate|].
    destruct (run_snoc _ _ _ _ _ R) as (s1 & e1 & e2 & A & S & ->). specialize (IH _ _ A). clear A R.
    destruct s1 as [c o i im]. cbn in *. destruct l as [v| | |a|e| | |].
    - destruct i; try discriminate. inv S; intro K; discriminate K.
    - destruct i as [|[|]| | | |]; try discriminate; cbn in S; [destruct c|]; inv S; intro K; discriminate K.
    - destruct i; try discriminate. inv S; intro K; discriminate K.
    - destruct i as [|[|]| | | |]; try discriminate; destruct c; inv S; intro K; try discriminate K; reflexivity.
    - destruct i as [|[|]| | | |]; try discriminate; inv S; intro K; discriminate K.
    - destruct i; try discriminate. unfold gone in S; cbn in S; destruct o; inv S; intro K; discriminate K.
    - destruct o; try discriminate. destruct i; inv S; intro K; try discriminate K; reflexivity.
    - destruct i; try discriminate. inv S; intro K; discriminate K. }
  cbn in S. destruct (inner s) eqn:I; try discriminate. rewrite (H eq_refl) in S. inv S. cbn. auto.
Qed.

(** an exception of a composition *)
Theorem throw_cases : forall d ls s tr e s' es, Forall plain ls -> run d init ls = Some (s, tr) ->
  step d s (LThrow e) = Some (s', es) ->
  if suspended_first ls
  then es = [EEscape e] /\ (forall ls' s'' tr', run d s' ls' = Some (s'', tr') -> forall x, ~ In (EResult x) tr' /\ ~ In EResume tr' /\ ~ In EFree tr')
  else es = [EContinue; EResult (RExn e)] /\ (forall ls' s'' tr', run d s' ls' = Some (s'', tr') -> ~ In EFree tr').
Proof.
  intros d ls s tr e s' es P R S. destruct (plain_inv _ _ _ _ P R) as [_ B].
  assert (ST : forall ls' s1 s'' tr', inner s1 = Stuck -> run d s1 ls' = Some (s'', tr') ->
     forall x, ~ In (EResult x) tr' /\ ~ In EResume tr' /\ ~ In EFree tr').
  { clear. induction ls' as [|l ls' IH]; intros [c o i im] s'' tr' I R x; cbn in I; subst i; cbn in R.
    - inv R. cbn. auto.
    - destruct l; try discriminate. destruct o; try discriminate. cbn in R; destruct (run d (mk c Destroyed Stuck im) ls') as [[sx ex]|] eqn:Q; [|discriminate].
      inv R. destruct (IH (mk c Destroyed Stuck im) _ _ eq_refl Q x) as (A & B & C). cbn. intuition discriminate. }
  destruct s as [c o i im]. cbn in *. destruct i as [|[|]| | | |]; try discriminate; inv S; destruct B as (-> & _).
  - split; auto. intros ls' s'' tr' Q. apply (ST ls' (mk c Going Stuck im) s'' tr' eq_refl Q (RExn e)).
  - split; auto. intros ls' s'' tr' Q. apply (ST ls' (mk c o Stuck im) s'' tr' eq_refl Q).
Qed.
