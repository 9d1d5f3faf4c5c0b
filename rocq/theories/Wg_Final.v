(** * wait_group: the claims *)
From Coq Require Import List Bool Arith Lia.
From Verif Require Import Wg_Model Wg_Spec Wg_Proofs.
Import ListNotations.

Section Final.
Variables (c : config) (ls : list label) (s : state) (tr : list event).
Hypothesis R : run c init ls = Some (s, tr).

Lemma tr_INV : INV s tr /\ goods [] tr.
Proof. exact (run_INV c ls init [] s tr init_INV R). Qed.

Lemma at_event : forall pre e post, tr = pre ++ e :: post -> GOOD pre e.
Proof. intros pre e post E. exact (goods_at tr [] pre e post (proj2 tr_INV) E). Qed.

Theorem size_right : members s = group tr /\ NoDup (members s).
Proof. destruct tr_INV as [[]]. auto. Qed.

Theorem one_reports : forall pre p rm post, tr = pre ++ EOne (Some (p, true)) rm :: post ->
  rm = [p] /\ In p (group pre) /\ In (EFinish p true) pre.
Proof. intros pre p rm post E. exact (at_event _ _ _ E). Qed.

Theorem one_throws : forall pre p rm post, tr = pre ++ EOne (Some (p, false)) rm :: post ->
  rm = [] /\ In p (group pre) /\ In (EFinish p false) pre.
Proof. intros pre p rm post E. exact (at_event _ _ _ E). Qed.

Theorem one_empty : forall pre rm post, tr = pre ++ EOne None rm :: post -> rm = [] /\ group pre = [].
Proof. intros pre rm post E. exact (at_event _ _ _ E). Qed.

Theorem reap_right : forall pre rm post, tr = pre ++ EReap rm :: post ->
  rm = filter (fun p => finished pre p && negb (consumed pre p)) (group pre).
Proof. intros pre rm post E. exact (at_event _ _ _ E). Qed.

Theorem wait_right : forall pre rm post, tr = pre ++ EAll rm :: post ->
  rm = group pre /\ exists snap later, open_wait pre = WAll snap /\ group pre = snap ++ later /\
  forall p, In p snap -> finished pre p = true.
Proof. intros pre rm post E. exact (at_event _ _ _ E). Qed.

Theorem cancel_right : forall pre p ct post, tr = pre ++ ECancel p ct :: post ->
  In (EPush p) pre /\ finished pre p = false.
Proof. intros pre p ct post E. exact (at_event _ _ _ E). Qed.

Theorem one_prompt : forall snap, open_wait tr = WOne snap -> forall p, In p snap -> finished tr p = false.
Proof.
  intros snap O p I. destruct tr_INV as [[] _]. rewrite I_open in O. destruct (I_one _ O) as [_ A].
  rewrite I_fin, (A p I). auto.
Qed.

Theorem wait_prompt : forall snap, open_wait tr = WAll snap -> exists p, In p snap /\ finished tr p = false.
Proof.
  intros snap O. destruct tr_INV as [[] _]. rewrite I_open in O. destruct (I_all _ O) as (_ & (p & I & A) & _).
  exists p. rewrite I_fin, A. auto.
Qed.
End Final.

(** await_exit *)
Lemma app_single : forall (A : Type) (x : A) pre post l, pre ++ x :: post = [] ++ l -> pre ++ x :: post = l.
Proof. auto. Qed.

Definition no_exit (es : list event) : Prop := forall ep, ~ In (EExit ep) es.

Lemma cancel_no_exit : forall s ct, no_exit (cancel_all s ct).
Proof. intros s ct ep I. destruct (cancel_silent s ct _ I) as (p & x & E). discriminate. Qed.

Lemma all_no_exit : forall s, no_exit (snd (all_done s)).
Proof. intros s ep I. cbn in I. destruct I as [I|I]; [discriminate|]. exact (cancel_no_exit _ _ _ I). Qed.

Lemma begin_no_exit : forall s, no_exit (snd (begin_wait s)).
Proof.
  intros s ep I. unfold begin_wait in I. destruct (members s) as [|m ms]; [cbn in I; intuition discriminate|].
  match type of I with context [if ?b then _ else _] => destruct b end.
  - match type of I with context [all_done ?x] => pose proof (all_no_exit x ep) as N; destruct (all_done x) end.
    cbn in *. destruct I as [I|I]; [discriminate|auto].
  - cbn in I; intuition discriminate.
Qed.

Lemma one_no_exit : forall s i p, no_exit (snd (one_done s i p)).
Proof. intros s i p ep I. unfold one_done in I. destruct (okof (st s p)); cbn in I; intuition discriminate. Qed.

Lemma step_no_exit : forall c s l s' es ep, step c s l = Some (s', es) -> In (EExit ep) es -> l = LExit ep.
Proof.
  intros c s l s' es ep S I. destruct l as [p al|p ok|ct|ch| | |ep']; unfold step in S.
  - destruct (st s p); try discriminate. injection S as <- <-. destruct al; cbn in I; intuition discriminate.
  - destruct (st s p); try discriminate. destruct (pend s) as [|snap|snap].
    + injection S as <- <-. cbn in I; intuition discriminate.
    + match type of S with (if ?b then _ else _) = _ => destruct b end.
      * match type of S with context [one_done ?x ?i ?q] => pose proof (one_no_exit x i q ep) as N; destruct (one_done x i q) end.
        injection S as <- <-. cbn in *. destruct I as [I|I]; [discriminate|tauto].
      * injection S as <- <-. cbn in I; intuition discriminate.
    + match type of S with (if ?b then _ else _) = _ => destruct b end.
      * match type of S with context [if ?b then _ else _] => destruct b end.
        -- match type of S with context [all_done ?x] => pose proof (all_no_exit x ep) as N; destruct (all_done x) end.
           injection S as <- <-. cbn in *. destruct I as [I|I]; [discriminate|tauto].
        -- injection S as <- <-. cbn in I; intuition discriminate.
      * injection S as <- <-. cbn in I; intuition discriminate.
  - injection S as <- <-. destruct (cancel_no_exit _ _ _ I).
  - destruct (idle s); [|discriminate]. destruct (members s) as [|m ms] eqn:MS.
    + injection S as <- <-. cbn in I; intuition discriminate.
    + match type of S with context [match ?f with [] => _ | _ :: _ => _ end] => destruct f as [|d ds] end; [injection S as <- <-; cbn in I; intuition discriminate|].
      match type of S with context [nth_error ?l ch] => destruct (nth_error l ch) as [p|] end; [|discriminate].
      match type of S with context [one_done ?x ?i ?q] => pose proof (one_no_exit x i q ep) as N; destruct (one_done x i q) end.
      injection S as <- <-. cbn in *. destruct I as [I|I]; [discriminate|tauto].
  - destruct (idle s); [|discriminate]. pose proof (begin_no_exit s ep) as N. destruct (begin_wait s). injection S as <- <-. tauto.
  - injection S as <- <-. cbn in I; intuition discriminate.
  - destruct (idle s); [|discriminate]. pose proof (begin_no_exit s ep) as N. destruct (begin_wait s) as [s2 es2].
    injection S as <- <-. destruct I as [I|I]; [congruence|]. apply in_app_or in I as [I|I]; [|tauto].
    match type of I with context [if ?b then _ else _] => destruct b end; [destruct I|destruct (cancel_no_exit _ _ _ I)].
Qed.

Lemma run_split : forall c ls s0 s tr pre e post, run c s0 ls = Some (s, tr) -> tr = pre ++ e :: post ->
  exists l1 l l2 s1 e1 s2 a b, ls = l1 ++ l :: l2 /\ run c s0 l1 = Some (s1, e1) /\ step c s1 l = Some (s2, a ++ e :: b) /\
    pre = e1 ++ a /\ exists e3, post = b ++ e3.
Proof.
  induction ls as [|l ls IH]; intros s0 s tr pre e post R E; cbn in R.
  - injection R as <- <-. destruct pre; discriminate.
  - destruct (step c s0 l) as [[s1 e1]|] eqn:S; [|discriminate].
    destruct (run c s1 ls) as [[s2 e2]|] eqn:R2; [|discriminate]. injection R as <- <-.
    destruct (Nat.lt_ge_cases (length pre) (length e1)) as [L|L].
    + assert (exists b, e1 = pre ++ e :: b /\ post = b ++ e2) as (b & -> & ->).
      { clear - E L. revert e1 E L. induction pre as [|x pre IHp]; intros e1 E L; destruct e1 as [|y e1]; cbn in *; try lia.
        - injection E as -> <-. eauto.
        - injection E as -> E. destruct (IHp e1 E ltac:(lia)) as (b & -> & ->). eauto. }
      exists [], l, ls, s0, [], s1, pre, b. repeat split; eauto.
    + assert (exists pre', pre = e1 ++ pre' /\ e2 = pre' ++ e :: post) as (pre' & -> & ->).
      { clear - E L. revert pre E L. induction e1 as [|y e1 IHe]; intros pre E L; cbn in *; [eauto|].
        destruct pre as [|x pre]; cbn in *; [lia|]. injection E as -> E.
        destruct (IHe pre E ltac:(lia)) as (p' & -> & ->). eauto. }
      destruct (IH _ _ _ _ _ _ R2 eq_refl) as (l1 & l' & l2 & s3 & e3 & s4 & a & b & -> & A1 & A2 & -> & A4).
      exists (l :: l1), l', l2, s3, (e1 ++ e3), s4, a, b. cbn. rewrite S, A1, app_assoc. repeat split; auto.
Qed.

Lemma begin_starts : forall s, exists r, snd (begin_wait s) = EAllBegin (members s) :: r.
Proof.
  intros s. unfold begin_wait. destruct (members s) as [|m ms] eqn:E; [cbn; eauto|].
  match goal with |- context [if ?b then _ else _] => destruct b end; [|cbn; eauto].
  match goal with |- context [all_done ?x] => destruct (all_done x) end. cbn. eauto.
Qed.

Theorem exit_right : forall c ls s tr pre ep post, run c init ls = Some (s, tr) -> tr = pre ++ EExit ep :: post ->
  let ct := if ep then ct_except c else ct_normal c in
  exists rest, post = (if ct =? ct_none then [] else
                         map (fun p => ECancel p ct) (filter (fun p => negb (finished pre p)) (group pre))) ++
                      EAllBegin (group pre) :: rest.
Proof.
  intros c ls s tr pre ep post R E ct.
  destruct (run_split _ _ _ _ _ _ _ _ R E) as (l1 & l & l2 & s1 & e1 & s2 & a & b & -> & R1 & S & -> & e3 & ->).
  destruct (run_INV _ _ _ [] _ _ init_INV R1) as [H _]. cbn in H.
  assert (l = LExit ep) as -> by (eapply step_no_exit; [exact S|apply in_or_app; right; left; auto]).
  unfold step in S. destruct (idle s1) eqn:ID; [|discriminate].
  pose proof (begin_no_exit s1) as NB. destruct (begin_starts s1) as [r Q]. destruct (begin_wait s1) as [s4 es4]. cbn in Q, NB. subst es4.
  injection S as <- S. destruct a as [|x a].
  - injection S as S. fold ct in S. rewrite <- S, app_nil_r. rewrite (exit_cancels _ _ _ H).
    destruct H. rewrite <- I_mem. exists (r ++ e3). rewrite <- app_assoc. reflexivity.
  - exfalso. injection S as <- S. assert (I : In (EExit ep) (a ++ EExit ep :: b)) by (apply in_or_app; right; left; auto).
    rewrite <- S in I. apply in_app_or in I as [I|I]; [|exact (NB ep I)].
    match type of I with context [if ?b then _ else _] => destruct b end; [destruct I|destruct (cancel_no_exit _ _ _ I)].
Qed.

Lemma without_in : forall rm l p, In p (without rm l) <-> In p l /\ ~ In p rm.
Proof. intros. unfold without. rewrite filter_In, negb_true_iff, mem_not. tauto. Qed.

Lemma group_pushed : forall tr p, In p (group tr) -> In (EPush p) tr.
Proof.
  induction tr as [|e tr IH] using rev_ind; intros p I; [destruct I|].
  rewrite group_snoc in I. unfold gstep in I. apply in_or_app.
  destruct e; try (apply without_in in I as [I _]; left; apply IH; auto).
  apply in_app_or in I as [I|[->|[]]]; [left; apply IH; auto|right; left; auto].
Qed.

Lemma group_repushed : forall b a e p, In p (removed e) -> In p (group (a ++ e :: b)) -> In (EPush p) b.
Proof.
  induction b as [|x b IH] using rev_ind; intros a e p RM I.
  - rewrite group_snoc in I. unfold gstep in I. destruct e; try (apply without_in in I as [_ I]; tauto). destruct RM.
  - rewrite app_comm_cons, app_assoc, group_snoc in I. unfold gstep in I. apply in_or_app.
    destruct x; try (apply without_in in I as [I _]; left; eapply IH; eauto).
    apply in_app_or in I as [I|[->|[]]]; [left; eapply IH; eauto|right; left; auto].
Qed.

(** what was removed never comes back *)
Theorem removed_once : forall c ls s tr, run c init ls = Some (s, tr) ->
  forall a e b e' d p, tr = a ++ e :: b ++ e' :: d -> In p (removed e) -> ~ In p (group (a ++ e :: b)).
Proof.
  intros c ls s tr R a e b e' d p E RM I.
  pose proof (group_repushed _ _ _ _ RM I) as J. apply in_split in J as (b1 & b2 & ->).
  assert (K : GOOD (a ++ e :: b1) (EPush p)).
  { eapply (at_event c ls s tr R _ _ (b2 ++ e' :: d)). rewrite E. rewrite <- !app_assoc. cbn; rewrite <- ?app_assoc; reflexivity. }
  destruct K as [_ K]. apply K.
  assert (G : In p (group a)).
  { assert (H : GOOD a e) by (eapply (at_event c ls s tr R); eauto). unfold GOOD in H.
    destruct e as [| | | |r rm| |rm|rm|]; cbn in RM; try tauto.
    - destruct r as [[q [|]]|]; destruct H as (-> & H); cbn in RM; try tauto. destruct RM as [->|[]]. tauto.
    - destruct H as [-> _]. auto.
    - rewrite H in RM. apply filter_In in RM. tauto. }
  apply in_or_app. left. apply group_pushed. auto.
Qed.

Theorem reported_once : forall c ls s tr, run c init ls = Some (s, tr) ->
  forall a p rm b o rm' d, tr <> a ++ EOne (Some (p, true)) rm :: b ++ EOne (Some (p, o)) rm' :: d.
Proof.
  intros c ls s tr R a p rm b o rm' d E.
  assert (H1 : GOOD a (EOne (Some (p, true)) rm)) by (eapply (at_event c ls s tr R); eauto).
  assert (H2 : GOOD (a ++ EOne (Some (p, true)) rm :: b) (EOne (Some (p, o)) rm')).
  { eapply (at_event c ls s tr R _ _ d). rewrite E, <- app_assoc. reflexivity. }
  destruct H1 as (-> & _). apply (removed_once c ls s tr R _ _ _ _ _ p E); [left; auto|].
  destruct o; apply H2.
Qed.
