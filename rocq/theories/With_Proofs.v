(** * Proofs about with() *)
From Coq Require Import List Bool Arith Lia.
From Verif Require Import With_Model With_Spec.
Import ListNotations.

Section Proofs.
Context {V E : Type}.
Notation event := (event V E).
Notation label := (label V E).
Notation state := (state V E).

Ltac inv H := inversion H; subst; clear H.

Definition early (tr : list event) (e : option E) (res : option V) : Prop :=
  exists o, tr = [EFunc; EFuncEnd o; ETear (error_of o)] /\ e = error_of o /\
            match o with Val v => res = Some v | Exn _ => res = None end.

(** calm runs, moves may throw *)
Definition CI (s : state) (tr : list event) : Prop :=
  match ph s, aw s with
  | Created, Before => tr = []
  | InFunc, Waiting => tr = [EFunc]
  | InTear e res, Waiting => early tr e res
  | Freed, Resumed => exists o x r, tr = [EFunc; EFuncEnd o; ETear (error_of o); ETearEnd x; EFree; EResult r] /\
                        (r = expected o x \/ exists v m, o = Val v /\ x = None /\ r = Exn m)
  | AtEnd, Resumed => exists v m, tr = [EFunc; EFuncEnd (Val v); ETear None; ETearEnd None; EResult (Exn m)]
  | _, _ => False
  end.

Lemma step_CI : forall s tr l s' es, CI s tr -> calm l -> has_executor l -> step s l = Some (s', es) -> CI s' (tr ++ es).
Proof.
  intros [p a] tr l s' es H C X S. unfold CI in H. cbn in H.
  destruct l as [[y|]|o|x m1 m2| |]; cbn in C, X; try tauto; cbn in S.
  - destruct p, a; try tauto; try discriminate. inv S. reflexivity.
  - destruct p; try discriminate. destruct a; try tauto. subst tr. destruct o as [v|y]; inv S; [exists (Val v)|exists (Exn y)]; auto.
  - destruct p as [| |e res| |]; try discriminate. destruct a; try tauto.
    destruct H as (o & -> & -> & R). destruct o as [v|y]; subst res; cbn in S.
    + destruct x as [x|]; [|destruct m1 as [m1|]; [|destruct m2 as [m2|]]]; inv S; cbn.
      * exists (Val v), (Some x), (Exn x). auto.
      * exists (Val v), None, (Exn m1). split; auto. right. eauto.
      * eauto.
      * exists (Val v), None, (Val v). auto.
    + inv S. cbn. exists (Exn y), x, (Exn y). auto.
Qed.

Lemma run_CI : forall ls s tr s' es, CI s tr -> Forall calm ls -> Forall has_executor ls -> run s ls = Some (s', es) -> CI s' (tr ++ es).
Proof.
  induction ls as [|l ls IH]; intros s tr s' es H C X R; cbn in R.
  - inv R. rewrite app_nil_r. auto.
  - inv C. inv X. destruct (step s l) as [[s1 e1]|] eqn:S; [|discriminate].
    destruct (run s1 ls) as [[s2 e2]|] eqn:R2; [|discriminate]. inv R.
    rewrite app_assoc. eapply IH; eauto. eapply step_CI; eauto.
Qed.

(** calm runs without throwing moves *)
Definition NI (s : state) (tr : list event) : Prop :=
  match ph s with
  | AtEnd => False
  | Freed => exists o x, tr = [EFunc; EFuncEnd o; ETear (error_of o); ETearEnd x; EFree; EResult (expected o x)]
  | _ => True
  end.

Lemma step_NI : forall s tr l s' es, CI s tr -> NI s tr -> calm l -> has_executor l -> nothrow_move l -> step s l = Some (s', es) -> NI s' (tr ++ es).
Proof.
  intros [p a] tr l s' es H HN C X N S. unfold CI in H. unfold NI in HN. cbn in H, HN.
  destruct l as [[y|]|o|x m1 m2| |]; cbn in C, X; try tauto; cbn in S.
  - destruct p, a; try tauto; try discriminate. inv S. cbn. auto.
  - destruct p; try discriminate. destruct a; try tauto. destruct o; inv S; cbn; auto.
  - destruct N as [-> ->]. destruct p as [| |e res| |]; try discriminate. destruct a; try tauto.
    destruct H as (o & -> & -> & R). destruct o as [v|y]; subst res; cbn in S.
    + destruct x as [x|]; inv S; cbn; unfold NI; cbn; [exists (Val v), (Some x)|exists (Val v), None]; reflexivity.
    + inv S. unfold NI; cbn. exists (Exn y), x. reflexivity.
Qed.

Lemma run_NI : forall ls s tr s' es, CI s tr -> NI s tr -> Forall calm ls -> Forall has_executor ls -> Forall nothrow_move ls -> run s ls = Some (s', es) -> NI s' (tr ++ es).
Proof.
  induction ls as [|l ls IH]; intros s tr s' es H HN C X N R; cbn in R.
  - inv R. rewrite app_nil_r. auto.
  - inv C. inv X. inv N. destruct (step s l) as [[s1 e1]|] eqn:S; [|discriminate].
    destruct (run s1 ls) as [[s2 e2]|] eqn:R2; [|discriminate]. inv R.
    rewrite app_assoc. eapply IH; eauto; [eapply step_CI; eauto|eapply step_NI; eauto].
Qed.

Theorem with_result : forall ls (s : state) tr, Forall calm ls -> Forall has_executor ls -> Forall nothrow_move ls ->
  run init ls = Some (s, tr) ->
  prefix tr [EFunc] \/
  exists o x, prefix tr [EFunc; EFuncEnd o; ETear (error_of o); ETearEnd x; EFree; EResult (expected o x)].
Proof.
  intros ls s tr C X N R.
  assert (H : CI s ([] ++ tr)) by (eapply run_CI; eauto; reflexivity).
  assert (K : NI s ([] ++ tr)) by (eapply (run_NI ls init []); eauto; cbn; auto; reflexivity).
  cbn [app] in *. destruct s as [p a]. unfold CI in H. unfold NI in K. cbn in H, K.
  destruct p as [| |e0 res0| |], a; try tauto; subst.
  - left. exists [EFunc]. reflexivity.
  - left. exists []. reflexivity.
  - right. destruct H as (o & -> & _). exists o, None. eexists. cbn. reflexivity.
  - right. destruct K as (o & x & ->). exists o, x, []. reflexivity.
Qed.

Theorem with_any_move : forall ls (s : state) tr, Forall calm ls -> Forall has_executor ls -> run init ls = Some (s, tr) ->
  length (tears tr) <= 1 /\ ~ In EUb tr /\
  (forall r, In r (results tr) -> exists o x, tears tr = [error_of o] /\ In (EFuncEnd o) tr /\ In (ETearEnd x) tr /\
     (r = expected o x \/ exists v m, o = Val v /\ x = None /\ r = Exn m)).
Proof.
  intros ls s tr C X R.
  assert (H : CI s ([] ++ tr)) by (eapply run_CI; eauto; reflexivity).
  cbn [app] in *. destruct s as [p a]. unfold CI in H. cbn in H.
  destruct p as [| |e0 res0| |], a; try tauto; subst; cbn.
  - repeat split; auto; intros; tauto.
  - repeat split; auto; intros; intuition discriminate.
  - destruct H as (o & -> & _). cbn. repeat split; auto; intros; intuition discriminate.
  - destruct H as (v & m & ->). cbn. repeat split; auto; [intuition discriminate|].
    intros r [<-|[]]. exists (Val v), None. repeat split; auto. right. eauto.
  - destruct H as (o & x & r & -> & Q). cbn. repeat split; auto; [intuition discriminate|].
    intros r' [<-|[]]. exists o, x. repeat split; auto.
Qed.

Lemma run_app : forall (l1 : list label) (s0 s1 : state) (e1 : list event) l2, run s0 l1 = Some (s1, e1) ->
  run s0 (l1 ++ l2) = match run s1 l2 with Some (s2, e2) => Some (s2, e1 ++ e2) | None => None end.
Proof.
  induction l1 as [|l l1 IH]; intros s0 s1 e1 l2 R; cbn in *.
  - inv R. destruct (run s1 l2) as [[]|]; auto.
  - destruct (step s0 l) as [[sa ea]|]; [|discriminate]. destruct (run sa l1) as [[sb eb]|] eqn:Q; [|discriminate].
    inv R. rewrite (IH _ _ _ _ Q). destruct (run s1 l2) as [[]|]; auto. rewrite app_assoc. auto.
Qed.

(** whatever is destroyed *)
Definition funcs (tr : list event) : nat :=
  length (filter (fun e => match e with EFunc => true | _ => false end) tr).
Definition OI (s : state) (tr : list event) : Prop :=
  match ph s with
  | Created => frees tr = 0 /\ length (tears tr) = 0 /\ funcs tr = 0
  | InFunc => frees tr = 0 /\ length (tears tr) = 0 /\ funcs tr = 1
  | InTear _ _ => frees tr = 0 /\ length (tears tr) = 1 /\ funcs tr = 1
  | AtEnd | Freed => frees tr <= 1 /\ length (tears tr) <= 1 /\ funcs tr <= 1
  end /\
  match aw s with Before | Waiting => length (results tr) = 0 | _ => length (results tr) <= 1 end /\
  (aw s = Before <-> ph s = Created /\ length (results tr) = 0).

Lemma step_OI s l s1 es tr : OI s tr -> step s l = Some (s1, es) -> OI s1 (tr ++ es).
Proof.
  destruct s as [p a]. unfold OI, frees, tears, results, funcs. cbn [ph aw]. intros I H.
  rewrite !flat_map_app, filter_app, !app_length.
  destruct l as [[x|]|o|x m1 m2| |]; destruct p as [| |e0 res0| |], a; cbn in H; try discriminate;
    try (injection H as <- <-; cbn; intuition (try discriminate; try lia)).
  all: repeat match type of H with
       | context [let '(_, _) := (match ?x with _ => _ end) in _] => destruct x; cbn in H
       | context [match ?x with _ => _ end] => destruct x; cbn in H
       end; try discriminate; injection H as <- <-; cbn; intuition (try discriminate; try lia).
Qed.
Theorem with_once : forall ls (s : state) tr, run init ls = Some (s, tr) ->
  frees tr <= 1 /\ length (tears tr) <= 1 /\ length (results tr) <= 1 /\ funcs tr <= 1.
Proof.
  assert (G : forall ls (s0 s : state) t0 tr, OI s0 t0 -> run s0 ls = Some (s, tr) -> OI s (t0 ++ tr)).
  { induction ls as [|l ls IH]; intros s0 s t0 tr I R; cbn in R.
    - injection R as <- <-. rewrite app_nil_r. exact I.
    - destruct (step s0 l) as [[s1 e1]|] eqn:E1; [|discriminate].
      destruct (run s1 ls) as [[s2 e2]|] eqn:E2; [|discriminate]. injection R as <- <-. rewrite app_assoc.
      exact (IH _ _ _ _ (step_OI _ _ _ _ _ I E1) E2). }
  intros ls s tr R. assert (I : OI s ([] ++ tr)) by (apply (G ls init s [] tr); auto; unfold OI, frees, funcs; cbn; tauto).
  cbn [app] in I. unfold OI in I. destruct (ph s), (aw s); intuition lia.
Qed.

(** every with() can be finished, whatever func and teardown do *)
Theorem with_finishes : forall ls (s : state) tr (o : outcome V E) x,
  Forall calm ls -> Forall has_executor ls -> run init ls = Some (s, tr) -> results tr = [] ->
  exists ls' s' tr' o', run init (ls ++ ls') = Some (s', tr ++ tr') /\ Forall calm ls' /\
    In (EFuncEnd o') (tr ++ tr') /\ results (tr ++ tr') = [expected o' x] /\ frees (tr ++ tr') = 1 /\
    ((forall o0, ~ In (EFuncEnd o0) tr) -> o' = o).
Proof.
  intros ls s tr o x C X R NR.
  assert (H : CI s ([] ++ tr)) by (eapply run_CI; eauto; reflexivity).
  cbn [app] in *. destruct s as [p a]. unfold CI in H. cbn in H.
  destruct p as [| |e0 res0| |], a; try tauto; subst.
  - exists [LAwait None; LFunc o; LTear x None None]. rewrite (run_app _ _ _ _ _ R).
    destruct o as [v|y]; [destruct x|]; eexists _, _, _; (split; [reflexivity|]); (split; [repeat constructor|]); cbn;
      (split; [right; left; reflexivity|]); auto.
  - exists [LFunc o; LTear x None None]. rewrite (run_app _ _ _ _ _ R).
    destruct o as [v|y]; [destruct x|]; eexists _, _, _; (split; [reflexivity|]); (split; [repeat constructor|]); cbn;
      (split; [right; left; reflexivity|]); auto.
  - exists [LTear x None None]. rewrite (run_app _ _ _ _ _ R). destruct H as (o' & -> & -> & Q).
    destruct o' as [v|y]; subst res0; [destruct x|]; eexists _, _, _; (split; [reflexivity|]); (split; [repeat constructor|]); cbn;
      (split; [right; left; reflexivity|]); repeat split; auto; intros NO; exfalso; eapply NO; right; left; reflexivity.
  - destruct H as (v & m & ->). discriminate.
  - destruct H as (o' & x' & r & -> & _). discriminate.
Qed.
End Proofs.
