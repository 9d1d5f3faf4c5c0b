(** * Proofs about threads *)
From Coq Require Import List Bool Arith Lia.
From Verif Require Import Thread_Model Thread_Spec.
Import ListNotations.

Section Config.
Variables (tuple rvalue : bool).
Notation step := (step tuple rvalue).
Notation run := (run tuple rvalue).

Definition sus (tr : list event) : bool :=
  existsb (fun e => match e with ESuspended => true | _ => false end) tr.

Definition WINV (s : state) (en : list (option exn)) : Prop :=
  match wk s with
  | Starting | First | Idle | Going | Drain => en = [] /\ done s = false
  | Ended ep => en = [ep] /\ done s = false
  | Flagged ep => en = [ep] /\ done s = true
  | Exited => length en = 1 /\ done s = true
  | Terminated => length en <= 1
  end.

Definition AINV (s : state) (en rs : list (option exn)) (su : bool) : Prop :=
  match aw s with
  | Before | Checked => rs = [] /\ su = false /\ waitor s = false
  | Waiting => rs = [] /\ su = true /\ (wk s <> Terminated -> waitor s = true /\ wk s <> Exited)
  | Posted ep => rs = [] /\ su = true /\ en = [ep] /\ wk s = Exited /\ waitor s = false
  | Joining None => rs = [] /\ su = false /\ length en = 1 /\ waitor s = false
  | Joining (Some ep) => rs = [] /\ su = true /\ en = [ep] /\ wk s = Exited /\ waitor s = false
  | Over => length rs <= 1 /\ length en = 1 /\ (su = true -> rs = en /\ wk s = Exited) /\ waitor s = false
            /\ (su = false -> rs = [None] \/ tuple = true)
  | Gone => rs = [] /\ su = true
  end.

Definition INV (s : state) (tr : list event) : Prop :=
  WINV s (ends tr) /\ AINV s (ends tr) (results tr) (sus tr).

Lemma ends_app : forall a b, ends (a ++ b) = ends a ++ ends b.
Proof. intros. apply flat_map_app. Qed.
Lemma results_app : forall a b, results (a ++ b) = results a ++ results b.
Proof. intros. apply flat_map_app. Qed.
Lemma sus_app : forall a b, sus (a ++ b) = sus a || sus b.
Proof. intros. apply existsb_app. Qed.

Lemma INV_init : INV init [].
Proof. repeat split. Qed.

Ltac fin :=
  subst; cbn in *;
  repeat match goal with
         | H : _ /\ _ |- _ => destruct H
         | |- _ /\ _ => split
         end; subst; cbn in *;
  rewrite ?app_nil_r, ?orb_false_r, ?orb_true_r in *; cbn in *;
  try congruence; try lia; try tauto.

Lemma step_INV : forall s tr l s1 es, INV s tr -> step s l = Some (s1, es) -> INV s1 (tr ++ es).
Proof.
  intros s tr l s1 es [HW HA] H. unfold INV. rewrite ends_app, results_app, sus_app.
  revert HW HA. generalize (ends tr) (results tr) (sus tr). intros en rs su HW HA.
  destruct s as [w a u d q]. unfold WINV, AINV in HW, HA |- *. unfold Thread_Model.step, resume, result, set_wk in H.
  destruct w; try discriminate; destruct l; try discriminate; cbn [wk aw unlocked done waitor] in *;
    destruct a as [| | | |r| |]; try destruct r; cbn in H;
    repeat match type of H with
           | context [if ?b then _ else _] => destruct b eqn:?; cbn in H
           | context [match ?o with Some _ => _ | None => _ end] => is_var o; destruct o; cbn in H
           end;
    try discriminate; inversion H; subst; clear H; cbn in HW, HA |- *;
    rewrite ?app_nil_r, ?orb_false_r, ?orb_true_r;
    repeat match goal with H : _ /\ _ |- _ => destruct H end; subst; cbn;
    try (repeat split; intros; cbn in *; try congruence; try lia; tauto).
  all: try solve [repeat split; intros; cbn in *; try congruence; try lia;
                  try (match goal with H : _ -> _ /\ _ |- _ => destruct H; try discriminate; congruence end)].
  all: destruct su; [destruct (H1 eq_refl); discriminate|]; repeat split; intros; try discriminate; auto.
Qed.

Lemma run_INV : forall ls s tr s1 es, INV s tr -> run s ls = Some (s1, es) -> INV s1 (tr ++ es).
Proof.
  induction ls as [|l r IH]; cbn; intros s tr s1 es H HR.
  - inversion HR; subst. now rewrite app_nil_r.
  - destruct (step s l) as [[s2 e1]|] eqn:E; [|discriminate].
    destruct (run s2 r) as [[s3 e2]|] eqn:E2; [|discriminate]. inversion HR; subst.
    rewrite app_assoc. eapply IH; [|exact E2]. eapply step_INV; eauto.
Qed.

Lemma reach_INV : forall ls s tr, run init ls = Some (s, tr) -> INV s tr.
Proof. intros ls s tr H. exact (run_INV ls init [] s tr INV_init H). Qed.

(** a result comes after the end *)
Lemma result_needs_end : forall s tr l s1 es r, INV s tr -> step s l = Some (s1, es) ->
  In (EResult r) es -> ends tr <> [].
Proof.
  intros s tr l s1 es r [HW HA] H HI. revert HW HA. generalize (ends tr) (results tr) (sus tr).
  intros en rs su HW HA. destruct s as [w a u d q]. unfold WINV, AINV in HW, HA.
  unfold Thread_Model.step, resume, result, set_wk in H.
  destruct w; try discriminate; destruct l; try discriminate; cbn [wk aw unlocked done waitor] in *;
    destruct a as [| | | |x| |]; try destruct x; cbn in H;
    repeat match type of H with
           | context [if ?b then _ else _] => destruct b eqn:?; cbn in H
           | context [match ?o with Some _ => _ | None => _ end] => is_var o; destruct o; cbn in H
           end;
    try discriminate; inversion H; subst; clear H; cbn in HI, HW, HA;
    repeat match goal with H : _ /\ _ |- _ => destruct H end; subst;
    try (intuition discriminate).
  all: intros ->; cbn in *; lia.
Qed.

Definition after (tr : list event) : Prop := forall a r b, tr = a ++ EResult r :: b -> ends a <> [].

Lemma split_app : forall (x : event) (u v a b : list event), u ++ v = a ++ x :: b ->
  (exists c, u = a ++ x :: c) \/ (exists a', a = u ++ a' /\ v = a' ++ x :: b).
Proof.
  intros x. induction u as [|y u IH]; cbn; intros v a b H.
  - right. exists a. split; auto.
  - destruct a as [|z a]; cbn in H; inversion H; subst.
    + left. exists u. reflexivity.
    + destruct (IH _ _ _ H2) as [[c ->]|[a' [-> ->]]].
      * left. exists c. reflexivity.
      * right. exists a'. split; reflexivity.
Qed.

Lemma run_after : forall ls s tr s1 es, INV s tr -> after tr -> run s ls = Some (s1, es) -> after (tr ++ es).
Proof.
  induction ls as [|l r IH]; cbn; intros s tr s1 es HI HA HR.
  - inversion HR; subst. now rewrite app_nil_r.
  - destruct (step s l) as [[s2 e1]|] eqn:E; [|discriminate].
    destruct (run s2 r) as [[s3 e2]|] eqn:E2; [|discriminate]. inversion HR; subst.
    rewrite app_assoc. eapply IH; [|  |exact E2]; [eapply step_INV; eauto|].
    intros a x b He. destruct (split_app _ _ _ _ _ He) as [[c ->]|[a' [-> ->]]].
    + eapply HA. reflexivity.
    + rewrite ends_app. intro Z. apply app_eq_nil in Z. destruct Z as [Z _].
      eapply (result_needs_end s tr l s2 _ x); eauto. apply in_or_app. right. now left.
Qed.

Lemma reach_after : forall ls s tr, run init ls = Some (s, tr) -> after tr.
Proof.
  intros ls s tr H. apply (run_after ls init [] s tr INV_init); [|exact H].
  intros a r b Z. destruct a; discriminate.
Qed.

(** never stuck, and done in a bounded number of steps *)
Lemma not_stuck : forall s tr, INV s tr -> ends tr <> [] -> awaiting s -> wk s <> Terminated ->
  exists l s1 es, internal l /\ step s l = Some (s1, es).
Proof.
  intros s tr [HW HA] HE Haw HT. revert HW HA HE. generalize (ends tr) (results tr) (sus tr).
  intros en rs su HW HA HE. destruct s as [w a u d q]. unfold WINV, AINV, awaiting in *.
  cbn [wk aw unlocked done waitor] in *.
  destruct w; try (destruct HW; congruence); try congruence.
  - exists LSetDone. do 2 eexists. split; [left; reflexivity|reflexivity].
  - exists LFinish. unfold internal. cbn. destruct q; [|destruct ep]; do 2 eexists; (split; [tauto|reflexivity]).
  - destruct a as [| | | |x| |]; try contradiction.
    + exists LAwaitSuspend. cbn. destruct HW as [_ ->]. unfold internal, resume. cbn.
      destruct rvalue; do 2 eexists; (split; [tauto|reflexivity]).
    + destruct HA as [_ [_ HA]]. destruct HA; congruence.
    + exists LDeliver. unfold internal, resume. cbn.
      destruct rvalue; do 2 eexists; (split; [tauto|reflexivity]).
    + exists LJoin. unfold internal. do 2 eexists. split; [tauto|reflexivity].
Qed.

Definition measure (s : state) : nat :=
  match wk s with Ended _ => 2 | Flagged _ => 1 | _ => 0 end +
  match aw s with Checked => 4 | Waiting => 3 | Posted _ => 2 | Joining _ => 1 | _ => 0 end.

Lemma measure_step : forall s l s1 es, internal l -> step s l = Some (s1, es) -> measure s1 < measure s.
Proof.
  intros [w a u d q] l s1 es HL H. unfold measure. unfold Thread_Model.step, resume, result, set_wk in H.
  destruct HL as [-> | [-> | [-> | [-> | ->]]]];
  destruct w; try discriminate; cbn [wk aw unlocked done waitor] in *;
    destruct a as [| | | |x| |]; cbn in H;
    repeat match type of H with
           | context [if ?b then _ else _] => destruct b eqn:?; cbn in H
           | context [match ?o with Some _ => _ | None => _ end] => is_var o; destruct o; cbn in H
           end;
    try discriminate; inversion H; subst; clear H; cbn; lia.
Qed.

Lemma measure_run : forall ls s s1 es, Forall internal ls -> run s ls = Some (s1, es) ->
  length ls + measure s1 <= measure s.
Proof.
  induction ls as [|l r IH]; cbn; intros s s1 es HF HR.
  - inversion HR; subst. lia.
  - inversion HF; subst. destruct (step s l) as [[s2 e1]|] eqn:E; [|discriminate].
    destruct (run s2 r) as [[s3 e2]|] eqn:E2; [|discriminate]. inversion HR; subst.
    pose proof (measure_step _ _ _ _ H1 E). pose proof (IH _ _ _ H2 E2). lia.
Qed.

Lemma measure_bound : forall s, measure s <= 6.
Proof. intros [w a u d q]. unfold measure. cbn. destruct w, a; cbn; lia. Qed.

Lemma run_app : forall a s b, run s (a ++ b) =
  match run s a with
  | Some (s1, e1) => match run s1 b with Some (s2, e2) => Some (s2, e1 ++ e2) | None => None end
  | None => None
  end.
Proof.
  induction a as [|l r IH]; cbn; intros s b.
  - destruct (run s b) as [[? ?]|]; reflexivity.
  - destruct (step s l) as [[s1 e1]|]; [|reflexivity]. rewrite IH.
    destruct (run s1 r) as [[s2 e2]|]; [|reflexivity].
    destruct (run s2 b) as [[s3 e3]|]; [|reflexivity]. now rewrite app_assoc.
Qed.

(** internal steps keep the coroutine awaiting, or finish it *)
Lemma internal_awaiting : forall s l s1 es, internal l -> step s l = Some (s1, es) -> awaiting s ->
  awaiting s1 \/ aw s1 = Over.
Proof.
  intros [w a u d q] l s1 es HL H Haw. unfold awaiting in *. unfold Thread_Model.step, resume, result, set_wk in H.
  destruct HL as [-> | [-> | [-> | [-> | ->]]]];
  destruct w; try discriminate; cbn [wk aw unlocked done waitor] in *;
    destruct a as [| | | |x| |]; cbn in H;
    repeat match type of H with
           | context [if ?b then _ else _] => destruct b eqn:?; cbn in H
           | context [match ?o with Some _ => _ | None => _ end] => is_var o; destruct o; cbn in H
           end;
    try discriminate; inversion H; subst; clear H; cbn in *; tauto.
Qed.

Lemma internal_run_awaiting : forall ls s s1 es, Forall internal ls -> run s ls = Some (s1, es) ->
  awaiting s \/ aw s = Over -> awaiting s1 \/ aw s1 = Over.
Proof.
  induction ls as [|l r IH]; cbn; intros s s1 es HF HR Haw.
  - inversion HR; subst. exact Haw.
  - inversion HF; subst. destruct (step s l) as [[s2 e1]|] eqn:E; [|discriminate].
    destruct (run s2 r) as [[s3 e2]|] eqn:E2; [|discriminate]. inversion HR; subst.
    eapply IH; eauto. destruct Haw as [Haw|Haw]; [eapply internal_awaiting; eauto|].
    right. clear - H1 E Haw. destruct s as [w a u d q]. cbn in Haw. subst a.
    unfold Thread_Model.step, resume, result, set_wk in E.
    destruct H1 as [-> | [-> | [-> | [-> | ->]]]]; destruct w; try discriminate; cbn in E;
    repeat match type of E with
           | context [if ?b then _ else _] => destruct b eqn:?; cbn in E
           | context [match ?o with Some _ => _ | None => _ end] => is_var o; destruct o; cbn in E
           end; try discriminate; inversion E; subst; reflexivity.
Qed.

(** an exception of an exited worker has gone to a coroutine that was suspended *)
Definition XINV (s : state) (tr : list event) : Prop :=
  (wk s = Exited -> ends tr = [None] \/ In ESuspended tr).

Lemma step_XINV : forall s tr l s1 es, INV s tr -> XINV s tr -> step s l = Some (s1, es) -> XINV s1 (tr ++ es).
Proof.
  intros s tr l s1 es [HW HA] HX H. unfold XINV in *. intros HE.
  assert (K : sus tr = true -> In ESuspended tr).
  { intros Hs. unfold sus in Hs. apply existsb_exists in Hs. destruct Hs as [e [Hi He]]. destruct e; try discriminate. exact Hi. }
  rewrite ends_app. revert HW HA.
  destruct s as [w a u d q]. unfold WINV, AINV. cbn [wk aw unlocked done waitor] in *.
  unfold Thread_Model.step, resume, result, set_wk in H. intros HW HA.
  destruct w; try discriminate; destruct l; try discriminate; cbn [wk aw unlocked done waitor] in *;
    destruct a as [| | | |x| |]; try destruct x; cbn in H;
    repeat match type of H with
           | context [if ?b then _ else _] => destruct b eqn:?; cbn in H
           | context [match ?o with Some _ => _ | None => _ end] => is_var o; destruct o; cbn in H
           end;
    try discriminate; inversion H; subst; clear H; cbn in HE, HW, HA |- *;
    repeat match goal with H : _ /\ _ |- _ => destruct H end; try discriminate; rewrite ?app_nil_r;
    try (destruct (HX eq_refl); [left; assumption|right; apply in_or_app; left; assumption]);
    try (left; assumption);
    try (right; apply in_or_app; left; apply K; assumption);
    try (left; congruence).
  all: try congruence.
  all: try (right; apply K; assumption).
  all: try (destruct (HX eq_refl); [left; assumption|right; assumption]).
Qed.

Lemma run_XINV : forall ls s tr s1 es, INV s tr -> XINV s tr -> run s ls = Some (s1, es) -> XINV s1 (tr ++ es).
Proof.
  induction ls as [|l r IH]; cbn; intros s tr s1 es HI HA HR.
  - inversion HR; subst. now rewrite app_nil_r.
  - destruct (step s l) as [[s2 e1]|] eqn:E; [|discriminate].
    destruct (run s2 r) as [[s3 e2]|] eqn:E2; [|discriminate]. inversion HR; subst.
    rewrite app_assoc. eapply IH; [| |exact E2]; [eapply step_INV|eapply step_XINV]; eauto.
Qed.

Lemma reach_XINV : forall ls s tr, run init ls = Some (s, tr) -> XINV s tr.
Proof.
  intros ls s tr H. apply (run_XINV ls init [] s tr INV_init); [|exact H]. intros Z. discriminate.
Qed.

(** when behaviour is defined *)
Definition UINV (s : state) (tr : list event) (ls : list label) : Prop :=
  (wk s = Starting \/ wk s = First -> ~ In LSuspend ls) /\
  (aw s = Gone -> In LKillAwaiter ls) /\
  (In EUb tr -> In LKillAwaiter ls \/ (tuple = true /\ aw s = Over /\ sus tr = false)
                \/ exists a b, ls = a ++ LReturn :: b /\ ~ In LSuspend a) /\
  (In ETerminate tr -> wk s = Terminated /\ (In LKillAwaiter ls \/ (exists e, ends tr = [Some e] /\ sus tr = false))).

Lemma step_UINV : forall s tr ls l s1 es, INV s tr -> UINV s tr ls -> step s l = Some (s1, es) ->
  UINV s1 (tr ++ es) (ls ++ [l]).
Proof.
  intros s tr ls l s1 es [HW HA] [U1 [U2 [U3 U4]]] H. unfold UINV. rewrite ends_app, sus_app.
  assert (A : forall (x : label), In x ls -> In x (ls ++ [l])) by (intros; apply in_or_app; auto).
  assert (U3' : In EUb tr -> In LKillAwaiter (ls ++ [l]) \/ (tuple = true /\ aw s = Over /\ sus tr = false)
                \/ exists a b, ls ++ [l] = a ++ LReturn :: b /\ ~ In LSuspend a).
  { intros Z. destruct (U3 Z) as [Y|[Y|[a [b [-> Y]]]]]; [left; auto|right; left; auto|].
    right. right. exists a, (b ++ [l]). split; [|exact Y]. rewrite <- app_assoc. reflexivity. }
  assert (U4' : ~ In ETerminate tr).
  { intros Z. destruct (U4 Z) as [Y _]. unfold Thread_Model.step in H. rewrite Y in H. discriminate. }
  clear U3 U4.
  revert HW HA U3' U4'. generalize (ends tr) (results tr) (sus tr). intros en rs su HW HA U3 U4.
  destruct s as [w a u d q]. unfold WINV, AINV in HW, HA. cbn [wk aw unlocked done waitor] in *.
  unfold Thread_Model.step, resume, result, set_wk in H.
  destruct w; try discriminate; destruct l; try discriminate; cbn [wk aw unlocked done waitor] in *;
    destruct a as [| | | |x| |]; try destruct x; cbn in H;
    repeat match type of H with
           | context [if ?b then _ else _] => destruct b eqn:?; cbn in H
           | context [match ?o with Some _ => _ | None => _ end] => is_var o; destruct o; cbn in H
           end;
    try discriminate; inversion H; subst; clear H; cbn in HW, HA |- *;
    repeat match goal with H : _ /\ _ |- _ => destruct H end; subst;
    rewrite ?app_nil_r, ?orb_false_r, ?orb_true_r in *;
    (split; [|split; [|split]]).
  all: try (intros [Z|Z]; discriminate).
  all: try (intros Z; discriminate).
  all: try (intros _; first [apply A, U2; reflexivity | apply in_or_app; right; left; reflexivity]).
  all: try (intros _ Z; apply in_app_or in Z; destruct Z as [Z|[Z|[]]]; [apply U1 in Z; auto|discriminate]).
  all: try (intros Z; apply in_app_or in Z; destruct Z as [Z|Z];
            [first [apply U3 in Z | contradiction (U4 Z)]|cbn in Z]).
  all: try assumption.
  all: try (exfalso; intuition discriminate).
  all: try (intros Z; first [apply U3 in Z | contradiction (U4 Z)]; intuition congruence).
  all: try (intuition congruence).
  all: try (right; right; exists ls, []; split; [reflexivity|auto]; fail).
  all: try (intros _; split; [reflexivity|]; first [left; apply in_or_app; right; left; reflexivity | right; eexists; split; reflexivity]).
  all: try (split; [reflexivity|]; first [left; apply in_or_app; right; left; reflexivity | right; eexists; split; reflexivity]).
  all: try (left; apply A, U2; reflexivity).
  all: try (split; [reflexivity|]; left; apply A, U2; reflexivity).
  all: split; [reflexivity|]; right; exists e; split; [reflexivity|]; destruct su; [|reflexivity];
    match goal with H : true = true -> _ |- _ => destruct (H eq_refl); discriminate end.
Qed.

Lemma run_UINV : forall ls s tr ls0 s1 es, INV s tr -> UINV s tr ls0 -> run s ls = Some (s1, es) ->
  UINV s1 (tr ++ es) (ls0 ++ ls).
Proof.
  induction ls as [|l r IH]; cbn; intros s tr ls0 s1 es HI HA HR.
  - inversion HR; subst. now rewrite !app_nil_r.
  - destruct (step s l) as [[s2 e1]|] eqn:E; [|discriminate].
    destruct (run s2 r) as [[s3 e2]|] eqn:E2; [|discriminate]. inversion HR; subst.
    rewrite app_assoc. replace (ls0 ++ l :: r) with ((ls0 ++ [l]) ++ r) by (now rewrite <- app_assoc).
    eapply IH; [| |exact E2]; [eapply step_INV|eapply step_UINV]; eauto.
Qed.

Lemma reach_UINV : forall ls s tr, run init ls = Some (s, tr) -> UINV s tr ls.
Proof.
  intros ls s tr H. apply (run_UINV ls init [] [] s tr INV_init); [|exact H].
  unfold UINV. cbn. intuition discriminate.
Qed.

Lemma sus_in : forall tr, In ESuspended tr -> sus tr = true.
Proof. intros tr H. unfold sus. apply existsb_exists. exists ESuspended. auto. Qed.

End Config.
