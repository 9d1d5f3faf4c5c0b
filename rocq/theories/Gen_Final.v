(** * Whole-run theorems about generators *)
From Coq Require Import List Bool Arith Lia.
From Verif Require Import Gen_Model Gen_Spec Gen_Inv Gen_Step Gen_Calm Gen_Last.
Import ListNotations.

Section Final.
Context {Y P E : Type}.
Notation event := (event Y P E).
Notation state := (state Y P E).
Notation label := (label Y P E).

Lemma run_from nv : forall ls (s : state) (tr : list event) s' ev, INV nv s -> TINV s tr -> correct nv s ls -> run nv s ls = Some (s', ev) ->
  INV nv s' /\ TINV s' (tr ++ ev) /\ Qall tr ev.
Proof.
  induction ls as [|l t IH]; cbn; intros s tr s' ev I T C R.
  - injection R as <- <-. rewrite app_nil_r. cbn. auto.
  - destruct C as [K C]. destruct (step nv l s) as [[s1 e1]|] eqn:S; [|discriminate].
    destruct (run nv s1 t) as [[s2 e2]|] eqn:R2; [|discriminate]. injection R as <- <-.
    destruct (step_INV _ _ _ _ _ I K S) as [I1 _]. destruct (step_TINV _ _ _ _ _ _ I T K S) as [T1 Q1].
    destruct (IH _ _ _ _ I1 T1 C R2) as (I2 & T2 & Q3). rewrite app_assoc. split; auto. split; auto.
    apply Qall_app. auto.
Qed.

Lemma run_calm nv : forall ls (s : state) (tr : list event) s' ev, INV nv s -> TINV s tr -> CINV s tr -> correct nv s ls -> forallb calm ls = true ->
  run nv s ls = Some (s', ev) -> CINV s' (tr ++ ev) /\ Q2all tr ev /\ forall q, ~ In (EOverwrite q) ev.
Proof.
  induction ls as [|l t IH]; cbn; intros s tr s' ev I T N C M R.
  - injection R as <- <-. rewrite app_nil_r. cbn. auto.
  - destruct C as [K C]. destruct (step nv l s) as [[s1 e1]|] eqn:S; [|discriminate].
    destruct (run nv s1 t) as [[s2 e2]|] eqn:R2; [|discriminate]. injection R as <- <-.
    apply andb_true_iff in M as [M1 M2].
    destruct (step_INV _ _ _ _ _ I K S) as [I1 _]. destruct (step_TINV _ _ _ _ _ _ I T K S) as [T1 Q1].
    pose proof (step_CINV _ _ _ _ _ _ I N K M1 S) as N1.
    destruct (IH _ _ _ _ I1 T1 N1 C M2 R2) as (N2 & Q3 & O). rewrite app_assoc. split; auto.
    assert (X : exc s <> None -> cst s = Dead). { intros X. apply (i_done _ _ I). apply (i_exc _ _ I X). }
    split; [|intros q; rewrite in_app_iff; intros [Z|Z]; [exact (step_overwrite nv l s s1 e1 tr q N X S Z)|exact (O q Z)]].
    apply Q2all_app. split; auto.
    refine (step_Q2 nv l s s1 e1 tr (t_vals _ _ T) _ (c_buf _ _ N) _ S).
    + intros H. apply (c_run _ _ N H).
    + intros H. split; [apply (c_exc _ _ N H)|auto].
Qed.

Lemma run_push nv : forall ls (s : state) (tr : list event) s' ev, nv = false \/ lazy s = false /\ eager ls ->
  INV nv s -> TINV s tr -> NINV s -> correct nv s ls ->
  run nv s ls = Some (s', ev) -> NINV s' /\ Q2all tr ev.
Proof.
  induction ls as [|l t IH]; cbn; intros s tr s' ev O I T N C R.
  - injection R as <- <-. cbn. auto.
  - destruct C as [K C]. destruct (step nv l s) as [[s1 e1]|] eqn:S; [|discriminate].
    destruct (run nv s1 t) as [[s2 e2]|] eqn:R2; [|discriminate]. injection R as <- <-.
    destruct (step_INV _ _ _ _ _ I K S) as [I1 _]. destruct (step_TINV _ _ _ _ _ _ I T K S) as [T1 Q1].
    assert (O0 : nv = false \/ lazy s = false /\ l <> LInitial).
    { destruct O as [O|[O1 O2]]; [left; exact O|right]. split; [exact O1|]. intros ->. apply O2. now left. }
    assert (O1 : nv = false \/ lazy s1 = false /\ eager t).
    { destruct O as [O|[L O]]; [left; exact O|right]. destruct O0 as [->|[_ D0]].
      - split; [|intros Z; apply O; now right]. refine (step_lazy _ _ _ _ _ _ L S). intros ->. apply O. now left.
      - split; [exact (step_lazy _ _ _ _ _ D0 L S)|intros Z; apply O; now right]. }
    pose proof (step_NINV _ _ _ _ _ O0 I N K S) as N1.
    destruct (IH _ _ _ _ O1 I1 T1 N1 C R2) as (N2 & Q3). split; auto.
    apply Q2all_app. split; auto.
    refine (step_Q2 nv l s s1 e1 tr (t_vals _ _ T) (n_run _ N) (n_buf _ N) _ S).
    intros H. split; [apply (n_exc _ N H)|]. apply (i_done _ _ I). apply (i_exc _ _ I H).
Qed.

Section Run.
Variables (nv : bool) (ls : list label) (s : state) (tr : list event).
Hypothesis C : correct nv init ls.
Hypothesis H : run nv init ls = Some (s, tr).

Lemma run_INV : INV nv s.
Proof. exact (proj1 (run_from nv ls init [] s tr (init_INV nv) init_TINV C H)). Qed.
Lemma run_TINV : TINV s tr.
Proof. exact (proj1 (proj2 (run_from nv ls init [] s tr (init_INV nv) init_TINV C H))). Qed.
Lemma run_Q a e b : tr = a ++ e :: b -> Q a e.
Proof.
  intros ->. destruct (run_from nv ls init [] s _ (init_INV nv) init_TINV C H) as (_ & _ & K). apply Qall_app in K as [_ K]. apply K.
Qed.

Theorem no_ub : ~ undefined tr.
Proof. intros (b & K). apply in_split in K as (x & y & K). exact (run_Q _ _ _ K). Qed.

Theorem in_order : exists held, yielded tr = taken tr ++ held /\ length held <= 2.
Proof.
  exists (o2l (res s) ++ o2l (buf s)). split; [exact (t_vals _ _ run_TINV)|]. destruct (res s), (buf s); cbn; lia.
Qed.

Theorem failure_once : failures tr <= 1.
Proof. pose proof (t_fail _ _ run_TINV). destruct (done s); lia. Qed.

Theorem error_right a w x b : tr = a ++ EResult w (RExc x) :: b ->
  match x with
  | XUser e => In (EThrow e) a
  | XUnexpected => In EKill a
  | XDetached => exists a', a = a' ++ [EInterrupt w]
  | XVoid => ended a /\ taken a = yielded a
  | XAlready => False
  end.
Proof. intros K. apply run_Q in K. exact K. Qed.

Theorem lost_after_destroy a y b : tr = a ++ ELost y :: b -> In EDestroy a.
Proof. intros K. apply run_Q in K. exact K. Qed.

Theorem falsy : truthy s = false -> ended tr /\ taken tr = yielded tr /\
  forall w p s' ev, step nv (LAwait w p) s = Some (s', ev) -> ev = [EAwait w p; EResult w (RExc XVoid)].
Proof.
  unfold truthy. intros K. rewrite !orb_false_iff, negb_false_iff in K. destruct K as [[D R] X].
  destruct (res s) eqn:Rs; [discriminate|]. destruct (exc s) eqn:Xs; [discriminate|].
  split; [exact (t_done _ _ run_TINV D)|]. split.
  - rewrite (t_vals _ _ run_TINV), Rs, (i_buf _ _ run_INV Rs). cbn. now rewrite app_nil_r.
  - intros w p s' ev S. cbn in S. destruct (ws s w); try discriminate. destruct (lifeof s); try discriminate.
    unfold ready, await_resume in S. rewrite Rs, Xs, D in S. cbn in S. now injection S as _ <-.
Qed.
Theorem truthy_more w p s' ev : truthy s = true -> step nv (LAwait w p) s = Some (s', ev) -> ~ In (EResult w (RExc XVoid)) ev.
Proof.
  intros K S I.
  assert (B : forall x, exc s = Some x -> x <> XVoid).
  { intros x X. pose proof (t_exc _ _ run_TINV). destruct x; try discriminate. tauto. }
  cbn -[upd] in S. destruct (ws s w); try discriminate. destruct (lifeof s); try discriminate.
  unfold truthy in K. unfold ready, await_resume, continue in S.
  destruct (exc s) as [x|] eqn:X; cbn -[upd] in S.
  { injection S as <- <-. cbn in I. destruct I as [I|[I|[]]]; [discriminate|]. injection I as I. exact (B _ eq_refl I). }
  destruct (res s) as [y|] eqn:R; cbn -[upd] in S.
  { injection S as _ <-. cbn in I. destruct I as [I|I]; [discriminate|]. apply in_app_iff in I as [I|I].
    - destruct (pushed s); cbn in I; intuition discriminate.
    - cbn in I. intuition discriminate. }
  destruct (done s); [discriminate|]. destruct (aw s).
  { injection S as _ <-. cbn in I. intuition discriminate. }
  split_step S; injection S as _ <-; cbn in I; intuition discriminate.
Qed.

(** n-th push, n-th co_yield *)
Theorem aligned : length (received tr) <= points tr <= S (length (received tr)).
Proof. pose proof (t_low _ _ run_TINV). pose proof (t_all _ _ run_TINV). lia. Qed.

Definition inits (tr : list event) := length (flat_map (fun e => match e with EInitial => [tt] | _ => [] end) tr).
Lemma len_yielded (l : list event) : length (yielded l) + inits l = points l + returns l.
Proof.
  unfold inits, points, returns. induction l as [|e t IH]; cbn; auto. rewrite !app_length. destruct e; cbn in *; lia.
Qed.
Theorem ahead : length (yielded tr) <= S (length (pushes tr)).
Proof. pose proof (len_yielded tr). pose proof (t_all _ _ run_TINV). pose proof (t_cnt _ _ run_TINV). lia. Qed.
Theorem lazy_ahead : In EInitial tr -> length (yielded tr) <= length (pushes tr).
Proof.
  intros I. pose proof (len_yielded tr). pose proof (t_all _ _ run_TINV). pose proof (t_cnt _ _ run_TINV).
  assert (0 < inits tr); [|lia]. apply in_split in I as (a & b & ->). unfold inits. rewrite flat_map_app, app_length. cbn. lia.
Qed.

Theorem served (y : Y) w tp : ws s w = WSusp tp ->
  exists ls' s' tr' r, correct nv s ls' /\ run nv s ls' = Some (s', tr') /\ In (EResult w r) tr'.
Proof.
  intros W. pose proof run_INV as I. pose proof (i_ws _ _ I _ _ W) as A. destruct (i_aw _ _ I _ A) as (Rc & NY & _).
  destruct (i_rec _ _ I Rc) as (_ & _ & D).
  assert (F : forall s0 : state, aw s0 = Some w -> rec s0 = true -> ws s0 w = WSusp tp -> cst s0 = Returning ->
     exists s' tr' r, run nv s0 [LFinal] = Some (s', tr') /\ In (EResult w r) tr').
  { intros s0 A0 R0 W0 D0. cbn -[upd]. rewrite D0. unfold final. rewrite A0, R0. unfold resume, set_aw, set_done, set_cst, set_rec. cbn -[upd].
    rewrite W0. unfold await_resume. cbn -[upd]. destruct (exc s0) as [x|]; cbn -[upd].
    { eexists _, _, (RExc x). split; [reflexivity|]. cbn. tauto. }
    destruct (res s0) as [z|]; cbn -[upd].
    - destruct tp; cbn -[upd]; eexists _, _, (RVal z); (split; [reflexivity|]); cbn; rewrite ?in_app_iff; cbn; tauto.
    - eexists _, _, (RExc XVoid). split; [reflexivity|]. cbn. tauto. }
  assert (G : forall s0 : state, aw s0 = Some w -> rec s0 = true -> ws s0 w = WSusp tp -> cst s0 = Running -> buf s0 = None ->
     exists s' tr' r, run nv s0 [LReturn y; LFinal] = Some (s', tr') /\ In (EResult w r) tr').
  { intros s0 A0 R0 W0 D0 B0.
    assert (St : exists s1, step nv (LReturn y) s0 = Some (s1, [EReturn y]) /\ aw s1 = Some w /\ rec s1 = true /\ ws s1 w = WSusp tp /\ cst s1 = Returning).
    { cbn. rewrite D0, R0. unfold store. rewrite B0. destruct (res s0); cbn; eexists; (split; [reflexivity|]); cbn; auto. }
    destruct St as (s1 & St & A1 & R1 & W1 & D1). destruct (F s1 A1 R1 W1 D1) as (s' & tr' & r & Q & In').
    exists s', ([EReturn y] ++ tr'), r. split; [|apply in_app_iff; auto].
    change (match step nv (LReturn y) s0 with None => None | Some (s1, e1) => match run nv s1 [LFinal] with None => None | Some (s2, e2) => Some (s2, e1 ++ e2) end end = Some (s', [EReturn y] ++ tr')).
    now rewrite St, Q. }
  destruct D as [D|[D|[D|D]]]; [| contradiction | |].
  - exists [LReturn y; LFinal]. destruct (G s A Rc W D (i_run_buf _ _ I D)) as (s' & tr' & r & Q & In').
    exists s', tr', r. split; auto. cbn -[step]. split; auto. destruct (step nv (LReturn y) s) as [[s1 ?]|]; auto. split; auto. destruct (step nv LFinal s1) as [[? ?]|]; auto.
  - destruct (i_posted _ _ I D) as (P1 & L1 & R1). destruct (pushed s) as [p|] eqn:Ps; [|congruence].
    assert (St : exists s1, step nv LJob s = Some (s1, [EPush p]) /\ aw s1 = Some w /\ rec s1 = true /\ ws s1 w = WSusp tp /\ cst s1 = Running /\ buf s1 = None).
    { cbn. rewrite D, Rc. unfold continue. rewrite Ps. eexists. split; [reflexivity|]. cbn. repeat split; auto. apply (i_buf _ _ I R1). }
    destruct St as (s1 & St & A1 & R1' & W1 & D1 & B1). destruct (G s1 A1 R1' W1 D1 B1) as (s' & tr' & r & Q & In').
    exists [LJob; LReturn y; LFinal], s', ([EPush p] ++ tr'), r. split; [|split; [|apply in_app_iff; auto]].
    + cbn -[step]. split; auto. rewrite St. split; auto. destruct (step nv (LReturn y) s1) as [[s2 ?]|]; auto. split; auto. destruct (step nv LFinal s2) as [[? ?]|]; auto.
    + change (match step nv LJob s with None => None | Some (s1, e1) => match run nv s1 [LReturn y; LFinal] with None => None | Some (s2, e2) => Some (s2, e1 ++ e2) end end = Some (s', [EPush p] ++ tr')).
      now rewrite St, Q.
  - exists [LFinal]. destruct (F s A Rc W D) as (s' & tr' & r & Q & In'). exists s', tr', r. split; auto.
    cbn -[step]. split; auto. destruct (step nv LFinal s) as [[? ?]|]; auto.
Qed.

(** Generators with pushed values, or without interrupted awaits, or eager ones. *)
Section Tame.
Hypothesis T : nv = false \/ forallb calm ls = true \/ eager ls.
Lemma tame_facts : (cst s = Running -> res s = None) /\ buf s = None /\ Q2all [] tr.
Proof.
  destruct T as [V|[M|V]].
  - destruct (run_push nv ls init [] s tr (or_introl V) (init_INV nv) init_TINV init_NINV C H) as [N K]. split; [apply N|split; [apply N|exact K]].
  - destruct (run_calm nv ls init [] s tr (init_INV nv) init_TINV init_CINV C M H) as (N & K & _).
    split; [intros D; apply (c_run _ _ N D)|split; [apply N|exact K]].
  - destruct (run_push nv ls init [] s tr (or_intror (conj eq_refl V)) (init_INV nv) init_TINV init_NINV C H) as [N K]. split; [apply N|split; [apply N|exact K]].
Qed.
Theorem one_ahead : length (yielded tr) <= S (length (taken tr)).
Proof.
  destruct tame_facts as (_ & B & _). rewrite (t_vals _ _ run_TINV), B, !app_length. destruct (res s); cbn; lia.
Qed.
Theorem error_last a w e b : tr = a ++ EResult w (RExc (XUser e)) :: b -> taken a = yielded a.
Proof.
  intros Z. destruct tame_facts as (_ & _ & K). rewrite Z in K. apply Q2all_app in K as [_ K]. apply K.
Qed.
Theorem error_last' a w b : tr = a ++ EResult w (RExc XUnexpected) :: b -> taken a = yielded a.
Proof.
  intros Z. destruct tame_facts as (_ & _ & K). rewrite Z in K. apply Q2all_app in K as [_ K]. apply K.
Qed.
Theorem prompt w tp : ws s w = WSusp tp -> cst s <> Returning -> taken tr = yielded tr.
Proof.
  intros W NR. destruct tame_facts as (R & B & _). pose proof run_INV as I. pose proof (i_ws _ _ I _ _ W) as A.
  destruct (i_aw _ _ I _ A) as (Rc & NY & _). destruct (i_rec _ _ I Rc) as (_ & _ & D).
  rewrite (t_vals _ _ run_TINV), B. replace (res s) with (@None Y); [cbn; now rewrite app_nil_r|].
  destruct D as [D|[D|[D|D]]]; try contradiction; [now rewrite R|]. now destruct (i_posted _ _ I D) as (_ & _ & ->).
Qed.
End Tame.

Section IsCalm.
Hypothesis M : forallb calm ls = true.
Lemma calm_CINV : CINV s tr.
Proof. exact (proj1 (run_calm nv ls init [] s tr (init_INV nv) init_TINV init_CINV C M H)). Qed.
Theorem pushes_in_order : exists rest, pushes tr = received tr ++ rest.
Proof. exact (c_rest _ _ calm_CINV). Qed.
Theorem pushes_all : cst s = Running -> rec s = true -> aw s = None -> received tr = pushes tr.
Proof.
  intros D R A. pose proof calm_CINV as N. rewrite (c_push _ _ N); [|now rewrite D].
  destruct (c_run _ _ N D) as [_ ->]. unfold wpush. rewrite A. cbn. now rewrite app_nil_r.
Qed.
Theorem no_overwrite p : ~ In (EOverwrite p) tr.
Proof. exact (proj2 (proj2 (run_calm nv ls init [] s tr (init_INV nv) init_TINV init_CINV C M H)) p). Qed.
End IsCalm.
End Run.
End Final.
