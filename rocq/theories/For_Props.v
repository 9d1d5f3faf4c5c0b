(** * Theorems about BOOST_COBALT_FOR (C51) *)
From Coq Require Import List Bool Arith Lia.
From Verif Require Import Gen_Model Gen_Spec Gen_Final For_Model For_Spec.
Import ListNotations.

Section Props.
Context {Y E : Type}.
Notation gstate := (Gen_Model.state Y unit E).
Notation gevent := (Gen_Model.event Y unit E).
Notation glabel := (Gen_Model.label Y unit E).
Notation state := (For_Model.state Y E).
Notation event := (For_Model.event Y E).
Notation label := (For_Model.label Y E).

(** ** What a step of the generator does to who waits *)
Definition quiet1 (e : gevent) : bool := match e with EResult _ _ | EKilled _ | EReject _ | EGet _ => false | _ => true end.
Definition quiet (es : list gevent) : Prop := forallb quiet1 es = true.
Definition passive (l : glabel) : bool := match l with LAwait _ _ | LInterrupt _ | LGet => false | _ => true end.

Definition effect (s s1 : gstate) (ev : list gevent) : Prop :=
  (quiet ev /\ ws s1 = ws s) \/
  (exists w tp pre r, ws s w = WSusp tp /\ ev = pre ++ [EResult w r] /\ quiet pre /\ ws s1 = upd (ws s) w WIdle) \/
  (exists w pre post, aw s = Some w /\ ev = pre ++ EKilled w :: post /\ quiet pre /\ quiet post /\ ws s1 = upd (ws s) w WKilled).

Lemma await_resume_shape w tp (s s1 : gstate) ev : await_resume w tp s = (s1, ev) ->
  exists pre r, ev = pre ++ [EResult w r] /\ quiet pre /\ ws s1 = ws s.
Proof.
  unfold await_resume. destruct (exc s) as [e|].
  { intro H; injection H as <- <-. exists [], (RExc e). repeat split. }
  destruct (res s) as [y|].
  2:{ intro H; injection H as <- <-. exists [], (RExc XVoid). repeat split. }
  destruct tp as [p|].
  - destruct (yielding (set_pushed (Some p) s) && negb (lazy (set_pushed (Some p) s))), (pushed s) as [q|];
      intro H; injection H as <- <-; eexists _, (RVal y); (split; [try reflexivity|split; [|reflexivity]]).
    all: try (match goal with |- ?a :: ?b :: nil = _ => exact (eq_refl ([a] ++ [b])) end).
    all: try (match goal with |- ?b :: nil = _ => exact (eq_refl ([] ++ [b])) end).
    all: reflexivity.
  - destruct (yielding s && negb (lazy s)); intro H; injection H as <- <-; exists [], (RVal y); repeat split.
Qed.

Lemma resume_shape w (s s1 : gstate) ev : resume w s = (s1, ev) ->
  (quiet ev /\ ws s1 = ws s) \/
  (exists tp pre r, ws s w = WSusp tp /\ ev = pre ++ [EResult w r] /\ quiet pre /\ ws s1 = upd (ws s) w WIdle).
Proof.
  unfold resume. destruct (ws s w) as [|tp|] eqn:W.
  1,3: intro H; injection H as <- <-; left; split; reflexivity.
  intro H. destruct (await_resume_shape _ _ _ _ _ H) as (pre & r & -> & Q & K).
  right. exists tp, pre, r. rewrite K. auto.
Qed.
Lemma continue_shape (s s1 : gstate) ev : continue s = (s1, ev) -> quiet ev /\ ws s1 = ws s.
Proof. unfold continue. destruct (pushed s); intro H; injection H as <- <-; split; reflexivity. Qed.
Lemma quiet_cons e es : quiet1 e = true -> quiet es -> quiet (e :: es).
Proof. unfold quiet. cbn. intros -> ->. reflexivity. Qed.
Lemma effect_cons s s1 e ev : quiet1 e = true -> effect s s1 ev -> effect s s1 (e :: ev).
Proof.
  intros Q [[A B]|[(w & tp & pre & r & A & -> & B & C)|(w & pre & post & A & -> & B & C & D)]].
  - left. split; [apply quiet_cons; assumption|assumption].
  - right; left. exists w, tp, (e :: pre), r. split; [exact A|]. split; [reflexivity|]. split; [apply quiet_cons; assumption|assumption].
  - right; right. exists w, (e :: pre), post. split; [exact A|]. split; [reflexivity|]. split; [apply quiet_cons; assumption|auto].
Qed.
Lemma arrive_effect nv (s s0 s1 : gstate) ev : arrive nv s = (s1, ev) -> ws s = ws s0 -> effect s0 s1 ev.
Proof.
  unfold arrive. intros H W. destruct (is_some (pushed s) && (nv || negb (is_some (res s)))).
  - apply continue_shape in H as [Q K]. left. split; [exact Q|congruence].
  - destruct (aw s) as [w|].
    + apply resume_shape in H. cbn [set_aw set_cst ws] in H. rewrite W in H.
      destruct H as [[Q K]|(tp & pre & r & A & B & C & D)]; [left; auto|].
      right; left. exists w, tp, pre, r. auto.
    + injection H as <- <-. left. split; [reflexivity|exact W].
Qed.
Lemma final_effect (s s0 s1 : gstate) ev : final s = (s1, ev) -> ws s = ws s0 -> effect s0 s1 ev.
Proof.
  unfold final. intros H W. destruct (rec s).
  2:{ injection H as <- <-. left. split; [reflexivity|exact W]. }
  destruct (aw s) as [w|].
  2:{ injection H as <- <-. left. split; [reflexivity|exact W]. }
  destruct (resume w _) as [s3 e3] eqn:R in H. injection H as <- <-. apply resume_shape in R.
  cbn [set_aw set_done set_cst set_rec ws] in R. rewrite W in R. apply effect_cons; [reflexivity|].
  destruct R as [[Q K]|(tp & pre & r & A & B & C & D)]; [left; auto|]. right; left. exists w, tp, pre, r. auto.
Qed.
Lemma kill_effect (s s0 s1 : gstate) ev o : kill_w o s = (s1, ev) -> ws s = ws s0 -> aw s0 = o -> effect s0 s1 ev.
Proof.
  unfold kill_w. intros H W A. destruct o as [w|]; injection H as <- <-.
  - right; right. exists w, [], []. cbn. rewrite W. repeat split. exact A.
  - left. split; [reflexivity|exact W].
Qed.

Ltac here := left; split; [try reflexivity|reflexivity].
Lemma passive_effect nv l (s s1 : gstate) ev : passive l = true -> step nv l s = Some (s1, ev) -> effect s s1 ev.
Proof.
  intros PL H. destruct l as [|y| |y|y|e| | | |w p|w|w t| |t| |]; try discriminate PL; cbn [step] in H.
  - destruct (lifeof s), (cst s); try discriminate; injection H as <- <-; here.
  - destruct (lifeof s), (cst s); try discriminate; injection H as <- <-; here.
  - destruct (cst s); try discriminate. destruct (rec s).
    + destruct (arrive nv _) as [s2 e2] eqn:A in H. injection H as <- <-. apply effect_cons; [reflexivity|].
      exact (arrive_effect _ _ _ _ _ A eq_refl).
    + injection H as <- <-. here.
  - destruct (cst s); try discriminate. destruct (rec s).
    + unfold store in H.
      destruct (res s); [destruct (buf s)|];
        [injection H as <- <-; here| |];
        destruct (arrive nv _) as [s2 e2] eqn:A in H; injection H as <- <-; apply effect_cons; try reflexivity;
        exact (arrive_effect _ _ _ _ _ A eq_refl).
    + injection H as <- <-. here.
  - destruct (cst s); try discriminate. destruct (rec s).
    + unfold store in H. destruct (res s); [destruct (buf s)|]; injection H as <- <-; here.
    + injection H as <- <-. here.
  - destruct (cst s); try discriminate. destruct (rec s).
    + destruct (final _) as [s2 e2] eqn:A in H. injection H as <- <-. apply effect_cons; [reflexivity|].
      exact (final_effect _ _ _ _ A eq_refl).
    + injection H as <- <-. here.
  - destruct (cst s); try discriminate. injection H as H. exact (final_effect _ _ _ _ H eq_refl).
  - destruct (cst s); try discriminate. destruct (rec s).
    + destruct (kill_w _ _) as [s2 e2] eqn:A in H. injection H as <- <-. apply effect_cons; [reflexivity|].
      exact (kill_effect _ s _ _ _ A eq_refl eq_refl).
    + injection H as <- <-. here.
  - destruct (cst s); try discriminate. destruct (rec s).
    + injection H as H. left. exact (continue_shape _ _ _ H).
    + injection H as <- <-. here.
  - destruct (ws s w); try discriminate. injection H as <- <-. left. split; [|reflexivity]. destruct (frame s); reflexivity.
  - destruct (lifeof s); try discriminate. injection H as H. unfold cancel in H.
    destruct (done s); [|destruct (frame s)]; injection H as <- <-; left; split; try reflexivity. destruct (rec s); reflexivity.
  - destruct (lifeof s); try discriminate. unfold cancel in H.
    destruct (done s); [|destruct (frame s)]; injection H as <- <-; left; split; try reflexivity. destruct (rec s); reflexivity.
  - destruct (lifeof s); try discriminate. destruct (negb (done s) && negb (frame s)).
    { injection H as <- <-. here. }
    set (s1' := if done s then s else set_rec false s) in H.
    assert (W1 : ws s1' = ws s /\ aw s1' = aw s) by (unfold s1'; destruct (done s); auto). destruct W1 as [W1 A1].
    destruct (if yielding s1' then (set_cst Dead s1', [EDiscard]) else (s1', [])) as [s2 e2] eqn:D in H.
    assert (Q2 : quiet e2 /\ ws s2 = ws s /\ aw s2 = aw s).
    { destruct (yielding s1'); injection D as <- <-; cbn [ws set_cst aw]; repeat split; assumption. }
    destruct Q2 as (Q2 & W2 & A2).
    destruct (kill_w (aw s2) (set_aw None s2)) as [s3 e3] eqn:KK in H. injection H as <- <-.
    apply effect_cons; [reflexivity|].
    unfold kill_w in KK. destruct (aw s2) as [w|] eqn:AA; injection KK as <- <-.
    + right; right. exists w, e2, []. cbn [set_life set_w set_aw ws]. rewrite W2. repeat split; auto.
    + left. rewrite app_nil_r. split; [exact Q2|exact W2].
Qed.

(** ** The loop's history is a history of the generator *)
Definition gens : list event -> list gevent := flat_map (fun e => match e with G e => [e] | _ => [] end).
Lemma gens_react es : gens (flat_map react es) = es.
Proof.
  induction es as [|e es IH]; [reflexivity|]. cbn [flat_map]. unfold gens in *. rewrite flat_map_app, IH.
  destruct e as [ | | | | | | | | | |[|w]|[|w] [y|x]| | | | | | | |]; reflexivity.
Qed.
Lemma gens_app a b : gens (a ++ b) = gens a ++ gens b.
Proof. apply flat_map_app. Qed.
Lemma visits_app (a b : list event) : visits (a ++ b) = visits a ++ visits b.
Proof. apply flat_map_app. Qed.

Lemma run_snoc nv (s0 : gstate) ls s tr l s1 ev : run nv s0 ls = Some (s, tr) -> step nv l s = Some (s1, ev) ->
  run nv s0 (ls ++ [l]) = Some (s1, tr ++ ev).
Proof.
  revert s0 tr. induction ls as [|a r IH]; intros s0 tr H K; cbn [run app] in *.
  - injection H as <- <-. rewrite K, app_nil_r. reflexivity.
  - destruct (step nv a s0) as [[s2 e2]|]; [|discriminate]. destruct (run nv s2 r) as [[s3 e3]|] eqn:R; [|discriminate].
    injection H as <- <-. rewrite (IH _ _ R K), app_assoc. reflexivity.
Qed.
Lemma correct_snoc nv (s0 : gstate) ls s tr l : correct nv s0 ls -> run nv s0 ls = Some (s, tr) -> ok s l = true ->
  correct nv s0 (ls ++ [l]).
Proof.
  revert s0 tr. induction ls as [|a r IH]; intros s0 tr C H K; cbn [run app correct] in *.
  - injection H as <- <-. split; [exact K|]. destruct (step nv l s0) as [[? ?]|]; exact I.
  - destruct C as [C1 C2]. split; [exact C1|]. destruct (step nv a s0) as [[s2 e2]|]; [|discriminate].
    destruct (run nv s2 r) as [[s3 e3]|] eqn:R; [|discriminate]. injection H as <- <-. exact (IH _ _ C2 R K).
Qed.

(** who waits, and what was visited *)
Record INV (s : state) (gl : list glabel) (tr : list event) : Prop := {
  f_run : run true init gl = Some (gen s, gens tr);
  f_cor : correct true init gl;
  f_calm : forallb calm gl = true;
  f_other : forall w, w <> 0 -> ws (gen s) w = WIdle;
  f_wait : match at_ s with
           | Waiting => exists tp, ws (gen s) 0 = WSusp tp
           | Killed => ws (gen s) 0 = WKilled
           | _ => ws (gen s) 0 = WIdle
           end;
  f_visits : visits tr = taken (gens tr) }.

Lemma fold_quiet es p : quiet es -> fold_left move es p = p.
Proof.
  unfold quiet. revert p. induction es as [|e es IH]; intros p H; [reflexivity|].
  cbn in H. apply andb_true_iff in H as [H1 H2]. cbn. rewrite IH by exact H2. destruct e; try discriminate; reflexivity.
Qed.
Lemma quiet_visits es : quiet es -> visits (flat_map react es) = taken es.
Proof.
  unfold quiet. induction es as [|e es IH]; intro H; [reflexivity|].
  cbn in H. apply andb_true_iff in H as [H1 H2]. cbn [flat_map]. rewrite visits_app, IH by exact H2.
  destruct e; try discriminate; reflexivity.
Qed.
Lemma taken_app (a b : list gevent) : taken (a ++ b) = taken a ++ taken b.
Proof. apply flat_map_app. Qed.

(** the three shapes, for the only consumer *)
Inductive shape (s s1 : gstate) (ev : list gevent) : Prop :=
| sh_quiet : quiet ev -> ws s1 = ws s -> shape s s1 ev
| sh_result tp pre r : ws s 0 = WSusp tp -> ev = pre ++ [EResult 0 r] -> quiet pre -> ws s1 = upd (ws s) 0 WIdle -> shape s s1 ev
| sh_killed tp pre post : ws s 0 = WSusp tp -> ev = pre ++ EKilled 0 :: post -> quiet pre -> quiet post -> ws s1 = upd (ws s) 0 WKilled -> shape s s1 ev.

Lemma passive_shape s gl tr l g ev : INV s gl tr -> passive l = true -> step true l (gen s) = Some (g, ev) -> shape (gen s) g ev.
Proof.
  intros I PL S. pose proof (Gen_Final.run_INV _ _ _ _ (f_cor _ _ _ I) (f_run _ _ _ I)) as GI.
  destruct (passive_effect _ _ _ _ _ PL S) as [[Q E1]|[(w & tp & pre & r & A & -> & Q & E1)|(w & pre & post & A & -> & Q & Q' & E1)]].
  - apply sh_quiet; assumption.
  - assert (w = 0) as -> by (destruct (Nat.eq_dec w 0); [assumption|rewrite (f_other _ _ _ I) in A by assumption; discriminate]).
    eapply sh_result; eauto.
  - destruct (Gen_Inv.i_aw _ _ GI _ A) as (_ & _ & tp & B).
    assert (w = 0) as -> by (destruct (Nat.eq_dec w 0); [assumption|rewrite (f_other _ _ _ I) in B by assumption; discriminate]).
    eapply sh_killed; eauto.
Qed.

Lemma react_result pre r : quiet pre -> visits (flat_map react (pre ++ [EResult 0 r])) = taken (pre ++ [EResult 0 r]).
Proof.
  intro Q. rewrite flat_map_app, visits_app, taken_app, quiet_visits by exact Q. destruct r; reflexivity.
Qed.

(** a step of the generator besides the loop *)
Lemma apply_INV s l s1 es gl tr : INV s gl tr -> passive l = true -> calm l = true -> ok (gen s) l = true ->
  apply s (at_ s) l = Some (s1, es) -> INV s1 (gl ++ [l]) (tr ++ es).
Proof.
  intros I PL CL OK H. pose proof I as [R C K O W V]. unfold apply in H.
  destruct (step true l (gen s)) as [[g ev]|] eqn:S; [|discriminate].
  injection H as <- <-. pose proof (passive_shape _ _ _ _ _ _ I PL S) as Sh. constructor.
  - rewrite gens_app, gens_react. exact (run_snoc _ _ _ _ _ _ _ _ R S).
  - exact (correct_snoc _ _ _ _ _ _ C R OK).
  - rewrite forallb_app, K. cbn. rewrite CL. reflexivity.
  - cbn [gen]. intros w N. destruct Sh as [Q E1|tp pre r A -> Q E1|tp pre post A -> Q Q' E1]; rewrite E1; auto;
      unfold upd; (destruct (Nat.eqb_spec w 0); [contradiction|auto]).
  - cbn [at_ gen]. destruct Sh as [Q E1|tp pre r A -> Q E1|tp pre post A -> Q Q' E1]; rewrite E1.
    + rewrite fold_quiet by exact Q. exact W.
    + rewrite fold_left_app. cbn [fold_left]. destruct r; reflexivity.
    + rewrite fold_left_app. cbn [fold_left move]. rewrite fold_quiet by exact Q'. reflexivity.
  - rewrite visits_app, gens_app, taken_app, V, gens_react. f_equal.
    destruct Sh as [Q E1|tp pre r A -> Q E1|tp pre post A -> Q Q' E1].
    + apply quiet_visits. exact Q.
    + apply react_result. exact Q.
    + rewrite flat_map_app, visits_app, taken_app, quiet_visits by exact Q. f_equal.
      cbn [flat_map]. rewrite visits_app, quiet_visits by exact Q'. reflexivity.
Qed.

(** the loop's own await *)
Inductive await_shape (s s1 : gstate) (ev : list gevent) : Prop :=
| as_result pre r : ready s = true -> ev = EAwait 0 tt :: pre ++ [EResult 0 r] -> quiet pre -> ws s1 = ws s -> await_shape s s1 ev
| as_wait tp pre : ready s = false -> ev = EAwait 0 tt :: pre -> quiet pre -> ws s1 = upd (ws s) 0 (WSusp tp) -> await_shape s s1 ev.
Lemma await_cases s gl tr g ev : INV s gl tr -> at_ s = Body -> step true (LAwait 0 tt) (gen s) = Some (g, ev) ->
  await_shape (gen s) g ev.
Proof.
  intros I B S. pose proof (Gen_Final.run_INV _ _ _ _ (f_cor _ _ _ I) (f_run _ _ _ I)) as GI. pose proof (f_wait _ _ _ I) as W.
  rewrite B in W. cbn [step] in S. rewrite W in S. destruct (lifeof (gen s)); try discriminate.
  destruct (ready (gen s)) eqn:Rd.
  - destruct (await_resume 0 (Some tt) (gen s)) as [s1 e1] eqn:A. injection S as <- <-.
    apply await_resume_shape in A as (pre & r & -> & Q & E1). eapply as_result; eauto.
  - destruct (aw (gen s)) as [w|] eqn:A.
    + destruct (Gen_Inv.i_aw _ _ GI _ A) as (_ & _ & tp & X).
      destruct (Nat.eq_dec w 0) as [->|N]; [congruence|rewrite (f_other _ _ _ I) in X by assumption; discriminate].
    + set (push := lazy (gen s) && negb (is_some (pushed (gen s)))) in S.
      set (s2 := if push then _ else _) in S.
      assert (E2 : ws s2 = upd (ws (gen s)) 0 (WSusp (if push then None else Some tt))) by (unfold s2; destruct push; reflexivity).
      destruct (yielding (gen s)).
      * destruct (continue s2) as [s3 e3] eqn:X. injection S as <- <-. apply continue_shape in X as [Q E3].
        apply (as_wait _ _ _ (if push then None else Some tt) e3); auto. rewrite E3. exact E2.
      * injection S as <- <-. apply (as_wait _ _ _ (if push then None else Some tt) []); auto. reflexivity.
Qed.
Lemma next_INV s s1 es gl tr : INV s gl tr -> at_ s = Body -> apply s Waiting (LAwait 0 tt) = Some (s1, es) ->
  INV s1 (gl ++ [LAwait 0 tt]) (tr ++ es).
Proof.
  intros I B H. pose proof I as [R C K O W V]. unfold apply in H. rewrite B in W.
  destruct (step true (LAwait 0 tt) (gen s)) as [[g ev]|] eqn:S; [|discriminate].
  injection H as <- <-. pose proof (await_cases _ _ _ _ _ I B S) as Sh. constructor.
  - rewrite gens_app, gens_react. exact (run_snoc _ _ _ _ _ _ _ _ R S).
  - exact (correct_snoc _ _ _ _ _ (LAwait 0 tt) C R eq_refl).
  - rewrite forallb_app, K. reflexivity.
  - cbn [gen]. intros w N. destruct Sh as [pre r _ -> Q E1|tp pre _ -> Q E1]; rewrite E1; auto.
    unfold upd; (destruct (Nat.eqb_spec w 0); [contradiction|auto]).
  - cbn [at_ gen]. destruct Sh as [pre r _ -> Q E1|tp pre _ -> Q E1]; rewrite E1; cbn [fold_left move].
    + rewrite fold_left_app. cbn [fold_left]. destruct r; exact W.
    + rewrite fold_quiet by exact Q. exists tp. reflexivity.
  - rewrite visits_app, gens_app, taken_app, V, gens_react. f_equal.
    destruct Sh as [pre r _ -> Q E1|tp pre _ -> Q E1].
    + cbn [flat_map]. rewrite visits_app, react_result by exact Q. reflexivity.
    + cbn [flat_map]. rewrite visits_app, quiet_visits by exact Q. reflexivity.
Qed.

Lemma besides_passive p (l : glabel) : besides p l = true -> passive l = true /\ calm l = true.
Proof. destruct l; cbn; auto; discriminate. Qed.

Lemma fstep_INV s l s1 es gl tr : INV s gl tr ->
  match l with FGen LInitial => lazy (gen s) = false /\ aw (gen s) = None | _ => True end ->
  fstep s l = Some (s1, es) -> exists gl1, INV s1 gl1 (tr ++ es).
Proof.
  intros I P H. unfold fstep in H. destruct l as [l| |].
  - destruct (besides (at_ s) l) eqn:B; [|discriminate]. destruct (besides_passive _ _ B) as [B1 B2].
    exists (gl ++ [l]). eapply apply_INV; eauto. destruct l; try reflexivity; try discriminate. cbn. destruct P as [-> ->]. reflexivity.
  - destruct (at_ s) eqn:A; try discriminate. destruct (condition (gen s)).
    + exists (gl ++ [LAwait 0 tt]). eapply next_INV; eauto.
    + injection H as <- <-. exists gl. destruct I as [R C K O W V]. rewrite A in W.
      constructor; cbn [gen at_]; rewrite ?gens_app, ?visits_app; cbn [gens visits flat_map app]; rewrite ?app_nil_r; auto.
  - destruct (at_ s) eqn:A; try discriminate. injection H as <- <-. exists gl. destruct I as [R C K O W V]. rewrite A in W.
    rewrite app_nil_r. constructor; auto.
Qed.

Lemma frun_INV : forall ls s gl tr s1 es, INV s gl tr -> proper s ls -> frun s ls = Some (s1, es) ->
  exists gl1, INV s1 gl1 (tr ++ es).
Proof.
  induction ls as [|l r IH]; intros s gl tr s1 es I P H; cbn [frun proper] in *.
  - injection H as <- <-. rewrite app_nil_r. eauto.
  - destruct P as [P1 P2]. destruct (fstep s l) as [[s2 e2]|] eqn:S; [|discriminate].
    destruct (frun s2 r) as [[s3 e3]|] eqn:R; [|discriminate]. injection H as <- <-.
    destruct (fstep_INV _ _ _ _ _ _ I P1 S) as [gl1 I1].
    destruct (IH _ _ _ _ _ I1 P2 R) as [gl2 I2]. exists gl2. rewrite app_assoc. exact I2.
Qed.
Lemma init_FINV : INV finit [] [].
Proof. constructor; cbn; auto. Qed.

(** ** Inside a history *)
Lemma frun_split : forall (ls : list label) (s s3 : state) (es a : list event) x b, frun s ls = Some (s3, es) -> es = a ++ x :: b ->
  exists ls1 l ls2 s1 e1 s2 p q e3, ls = ls1 ++ l :: ls2 /\ frun s ls1 = Some (s1, e1) /\
    fstep s1 l = Some (s2, p ++ x :: q) /\ frun s2 ls2 = Some (s3, e3) /\ a = e1 ++ p /\ b = q ++ e3.
Proof.
  induction ls as [|l r IH]; intros s s3 es a x b H E0; cbn [frun] in H.
  - injection H as <- <-. destruct a; discriminate.
  - destruct (fstep s l) as [[s2 e2]|] eqn:S; [|discriminate].
    destruct (frun s2 r) as [[s4 e4]|] eqn:R; [|discriminate]. injection H as <- <-.
    destruct (app_eq_app _ _ _ _ E0) as (m & [[-> E2]|[-> E2]]).
    + destruct m as [|y m]; cbn [app] in E2.
      * rewrite app_nil_r in S, E0. subst e4.
        destruct (IH _ _ _ [] x b R eq_refl) as (ls1 & l' & ls2 & s1 & e1 & s5 & p & q & e3 & -> & F1 & F2 & F3 & A & B).
        exists (l :: ls1), l', ls2, s1, (a ++ e1), s5, p, q, e3. cbn [frun app]. rewrite S, F1.
        repeat split; auto. rewrite <- app_assoc, <- A, app_nil_r. reflexivity.
      * injection E2 as <- ->. exists [], l, r, s, [], s2, a, m, e4. cbn [frun app]. repeat split; auto.
    + subst e4. destruct (IH _ _ _ m x b R eq_refl) as (ls1 & l' & ls2 & s1 & e1 & s5 & p & q & e3 & -> & F1 & F2 & F3 & A & B).
      exists (l :: ls1), l', ls2, s1, (e2 ++ e1), s5, p, q, e3. cbn [frun app]. rewrite S, F1.
      repeat split; auto. subst m. rewrite app_assoc. reflexivity.
Qed.
Lemma proper_app : forall (ls1 ls2 : list label) (s s1 : state) e1, proper s (ls1 ++ ls2) -> frun s ls1 = Some (s1, e1) -> proper s ls1 /\ proper s1 ls2.
Proof.
  induction ls1 as [|l r IH]; intros ls2 s s1 e1 P H; cbn [frun proper app] in *.
  - injection H as <- <-. auto.
  - destruct P as [P1 P2]. destruct (fstep s l) as [[s2 e2]|]; [|discriminate].
    destruct (frun s2 r) as [[s4 e4]|] eqn:R; [|discriminate]. injection H as <- <-.
    destruct (IH _ _ _ _ P2 R). auto.
Qed.

Definition loop_event (e : event) : bool := match e with G _ => false | _ => true end.
Lemma quiet_react es : quiet es -> flat_map react es = map G es.
Proof.
  unfold quiet. induction es as [|e es IH]; intro H; [reflexivity|]. cbn in H. apply andb_true_iff in H as [H1 H2].
  cbn [flat_map map]. rewrite IH by exact H2. destruct e; try discriminate; reflexivity.
Qed.
Lemma no_loop_map es e : In e (map (@G Y E) es) -> loop_event e = false.
Proof. intro H. apply in_map_iff in H as (g & <- & _). reflexivity. Qed.

(** a step makes at most one event of the loop, the last one *)
Lemma fstep_loop s gl tr l s1 p x q : INV s gl tr -> fstep s l = Some (s1, p ++ x :: q) -> loop_event x = true ->
  q = [] /\ (forall e, In e p -> loop_event e = false) /\
  match x with
  | Leave => p = [] /\ at_ s = Body /\ at_ s1 = Left /\ condition (gen s) = false /\ gen s1 = gen s
  | Visit y => at_ s1 = Body /\ exists p', p = p' ++ [G (EResult 0 (RVal y))]
  | Throw z => at_ s1 = Threw /\ exists p', p = p' ++ [G (EResult 0 (RExc z))]
  | G _ => False
  end.
Proof.
  assert (K : forall pre r p x q, quiet pre -> flat_map react (pre ++ [EResult 0 r]) = p ++ x :: q -> loop_event x = true ->
    q = [] /\ (forall e, In e p -> loop_event e = false) /\
    (exists p', p = p' ++ [G (EResult 0 r)]) /\ match r with RVal y => x = Visit y | RExc z => x = Throw z end).
  { clear. intros pre r p x q Q H X. rewrite flat_map_app, quiet_react in H by exact Q. cbn [flat_map] in H. rewrite app_nil_r in H.
    assert (H1 : exists z, flat_map react [EResult 0 r] = [G (EResult 0 r); z] /\ match r with RVal y => z = Visit y | RExc z' => z = Throw z' end)
      by (destruct r; eexists; split; reflexivity).
    destruct H1 as (z & H1 & H2). cbn [flat_map] in H1. rewrite app_nil_r in H1. rewrite H1 in H.
    change [G (EResult 0 r); z] with ([G (EResult 0 r)] ++ [z]) in H. rewrite app_assoc in H.
    assert (L : forall e, In e (map (@G Y E) pre ++ [G (EResult 0 r)]) -> loop_event e = false).
    { intros e I. apply in_app_or in I as [I|[<-|[]]]; [exact (no_loop_map _ _ I)|reflexivity]. }
    destruct (app_eq_app _ _ _ _ H) as (m & [[E1 E2]|[E1 E2]]).
    - destruct m as [|y m]; cbn [app] in E2.
      + injection E2 as E2a E2b. rewrite app_nil_r in E1. subst. split; [reflexivity|]. split; [exact L|]. split; [eexists; reflexivity|exact H2].
      + injection E2 as <- ->. exfalso. rewrite E1 in L. specialize (L x). rewrite L in X; [discriminate|]. apply in_or_app. cbn. auto.
    - destruct m as [|y m]; cbn [app] in E2.
      + injection E2 as E2a E2b. rewrite app_nil_r in E1. subst. split; [reflexivity|]. split; [exact L|]. split; [eexists; reflexivity|exact H2].
      + injection E2 as <- E2. destruct m; discriminate. }
  intros I H X. unfold fstep in H. destruct l as [l| |].
  - destruct (besides (at_ s) l) eqn:B; [|discriminate]. destruct (besides_passive _ _ B) as [B1 B2].
    unfold apply in H. destruct (step true l (gen s)) as [[g ev]|] eqn:S; [|discriminate]. injection H as <- H.
    destruct (passive_shape _ _ _ _ _ _ I B1 S) as [Q E1|tp pre r A -> Q E1|tp pre post A -> Q Q' E1].
    + exfalso. rewrite quiet_react in H by exact Q. specialize (no_loop_map ev x). rewrite H, X. intro D. discriminate D.
      apply in_or_app. cbn. auto.
    + destruct (K _ _ _ _ _ Q H X) as (-> & L & P & Z). split; [reflexivity|]. split; [exact L|].
      rewrite fold_left_app. cbn [at_ fold_left]. destruct r; subst x; cbn [move]; auto.
    + exfalso. rewrite flat_map_app, quiet_react in H by exact Q. cbn [flat_map] in H. rewrite quiet_react in H by exact Q'. change (react (EKilled 0)) with [@G Y E (EKilled 0)] in H.
      assert (D : In x (map G pre ++ G (EKilled 0) :: map G post)) by (change (G (EKilled 0) :: map G post) with ([@G Y E (EKilled 0)] ++ map G post); rewrite H; apply in_or_app; cbn; auto).
      apply in_app_or in D as [D|[D|D]]; [|subst x; discriminate|]; apply no_loop_map in D; congruence.
  - destruct (at_ s) eqn:A; try discriminate. destruct (condition (gen s)) eqn:Cn.
    + unfold apply in H. destruct (step true (LAwait 0 tt) (gen s)) as [[g ev]|] eqn:S; [|discriminate]. injection H as <- H.
      destruct (await_cases _ _ _ _ _ I A S) as [pre r _ -> Q E1|tp pre _ -> Q E1].
      * destruct (K (EAwait 0 tt :: pre) r p x q (quiet_cons (EAwait 0 tt) pre eq_refl Q) H X) as (-> & L & P & Z). split; [reflexivity|]. split; [exact L|].
        cbn [at_ fold_left move]. rewrite fold_left_app. cbn [fold_left]. destruct r; subst x; cbn [move]; auto.
      * exfalso. rewrite quiet_react in H by (apply quiet_cons; [reflexivity|exact Q]).
        specialize (no_loop_map (EAwait 0 tt :: pre) x). rewrite H, X. intro D. discriminate D. apply in_or_app. cbn. auto.
    + injection H as <- H. destruct p as [|y p]; [|destruct p; discriminate]. cbn in H. injection H as <- <-. cbn. repeat split; auto. intros e [].
  - destruct (at_ s); try discriminate. injection H as _ H. destruct p; discriminate.
Qed.

(** once it is left, the loop does nothing *)
Definition is_over (p : pc) : bool := match p with Left | Threw | Killed => true | _ => false end.
Lemma over_step s gl tr l s1 es : INV s gl tr -> is_over (at_ s) = true -> fstep s l = Some (s1, es) ->
  at_ s1 = at_ s /\ (forall e, In e es -> loop_event e = false).
Proof.
  intros I O H. unfold fstep in H. destruct l as [l| |]; [|destruct (at_ s); discriminate|destruct (at_ s); discriminate].
  destruct (besides (at_ s) l) eqn:B; [|discriminate]. destruct (besides_passive _ _ B) as [B1 B2].
  unfold apply in H. destruct (step true l (gen s)) as [[g ev]|] eqn:S; [|discriminate]. injection H as <- <-.
  assert (W : forall tp, ws (gen s) 0 <> WSusp tp).
  { intros tp W. pose proof (f_wait _ _ _ I) as F. rewrite W in F. destruct (at_ s); discriminate. }
  destruct (passive_shape _ _ _ _ _ _ I B1 S) as [Q E1|tp pre r A _ Q E1|tp pre post A _ Q Q' E1]; [|destruct (W _ A)|destruct (W _ A)].
  cbn [at_]. rewrite fold_quiet, quiet_react by exact Q. split; [reflexivity|]. apply no_loop_map.
Qed.
Lemma over_run : forall ls s gl tr s1 es, INV s gl tr -> proper s ls -> is_over (at_ s) = true -> frun s ls = Some (s1, es) ->
  at_ s1 = at_ s /\ (forall e, In e es -> loop_event e = false).
Proof.
  induction ls as [|l r IH]; intros s gl tr s1 es I P O H; cbn [frun proper] in *.
  - injection H as <- <-. split; [reflexivity|intros e []].
  - destruct P as [P1 P2]. destruct (fstep s l) as [[s2 e2]|] eqn:S; [|discriminate].
    destruct (frun s2 r) as [[s3 e3]|] eqn:R; [|discriminate]. injection H as <- <-.
    destruct (over_step _ _ _ _ _ _ I O S) as [O1 L1]. destruct (fstep_INV _ _ _ _ _ _ I P1 S) as [gl1 I1].
    rewrite <- O1 in O. destruct (IH _ _ _ _ _ I1 P2 O R) as [O2 L2]. split; [congruence|].
    intros e D. apply in_app_or in D as [D|D]; auto.
Qed.
Lemma silent_visits es : (forall e, In e es -> loop_event e = false) -> visits es = [].
Proof.
  induction es as [|e es IH]; intro H; [reflexivity|]. cbn [visits flat_map]. fold (visits es). rewrite IH by (intros; apply H; cbn; auto).
  specialize (H e (or_introl eq_refl)). destruct e; try discriminate. reflexivity.
Qed.

(** *** Reading the generator's part *)
Lemma produced_gens es : produced es = yielded (gens es).
Proof.
  induction es as [|e es IH]; [reflexivity|]. cbn [produced flat_map gens]. fold (produced es). fold (gens es). rewrite IH.
  destruct e as [[]| | |]; reflexivity.
Qed.
Lemma in_gens g es : In g (gens es) <-> In (G g) es.
Proof.
  unfold gens. rewrite in_flat_map. split.
  - intros ([x| | |] & A & B); cbn in B; try contradiction. destruct B as [->|[]]. exact A.
  - intro A. exists (G g). cbn. auto.
Qed.
Lemma finished_gens es : ended (gens es) -> finished es.
Proof. unfold ended, finished. rewrite !in_gens. auto. Qed.


(** a coroutine that has ended produces nothing *)
Lemma dead_step nv l (g g1 : gstate) ev : cst g = Dead -> passive l = true -> step nv l g = Some (g1, ev) ->
  cst g1 = Dead /\ yielded ev = [].
Proof.
  intros D PL H. destruct l as [|y| |y|y|e| | | |w p|w|w t| |t| |]; try discriminate PL; cbn [step] in H; rewrite ?D in H; try discriminate.
  - destruct (lifeof g); discriminate.
  - destruct (lifeof g); discriminate.
  - destruct (ws g w); try discriminate. injection H as <- <-. split; [exact D|]. destruct (frame g); reflexivity.
  - destruct (lifeof g); try discriminate. injection H as H. unfold cancel in H.
    destruct (done g); [|destruct (frame g)]; injection H as <- <-; (split; [exact D|]); try reflexivity. destruct (rec g); reflexivity.
  - destruct (lifeof g); try discriminate. unfold cancel in H.
    destruct (done g); [|destruct (frame g)]; injection H as <- <-; (split; [exact D|]); try reflexivity. destruct (rec g); reflexivity.
  - destruct (lifeof g); try discriminate. destruct (negb (done g) && negb (frame g)).
    { injection H as <- <-. split; [exact D|reflexivity]. }
    set (g' := if done g then g else set_rec false g) in H.
    assert (D' : cst g' = Dead) by (unfold g'; destruct (done g); exact D).
    unfold yielding in H. rewrite D' in H. unfold kill_w in H. destruct (aw g'); injection H as <- <-; (split; [exact D'|reflexivity]).
Qed.
Lemma dead_run : forall ls s gl tr s1 es, INV s gl tr -> proper s ls -> is_over (at_ s) = true -> cst (gen s) = Dead ->
  frun s ls = Some (s1, es) -> produced es = [].
Proof.
  induction ls as [|l r IH]; intros s gl tr s1 es I P O D H; cbn [frun proper] in *.
  - injection H as <- <-. reflexivity.
  - destruct P as [P1 P2]. destruct (fstep s l) as [[s2 e2]|] eqn:S; [|discriminate].
    destruct (frun s2 r) as [[s3 e3]|] eqn:R; [|discriminate]. injection H as <- <-.
    destruct (over_step _ _ _ _ _ _ I O S) as [O1 L1]. destruct (fstep_INV _ _ _ _ _ _ I P1 S) as [gl1 I1].
    assert (D2 : cst (gen s2) = Dead /\ produced e2 = []).
    { unfold fstep in S. destruct l as [l| |]; [|destruct (at_ s); discriminate|destruct (at_ s); discriminate].
      destruct (besides (at_ s) l) eqn:B; [|discriminate]. destruct (besides_passive _ _ B) as [B1 B2].
      unfold apply in S. destruct (step true l (gen s)) as [[g ev]|] eqn:S1; [|discriminate]. injection S as <- <-.
      destruct (dead_step _ _ _ _ _ D B1 S1) as [D1 D2]. split; [exact D1|]. rewrite produced_gens, gens_react. exact D2. }
    destruct D2 as [D2 D3]. rewrite <- O1 in O. pose proof (IH _ _ _ _ _ I1 P2 O D2 R) as D4.
    unfold produced in *. rewrite flat_map_app, D3, D4. reflexivity.
Qed.


Lemma no_interrupt nv l (g g1 : gstate) ev w : calm l = true -> step nv l g = Some (g1, ev) -> ~ In (EInterrupt w) ev.
Proof.
  intros M S. destruct g as [lf r b x d a lz pu c rc v]. destruct l; try discriminate M.
  all: unfold step, cancel, final, arrive, resume, continue, kill_w, await_resume, store, get_result, ready, live, frame, yielding in S; cbn -[upd] in S; Gen_Inv.split_step S.
  all: injection S as <- <-; cbn; intuition discriminate.
Qed.
Lemma run_no_interrupt nv w : forall l (g g1 : gstate) ev, forallb calm l = true -> run nv g l = Some (g1, ev) -> ~ In (EInterrupt w) ev.
Proof.
  induction l as [|a l IH]; intros g g1 ev M H; cbn [run forallb] in *.
  - injection H as <- <-. intros [].
  - apply andb_true_iff in M as [M1 M2]. destruct (step nv a g) as [[g2 e2]|] eqn:S; [|discriminate].
    destruct (run nv g2 l) as [[g3 e3]|] eqn:R; [|discriminate]. injection H as <- <-. rewrite in_app_iff.
    intros [D|D]; [exact (no_interrupt _ _ _ _ _ _ M1 S D)|exact (IH _ _ _ M2 R D)].
Qed.

(** results and visits correspond *)
Lemma visits_prefix : forall ls s gl tr s1 es a g b, INV s gl tr -> proper s ls -> frun s ls = Some (s1, es) -> es = a ++ G g :: b ->
  visits a = taken (gens a).
Proof.
  intros ls s gl tr s3 es a g b I P H E0.
  destruct (frun_split _ _ _ _ _ _ _ H E0) as (ls1 & l & ls2 & s1 & e1 & s2 & p & q & e3 & -> & F1 & F2 & F3 & -> & ->).
  destruct (proper_app _ _ _ _ _ P F1) as [P1 P2].
  destruct (frun_INV _ _ _ _ _ _ I P1 F1) as [gl1 I1].
  assert (V1 : visits e1 = taken (gens e1)).
  { pose proof (f_visits _ _ _ I) as VA. pose proof (f_visits _ _ _ I1) as VB.
    rewrite visits_app, gens_app, taken_app, VA in VB. exact (app_inv_head _ _ _ VB). }
  rewrite visits_app, gens_app, taken_app, V1. f_equal.
  (* a prefix of the reaction to a step *)
  unfold fstep in F2.
  assert (K : forall ev, flat_map react ev = p ++ G g :: q -> (forall w y, In (EResult w (RVal y)) ev -> w = 0) -> (forall y, ~ In (EGet (RVal y)) ev) -> visits p = taken (gens p)).
  { clear. revert p. intros p ev. revert p. induction ev as [|e ev IH]; intros p H N M.
    - destruct p; discriminate.
    - cbn [flat_map] in H. destruct p as [|x p]; [reflexivity|].
      assert (RC : (exists z, react e = [G e; z] /\ visits [z] = taken [e] /\ (forall h, z <> G h) /\ gens [z] = []) \/ (react e = [G e] /\ taken [e] = [])).
      { assert (N1 : forall w y, e = EResult w (RVal y) -> w = 0) by (intros w y ->; apply (N w y); cbn; auto).
        assert (M1 : forall y, e <> EGet (RVal y)) by (intros y ->; apply (M y); cbn; auto).
        destruct e as [ | | | | | | | | | |[|w]|[|w] [y|x']|[y|x']| | | | | | |]; cbn; auto;
          try (left; eexists; repeat split; [|]; [reflexivity|intros; discriminate]); try (left; eexists; split; [reflexivity|]; repeat split; intros; discriminate).
        - specialize (N1 _ _ eq_refl). discriminate.
        - destruct (M1 y eq_refl). }
      assert (N' : forall w y, In (EResult w (RVal y)) ev -> w = 0) by (intros; apply (N w y); cbn; auto).
      assert (M' : forall y, ~ In (EGet (RVal y)) ev) by (intros y D; apply (M y); cbn; auto).
      destruct RC as [(z & RZ & VZ & NZ & GZ)|[RZ VZ]]; rewrite RZ in H; cbn [app] in H.
      + injection H as <- H. destruct p as [|x p]; cbn [app] in H.
        * injection H as H _. destruct (NZ _ H).
        * injection H as <- H. specialize (IH _ H N' M').
          change (G e :: z :: p) with ([G e] ++ [z] ++ p). rewrite !visits_app, !gens_app, !taken_app, GZ, IH, VZ. reflexivity.
      + injection H as <- H. specialize (IH _ H N' M').
        change (G e :: p) with ([G e] ++ p). rewrite visits_app, gens_app, taken_app, IH. change (gens [G e]) with [e]. rewrite VZ. reflexivity. }
  assert (QN : forall ev, quiet ev -> (forall w y, ~ In (EResult w (RVal y)) ev) /\ (forall y, ~ In (EGet (RVal y)) ev)).
  { clear. intros ev Q. unfold quiet in Q. rewrite forallb_forall in Q. split; intros; intro D; apply Q in D; discriminate. }
  destruct l as [l| |].
  - destruct (besides (at_ s1) l) eqn:B; [|discriminate]. destruct (besides_passive _ _ B) as [B1 B2].
    unfold apply in F2. destruct (step true l (gen s1)) as [[g' ev]|] eqn:S; [|discriminate]. injection F2 as <- F2.
    destruct (passive_shape _ _ _ _ _ _ I1 B1 S) as [Q E1|tp pre r A -> Q E1|tp pre post A -> Q Q' E1]; apply (K _ F2).
    + intros w y D. destruct (QN _ Q) as [N _]. destruct (N _ _ D).
    + apply (QN _ Q).
    + intros w y D. apply in_app_or in D as [D|[D|[]]]; [destruct (proj1 (QN _ Q) _ _ D)|]. congruence.
    + intros y D. apply in_app_or in D as [D|[D|[]]]; [destruct (proj2 (QN _ Q) _ D)|]. discriminate.
    + intros w y D. apply in_app_or in D as [D|[D|D]]; [destruct (proj1 (QN _ Q) _ _ D)|discriminate|destruct (proj1 (QN _ Q') _ _ D)].
    + intros y D. apply in_app_or in D as [D|[D|D]]; [destruct (proj2 (QN _ Q) _ D)|discriminate|destruct (proj2 (QN _ Q') _ D)].
  - destruct (at_ s1) eqn:A; try discriminate. destruct (condition (gen s1)).
    + unfold apply in F2. destruct (step true (LAwait 0 tt) (gen s1)) as [[g' ev]|] eqn:S; [|discriminate]. injection F2 as <- F2.
      destruct (await_cases _ _ _ _ _ I1 A S) as [pre r _ -> Q E1|tp pre _ -> Q E1]; apply (K _ F2).
      * intros w y [D|D]; [discriminate|]. apply in_app_or in D as [D|[D|[]]]; [destruct (proj1 (QN _ Q) _ _ D)|]. congruence.
      * intros y [D|D]; [discriminate|]. apply in_app_or in D as [D|[D|[]]]; [destruct (proj2 (QN _ Q) _ D)|]. discriminate.
      * intros w y [D|D]; [discriminate|]. destruct (proj1 (QN _ Q) _ _ D).
      * intros y [D|D]; [discriminate|]. destruct (proj2 (QN _ Q) _ D).
    + injection F2 as _ F2. destruct p as [|x [|]]; discriminate.
  - destruct (at_ s1); try discriminate. injection F2 as _ F2. destruct p; discriminate.
Qed.


(** where "returned void" comes from *)
Lemma void_step nv l (g g1 : gstate) ev : passive l = true -> step nv l g = Some (g1, ev) -> Gen_Inv.INV nv g ->
  exc g <> Some XVoid -> (l = LInitial -> aw g = None) -> In (EResult 0 (RExc XVoid)) ev ->
  l = LFinal /\ cst g = Returning /\ rec g = true /\ res g = None.
Proof.
  intros M S I N Ini D.
  assert (X : cst g <> Dead -> exc g = None).
  { intro A. destruct (exc g) eqn:E1; [|reflexivity]. exfalso. apply A. apply (Gen_Inv.i_done _ _ I). apply (Gen_Inv.i_exc _ _ I). congruence. }
  clear I. destruct g as [lf r b x d a lz pu c rc v]. destruct l; try discriminate M.
  all: unfold step, cancel, final, arrive, resume, continue, kill_w, await_resume, store, get_result, ready, live, frame, yielding in S; cbn -[upd] in S, X, Ini, N; Gen_Inv.split_step S.
  all: injection S as <- <-; cbn in D; subst.
  all: try solve [intuition congruence].
  all: repeat match goal with H : _ \/ _ |- _ => destruct H end; try contradiction; try discriminate; try congruence.
  all: try (specialize (Ini eq_refl); discriminate).
  all: cbn; auto.
Qed.
Lemma returning_step nv l (g g1 : gstate) ev : passive l = true -> step nv l g = Some (g1, ev) -> cst g1 = Returning ->
  (cst g = Returning /\ l <> LFinal) \/ (exists y, l = LReturn y /\ (rec g1 = true -> res g1 <> None)).
Proof.
  intros M S D. destruct g as [lf r b x d a lz pu c rc v]. destruct l; try discriminate M.
  all: unfold step, cancel, final, arrive, resume, continue, kill_w, await_resume, store, get_result, ready, live, frame, yielding in S; cbn -[upd] in S; Gen_Inv.split_step S.
  all: injection S as <- <-; cbn in D |- *; subst; try discriminate.
  all: try solve [left; split; [reflexivity|discriminate]].
  all: right; eexists; split; [reflexivity|]; intro; try discriminate; try congruence.
Qed.
Lemma await_returning nv (g g1 : gstate) ev : step nv (LAwait 0 tt) g = Some (g1, ev) -> cst g1 = Returning -> cst g = Returning.
Proof.
  intros S D. destruct g as [lf r b x d a lz pu c rc v].
  unfold step, cancel, final, arrive, resume, continue, kill_w, await_resume, store, get_result, ready, live, frame, yielding in S; cbn -[upd] in S; Gen_Inv.split_step S.
  all: injection S as <- <-; cbn in D |- *; subst; try discriminate; reflexivity.
Qed.

Lemma no_void_run : forall ls s gl tr s1 es, INV s gl tr -> proper s ls -> ends_at_once ls ->
  (cst (gen s) = Returning -> match ls with [] => True | l :: _ => l = FGen LFinal end /\ (rec (gen s) = true -> res (gen s) <> None)) ->
  frun s ls = Some (s1, es) -> ~ In (Throw XVoid) es.
Proof.
  induction ls as [|l r IH]; intros s gl tr s1 es I P N J H; cbn [frun proper] in *.
  - injection H as <- <-. intros [].
  - destruct P as [P1 P2]. destruct (fstep s l) as [[s2 e2]|] eqn:S; [|discriminate].
    destruct (frun s2 r) as [[s3 e3]|] eqn:R; [|discriminate]. injection H as <- <-.
    destruct (fstep_INV _ _ _ _ _ _ I P1 S) as [gl1 I1].
    assert (N1 : ends_at_once r).
    { cbn [ends_at_once] in N. destruct l as [[]| |]; auto. destruct r; [exact Logic.I|apply N]. }
    assert (J1 : cst (gen s2) = Returning -> match r with [] => True | l :: _ => l = FGen LFinal end /\ (rec (gen s2) = true -> res (gen s2) <> None)).
    { intro D. unfold fstep in S. destruct l as [l| |].
      - destruct (besides (at_ s) l) eqn:B; [|discriminate]. destruct (besides_passive _ _ B) as [B1 B2].
        unfold apply in S. destruct (step true l (gen s)) as [[g ev]|] eqn:S1; [|discriminate]. injection S as <- <-. cbn [gen] in *.
        destruct (returning_step _ _ _ _ _ B1 S1 D) as [[D1 D2]|(y & -> & D1)].
        + exfalso. destruct (J D1) as [[= K] _]. contradiction.
        + split; [|exact D1]. destruct r as [|l2 r]; [exact Logic.I|]. cbn [ends_at_once] in N. apply N.
      - exfalso. destruct (at_ s); try discriminate. assert (D1 : cst (gen s) = Returning).
        { destruct (condition (gen s)).
          - unfold apply in S. destruct (step true (LAwait 0 tt) (gen s)) as [[g ev]|] eqn:S1; [|discriminate]. injection S as <- <-.
            exact (await_returning _ _ _ _ S1 D).
          - injection S as <- <-. exact D. }
        destruct (J D1) as [K _]. discriminate.
      - exfalso. destruct (at_ s); try discriminate. injection S as <- <-. destruct (J D) as [K _]. discriminate. }
    rewrite in_app_iff. intros [D|D]; [|exact (IH _ _ _ _ _ I1 P2 N1 J1 R D)].
    apply in_split in D as (p & q & ->). destruct (fstep_loop _ _ _ _ _ _ _ _ I S eq_refl) as (-> & _ & _ & p' & ->).
    assert (V : exists e ev l', step true l' (gen s) = Some (gen s2, ev) /\ In (EResult 0 (RExc XVoid)) ev /\ e = ev /\
       ((l' = LAwait 0 tt /\ condition (gen s) = true) \/ (l = FGen l' /\ passive l' = true))).
    { unfold fstep in S. destruct l as [l| |].
      - destruct (besides (at_ s) l) eqn:B; [|discriminate]. destruct (besides_passive _ _ B) as [B1 B2].
        unfold apply in S. destruct (step true l (gen s)) as [[g ev]|] eqn:S1; [|discriminate]. injection S as <- S.
        exists ev, ev, l. cbn [gen]. split; [exact S1|]. split; [|auto]. rewrite <- (gens_react ev), S, in_gens, !in_app_iff. cbn. auto.
      - destruct (at_ s); try discriminate. destruct (condition (gen s)).
        + unfold apply in S. destruct (step true (LAwait 0 tt) (gen s)) as [[g ev]|] eqn:S1; [|discriminate]. injection S as <- S.
          exists ev, ev, (LAwait 0 tt). cbn [gen]. split; [exact S1|]. split; [|auto]. rewrite <- (gens_react ev), S, in_gens, !in_app_iff. cbn. auto.
        + injection S as _ S. destruct p' as [|? [|]]; discriminate.
      - destruct (at_ s); try discriminate. injection S as _ S. destruct p'; discriminate. }
    destruct V as (_ & ev & l' & S1 & V & _ & [[-> Cn]|[-> PL]]).
    + exact (truthy_more _ _ _ _ (f_cor _ _ _ I) (f_run _ _ _ I) _ _ _ _ Cn S1 V).
    + pose proof (Gen_Final.run_INV _ _ _ _ (f_cor _ _ _ I) (f_run _ _ _ I)) as GI.
      pose proof (Gen_Step.t_exc _ _ (Gen_Final.run_TINV _ _ _ _ (f_cor _ _ _ I) (f_run _ _ _ I))) as (_ & _ & TX).
      assert (Ini : l' = LInitial -> aw (gen s) = None) by (intros ->; apply P1).
      destruct (void_step _ _ _ _ _ PL S1 GI TX Ini V) as (-> & D1 & D2 & D3). destruct (J D1) as [_ K]. exact (K D2 D3).
Qed.

(** *** An exception is not overlooked *)
Lemma trouble_step nv l (g g1 : gstate) ev : (cst g = Running -> rec g = true /\ done g = false) -> calm l = true -> step nv l g = Some (g1, ev) ->
  exc g <> None \/ In EKill ev \/ (exists e, In (EThrow e) ev) -> exc g1 <> None \/ exists w x, In (EResult w (RExc x)) ev.
Proof.
  intros Rc M S D. destruct g as [lf r b x d a lz pu c rc v]. destruct l; try discriminate M.
  all: unfold step, cancel, final, arrive, resume, continue, kill_w, await_resume, store, get_result, ready, live, frame, yielding in S; cbn -[upd] in S, Rc, D; Gen_Inv.split_step S.
  all: injection S as <- <-; cbn in D |- *; subst.
  all: try (destruct (Rc eq_refl) as [Rc1 Rc2]; discriminate).
  all: try solve [left; discriminate | right; eauto 10].
  all: try solve [left; destruct D as [D|[D|[e' D]]]; [exact D|exfalso; intuition discriminate|exfalso; intuition discriminate]].
  all: try solve [exfalso; destruct D as [D|[D|[e' D]]]; [congruence|intuition discriminate|intuition discriminate]].
  all: try solve [right; eexists _, _; cbn; eauto 10].
Qed.
Lemma life_step nv l (g g1 : gstate) ev : step nv l g = Some (g1, ev) -> l <> LDestroy1 -> l <> LDestroy2 ->
  lifeof g = Absent \/ lifeof g = Live -> lifeof g1 = Absent \/ lifeof g1 = Live.
Proof.
  intros S N1 N2 L. destruct g as [lf r b x d a lz pu c rc v]. destruct l; try congruence.
  all: unfold step, cancel, final, arrive, resume, continue, kill_w, await_resume, store, get_result, ready, live, frame, yielding in S; cbn -[upd] in S, L; Gen_Inv.split_step S.
  all: injection S as <- <-; cbn; auto.
Qed.
Definition INV2 (s : state) (tr : list event) : Prop := is_over (at_ s) = false ->
  (lifeof (gen s) = Absent \/ lifeof (gen s) = Live) /\
  (In (G EKill) tr \/ (exists e, In (G (EThrow e)) tr) -> exc (gen s) <> None).
Lemma gens_loop e : loop_event e = true -> gens [e] = [].
Proof. destruct e; [discriminate| | |]; reflexivity. Qed.
Lemma fstep_INV2 s gl tr l s1 es : INV s gl tr -> INV2 s tr -> fstep s l = Some (s1, es) -> INV2 s1 (tr ++ es).
Proof.
  intros I I2 H O1. assert (O : is_over (at_ s) = false).
  { destruct (is_over (at_ s)) eqn:E1; [|reflexivity]. destruct (over_step _ _ _ _ _ _ I E1 H) as [K _]. congruence. }
  destruct (I2 O) as [L D]. pose proof (Gen_Final.run_INV _ _ _ _ (f_cor _ _ _ I) (f_run _ _ _ I)) as GI.
  assert (Rc : cst (gen s) = Running -> rec (gen s) = true /\ done (gen s) = false).
  { intro C. assert (Dn : done (gen s) = false).
    { destruct (done (gen s)) eqn:Dn; [|reflexivity]. apply (Gen_Inv.i_done _ _ GI) in Dn. congruence. }
    split; [|exact Dn]. destruct L as [L|L].
    - destruct (Gen_Inv.i_absent _ _ GI L) as (_ & _ & _ & _ & _ & _ & _ & K & _). congruence.
    - apply (Gen_Inv.i_live _ _ GI); [unfold live; rewrite L; reflexivity|exact Dn]. }
  assert (M : forall l' ev, step true l' (gen s) = Some (gen s1, ev) -> calm l' = true -> l' <> LDestroy1 -> l' <> LDestroy2 ->
    es = flat_map react ev -> (forall w x, ~ In (EResult w (RExc x)) ev) ->
    (lifeof (gen s1) = Absent \/ lifeof (gen s1) = Live) /\ (In (G EKill) (tr ++ es) \/ (exists e, In (G (EThrow e)) (tr ++ es)) -> exc (gen s1) <> None)).
  { intros l' ev S Cl N1 N2 Ee NR. split; [exact (life_step _ _ _ _ _ S N1 N2 L)|]. intro K.
    assert (K' : exc (gen s) <> None \/ In EKill ev \/ (exists e, In (EThrow e) ev)).
    { assert (In1 : forall g, In (G g) (tr ++ es) -> In (G g) tr \/ In g ev).
      { intros g Q. apply in_app_or in Q as [Q|Q]; [auto|]. right. rewrite Ee in Q. apply in_gens in Q. rewrite gens_react in Q. exact Q. }
      destruct K as [K|[e K]]; apply In1 in K as [K|K]; eauto. }
    destruct (trouble_step _ _ _ _ _ Rc Cl S K') as [Q|(w & x & Q)]; [exact Q|]. destruct (NR _ _ Q). }
  assert (QR : forall ev w x, quiet ev -> ~ In (EResult w (RExc x)) ev).
  { intros ev w x Q K. unfold quiet in Q. rewrite forallb_forall in Q. apply Q in K. discriminate. }
  unfold fstep in H. destruct l as [l| |].
  - destruct (besides (at_ s) l) eqn:B; [|discriminate]. destruct (besides_passive _ _ B) as [B1 B2].
    unfold apply in H. destruct (step true l (gen s)) as [[g ev]|] eqn:S; [|discriminate]. injection H as <- <-. cbn [gen at_] in *.
    apply (M l ev S B2); auto.
    + intros ->. cbn in B. destruct (at_ s); discriminate.
    + intros ->. cbn in B. destruct (at_ s); discriminate.
    + intros w x K. destruct (passive_shape _ _ _ _ _ _ I B1 S) as [Q E1|tp pre r A -> Q E1|tp pre post A -> Q Q' E1].
      * exact (QR _ _ _ Q K).
      * apply in_app_or in K as [K|[K|[]]]; [exact (QR _ _ _ Q K)|]. injection K as <- ->. rewrite fold_left_app in O1. discriminate.
      * apply in_app_or in K as [K|[K|K]]; [exact (QR _ _ _ Q K)|discriminate|exact (QR _ _ _ Q' K)].
  - destruct (at_ s) eqn:A; try discriminate. destruct (condition (gen s)).
    + unfold apply in H. destruct (step true (LAwait 0 tt) (gen s)) as [[g ev]|] eqn:S; [|discriminate]. injection H as <- <-. cbn [gen at_] in *.
      apply (M (LAwait 0 tt) ev S eq_refl); auto; try discriminate. intros w x K.
      destruct (await_cases _ _ _ _ _ I A S) as [pre r _ -> Q E1|tp pre _ -> Q E1].
      * destruct K as [K|K]; [discriminate|]. apply in_app_or in K as [K|[K|[]]]; [exact (QR _ _ _ Q K)|]. injection K as <- ->.
        cbn [fold_left move] in O1. rewrite fold_left_app in O1. discriminate.
      * destruct K as [K|K]; [discriminate|]. exact (QR _ _ _ Q K).
    + injection H as <- <-. discriminate.
  - destruct (at_ s); try discriminate. injection H as <- <-. discriminate.
Qed.
Lemma frun_INV2 : forall ls s gl tr s1 es, INV s gl tr -> INV2 s tr -> proper s ls -> frun s ls = Some (s1, es) -> INV2 s1 (tr ++ es).
Proof.
  induction ls as [|l r IH]; intros s gl tr s1 es I I2 P H; cbn [frun proper] in *.
  - injection H as <- <-. rewrite app_nil_r. exact I2.
  - destruct P as [P1 P2]. destruct (fstep s l) as [[s2 e2]|] eqn:S; [|discriminate].
    destruct (frun s2 r) as [[s3 e3]|] eqn:R; [|discriminate]. injection H as <- <-.
    destruct (fstep_INV _ _ _ _ _ _ I P1 S) as [gl1 I1]. rewrite app_assoc.
    exact (IH _ _ _ _ _ I1 (fstep_INV2 _ _ _ _ _ _ I I2 S) P2 R).
Qed.
Lemma init_INV2 : INV2 finit [].
Proof. intros _. cbn. split; [auto|]. intros [[]|[e []]]. Qed.

Section History.
Variables (ls : list label) (s : state) (es : list event).
Hypothesis P : proper finit ls.
Hypothesis R : frun finit ls = Some (s, es).

(** C51: the body runs with the values the coroutine produces, in order, each once; at most one is missing *)
Theorem C51_in_order : exists rest, produced es = visits es ++ rest /\ length rest <= 1.
Proof.
  destruct (frun_INV _ _ _ _ _ _ init_FINV P R) as [gl I]. cbn [app] in I. destruct I as [GR C K O W V].
  destruct (in_order _ _ _ _ C GR) as (rest & H & _). exists rest. rewrite produced_gens, V. split; [exact H|].
  pose proof (one_ahead _ _ _ _ C GR (or_intror (or_introl K))) as L. rewrite H, app_length in L. lia.
Qed.

(** C51: the loop ends normally only when the coroutine has ended, not with an exception and not by being
    destroyed, and the body ran for everything it produced; nothing comes afterwards *)
Theorem C51_complete : forall a b, es = a ++ Leave :: b ->
  In (G EFinal) a /\ ~ In (G EKill) a /\ (forall e, ~ In (G (EThrow e)) a) /\
  visits a = produced a /\ (forall e, In e b -> exists g, e = G g) /\ produced b = [].
Proof.
  intros a b E0. destruct (frun_split _ _ _ _ _ _ _ R E0) as (ls1 & l & ls2 & s1 & e1 & s2 & p & q & e3 & E1 & F1 & F2 & F3 & -> & ->).
  pose proof P as P0. rewrite E1 in P0. destruct (proper_app _ _ _ _ _ P0 F1) as [P1 P2]. cbn [proper] in P2. rewrite F2 in P2. destruct P2 as [P2 P3].
  destruct (frun_INV _ _ _ _ _ _ init_FINV P1 F1) as [gl1 I1]. cbn [app] in I1.
  destruct (fstep_loop _ _ _ _ _ _ _ _ I1 F2 eq_refl) as (-> & _ & -> & A1 & A2 & Cn & Ge).
  destruct (fstep_INV _ _ _ _ _ _ I1 P2 F2) as [gl2 I2]. pose proof I1 as [GR C K O W V]. rewrite app_nil_r.
  change (condition (gen s1)) with (truthy (gen s1)) in Cn.
  destruct (falsy _ _ _ _ C GR Cn) as (En & T & _). apply finished_gens in En.
  assert (O1 : is_over (at_ s1) = false) by (rewrite A1; reflexivity).
  destruct (frun_INV2 _ _ _ _ _ _ init_FINV init_INV2 P1 F1 O1) as [_ D2]. cbn [app] in D2.
  assert (X : exc (gen s1) = None).
  { pose proof Cn as Cn'. unfold truthy in Cn'. apply orb_false_iff in Cn' as [_ Cn']. destruct (exc (gen s1)); [discriminate|reflexivity]. }
  assert (NK : ~ In (G EKill) e1) by (intro K'; apply D2; auto).
  split; [destruct En; [assumption|contradiction]|]. split; [exact NK|]. split; [intros e K'; apply D2; eauto|].
  split; [rewrite produced_gens, V; exact T|]. cbn [app].
  assert (Ov : is_over (at_ s2) = true) by (rewrite A2; reflexivity). split.
  - intros e D. pose proof (proj2 (over_run _ _ _ _ _ _ I2 P3 Ov F3) e D) as L. destruct e; try discriminate. eauto.
  - apply (dead_run _ _ _ _ _ _ I2 P3 Ov) in F3; [exact F3|]. rewrite Ge.
    apply (Gen_Inv.i_done _ _ (Gen_Final.run_INV _ _ _ _ C GR)). unfold condition in Cn.
    unfold truthy in Cn. apply orb_false_iff in Cn as [Cn _]. apply orb_false_iff in Cn as [Cn _]. destruct (done (gen s1)); [reflexivity|discriminate].
Qed.

(** C51: the loop throws only what the coroutine threw, or completed_unexpected if it was destroyed, or
    "returned void" (see below); the body ran for everything the coroutine produced before, and
    nothing comes afterwards *)
Theorem C51_throws : forall a x b, es = a ++ Throw x :: b ->
  match x with
  | XUser e => In (G (EThrow e)) a
  | XUnexpected => In (G EKill) a
  | XVoid => finished a
  | _ => False
  end /\ visits a = produced a /\ (forall e, In e b -> exists g, e = G g).
Proof.
  intros a x b E0. destruct (frun_split _ _ _ _ _ _ _ R E0) as (ls1 & l & ls2 & s1 & e1 & s2 & p & q & e3 & E1 & F1 & F2 & F3 & Ea & Eb).
  pose proof P as P0. rewrite E1 in P0. destruct (proper_app _ _ _ _ _ P0 F1) as [P1 P2]. cbn [proper] in P2. rewrite F2 in P2. destruct P2 as [P2 P3].
  destruct (frun_INV _ _ _ _ _ _ init_FINV P1 F1) as [gl1 I1]. cbn [app] in I1.
  destruct (fstep_loop _ _ _ _ _ _ _ _ I1 F2 eq_refl) as (-> & _ & A2 & p' & ->).
  destruct (fstep_INV _ _ _ _ _ _ I1 P2 F2) as [gl2 I2]. cbn [app] in Eb. subst b.
  destruct (frun_INV _ _ _ _ _ _ init_FINV P R) as [gl I]. cbn [app] in I. destruct I as [GR C K O W V].
  rewrite app_assoc in Ea. set (a' := e1 ++ p') in *.
  assert (ES : es = a' ++ G (EResult 0 (RExc x)) :: Throw x :: e3) by (rewrite E0, Ea, <- app_assoc; reflexivity).
  assert (GS : gens es = gens a' ++ EResult 0 (RExc x) :: gens e3) by (rewrite ES, gens_app; reflexivity).
  pose proof (error_right _ _ _ _ C GR _ _ _ _ GS) as ER.
  assert (VA : visits a = taken (gens a')).
  { rewrite Ea, visits_app. cbn [visits flat_map]. rewrite app_nil_r. exact (visits_prefix _ _ _ _ _ _ _ _ _ init_FINV P R ES). }
  assert (PA : produced a = yielded (gens a')).
  { rewrite Ea, produced_gens, gens_app. cbn [gens flat_map app]. unfold yielded. rewrite flat_map_app. cbn. apply app_nil_r. }
  assert (OV : forall e, In e e3 -> exists g, e = G g).
  { intros e D. assert (Ov : is_over (at_ s2) = true) by (rewrite A2; reflexivity).
    pose proof (proj2 (over_run _ _ _ _ _ _ I2 P3 Ov F3) e D) as L. destruct e; try discriminate. eauto. }
  assert (IN : forall g, In g (gens a') -> In (G g) a) by (intros g D; rewrite Ea; apply in_or_app; left; apply in_gens; exact D).
  rewrite VA, PA. destruct x as [e| | | |].
  - split; [apply IN; exact ER|]. split; [|exact OV]. exact (error_last _ _ _ _ C GR (or_intror (or_introl K)) _ _ _ _ GS).
  - exfalso. destruct ER as [a0 ER]. apply (run_no_interrupt _ 0 _ _ _ _ K GR). rewrite GS, ER, !in_app_iff. cbn. auto.
  - destruct ER.
  - split; [apply IN; exact ER|]. split; [|exact OV]. exact (error_last' _ _ _ _ C GR (or_intror (or_introl K)) _ _ _ GS).
  - destruct ER as [En T]. split; [|split; [exact T|exact OV]]. destruct En as [D|D]; [left|right]; apply IN; exact D.
Qed.

(** C51: while the loop waits, the body ran for everything the coroutine produced (except while a returning coroutine
    destroys its local variables); *)
Theorem C51_prompt : at_ s = Waiting -> cst (gen s) <> Returning -> visits es = produced es.
Proof.
  intros A NR. destruct (frun_INV _ _ _ _ _ _ init_FINV P R) as [gl I]. cbn [app] in I. destruct I as [GR C K O W V].
  rewrite A in W. destruct W as [tp W]. rewrite produced_gens, V. exact (prompt _ _ _ _ C GR (or_intror (or_introl K)) _ _ W NR).
Qed.

(** ... and it is not stuck: the coroutine can go on such that the loop continues (with any value [y] it returns) *)
Theorem C51_served : forall y : Y, at_ s = Waiting -> exists ls' s' es', frun s ls' = Some (s', es') /\ proper s ls' /\
  exists e, In e es' /\ match e with Visit _ | Throw _ => True | _ => False end.
Proof.
  intros y A. destruct (frun_INV _ _ _ _ _ _ init_FINV P R) as [gl I]. cbn [app] in I. destruct I as [GR C K O W V].
  rewrite A in W. destruct W as [tp W]. pose proof (Gen_Final.run_INV _ _ _ _ C GR) as GI. pose proof (Gen_Inv.i_ws _ _ GI _ _ W) as B.
  pose proof (calm_CINV _ _ _ _ C GR K) as CI.
  destruct (Gen_Inv.i_aw _ _ GI _ B) as (Rc & NY & _). destruct (Gen_Inv.i_rec _ _ GI Rc) as (Lv & Dn & Cs).
  assert (X : exc (gen s) = None).
  { destruct (exc (gen s)) eqn:E1; [|reflexivity]. assert (Q : exc (gen s) <> None) by congruence. apply (Gen_Inv.i_exc _ _ GI) in Q. congruence. }
  clear P R GR C K O V. destruct s as [g at0]. cbn [gen at_] in *. subst at0.
  assert (F : forall g : gstate, rec g = true -> aw g = Some 0 -> ws g 0 = WSusp tp -> cst g = Returning ->
    exists s' (es' : list event), frun (mk g Waiting) [FGen LFinal] = Some (s', es') /\ exists e, In e es' /\ match e with Visit _ | Throw _ => True | _ => False end).
  { clear. intros g Rc B W D. unfold frun, fstep, apply, step. cbn [at_ gen besides]. rewrite D. unfold final. rewrite Rc, B. unfold resume.
    cbn [set_aw set_done set_cst set_rec ws]. rewrite W.
    destruct (await_resume 0 tp _) as [g1 e1] eqn:AR. apply await_resume_shape in AR as (pre & r & -> & _ & _).
    eexists _, _. split; [reflexivity|]. rewrite app_nil_r. cbn [flat_map].
    exists (match r with RVal v => Visit v | RExc x => Throw x end). split; [|destruct r; exact I].
    apply in_or_app. right. rewrite flat_map_app. apply in_or_app. right. destruct r; cbn; auto. }
  assert (F2 : forall g : gstate, rec g = true -> aw g = Some 0 -> ws g 0 = WSusp tp -> cst g = Running -> res g = None ->
    exists s' (es' : list event), frun (mk g Waiting) [FGen (LReturn y); FGen LFinal] = Some (s', es') /\ exists e, In e es' /\ match e with Visit _ | Throw _ => True | _ => False end).
  { intros g0 Rc0 B0 W0 D0 Rs. cbn [frun]. unfold fstep at 1, apply, step. cbn [at_ gen besides]. rewrite D0, Rc0. unfold store. rewrite Rs.
    destruct (F (set_cst Returning (set_vals (Some y) (buf g0) g0)) Rc0 B0 W0 eq_refl) as (s' & es' & F1 & e & F2 & F3).
    cbn [fold_left move]. cbn [frun] in F1. destruct (fstep _ (FGen LFinal)) as [[s2 e2]|]; [|discriminate]. injection F1 as <- <-.
    eexists _, _. split; [reflexivity|]. exists e. split; [|exact F3]. apply in_or_app. right. exact F2. }
  destruct Cs as [D|[D|[D|D]]]; [|contradiction| |].
  - destruct (F2 g Rc B W D (proj1 (Gen_Calm.c_run _ _ CI D))) as (s' & es' & F3 & F4).
    exists [FGen (LReturn y); FGen LFinal], s', es'. split; [exact F3|]. split; [|exact F4].
    cbn [proper]. split; [exact Logic.I|]. destruct (fstep _ _) as [[? ?]|]; [|exact Logic.I]. split; [exact Logic.I|]. destruct (fstep _ _) as [[? ?]|]; exact Logic.I.
  - destruct (Gen_Inv.i_posted _ _ GI D) as (Pu & _ & Rs). destruct (pushed g) as [p|] eqn:Pg; [|contradiction].
    destruct (F2 (set_cst Running (set_pushed None g)) Rc B W eq_refl Rs) as (s' & es' & F3 & e & F4 & F5).
    assert (ST : fstep (mk g Waiting) (FGen LJob) = Some (mk (set_cst Running (set_pushed None g)) Waiting, [G (EPush p)])).
    { unfold fstep, apply, step. cbn [at_ gen besides]. rewrite D, Rc. unfold continue. rewrite Pg. reflexivity. }
    exists [FGen LJob; FGen (LReturn y); FGen LFinal], s', ([G (EPush p)] ++ es'). split.
    + cbn [frun] in *. rewrite ST. destruct (fstep _ (FGen (LReturn y))) as [[s2 e2]|]; [|discriminate].
      destruct (fstep s2 (FGen LFinal)) as [[s3 e3]|]; [|discriminate]. injection F3 as <- <-. reflexivity.
    + split; [|exists e; split; [apply in_or_app; auto|exact F5]].
      cbn [proper]. split; [exact Logic.I|]. destruct (fstep _ _) as [[? ?]|]; [|exact Logic.I]. split; [exact Logic.I|].
      destruct (fstep _ _) as [[? ?]|]; [|exact Logic.I]. split; [exact Logic.I|]. destruct (fstep _ _) as [[? ?]|]; exact Logic.I.
  - destruct (F g Rc B W D) as (s' & es' & F3 & F4).
    exists [FGen LFinal], s', es'. split; [exact F3|]. split; [|exact F4]. cbn [proper]. split; [exact Logic.I|]. destruct (fstep _ _) as [[? ?]|]; exact Logic.I.
Qed.

(** C51: the loop never ends with "returned void" if nothing happens between co_return and the end of the coroutine *)
Theorem C51_no_void_partial : ends_at_once ls -> ~ In (Throw XVoid) es.
Proof. intro N. refine (no_void_run _ _ _ _ _ _ init_FINV P N _ R). cbn. discriminate. Qed.
End History.
End Props.
Print Assumptions C51_in_order.
Print Assumptions C51_complete.
Print Assumptions C51_throws.
Print Assumptions C51_prompt.
Print Assumptions C51_served.
Print Assumptions C51_no_void_partial.

(** Otherwise it does: the loop takes the returned value while the coroutine destroys its local variables, finds the generator not
    yet done, awaits it again and gets an exception that the coroutine did not throw *)
Theorem C51_returning_refuted : exists (ls : list (label nat nat)) s es, frun finit ls = Some (s, es) /\ proper finit ls /\
  es = [G (EReturn 1); G (EAwait 0 tt); G (EResult 0 (RVal 1)); Visit 1; G (EAwait 0 tt); G EFinal; G (EResult 0 (RExc XVoid)); Throw XVoid].
Proof.
  exists [FGen LStart; FGen (LReturn 1); FNext; FNext; FGen LFinal]. do 2 eexists.
  split; [vm_compute; reflexivity|]. split; [vm_compute; repeat split|reflexivity].
Qed.
Print Assumptions C51_returning_refuted.

(** A lazy generator that yields 1 and 2 and returns 3: the loop waits, and takes the last value after the end *)
Example C51_nonvacuous : exists s es,
  let ls := [FGen LStart; FGen LInitial; FNext; FGen (LYield 1); FNext; FGen (LYield 2); FNext; FGen (LReturn 3); FGen LFinal; FNext] : list (label nat nat) in
  frun finit ls = Some (s, es) /\ proper finit ls /\ ends_at_once ls /\ visits es = [1; 2; 3] /\ In Leave es /\
  exists s' es', frun finit (firstn 5 ls) = Some (s', es') /\ at_ s' = Waiting /\ cst (gen s') <> Returning.
Proof.
  do 2 eexists. split; [vm_compute; reflexivity|]. split; [vm_compute; repeat split|]. split; [vm_compute; repeat split|].
  split; [reflexivity|]. split; [cbn; auto 25|]. do 2 eexists. split; [vm_compute; reflexivity|]. split; [reflexivity|discriminate].
Qed.
(** One that throws *)
Example C51_nonvacuous_throws : exists s es,
  frun finit [FGen LStart; FGen (LYield 1); FNext; FGen LJob; FGen (LThrow 9); FNext] = Some (s, es) /\ In (Throw (XUser 9)) es /\
  visits es = [1].
Proof. do 2 eexists. split; [vm_compute; reflexivity|]. split; [cbn; auto 25|reflexivity]. Qed.
(** The generator is destroyed after the loop has thrown, its coroutine with it *)
Example C51_nonvacuous_destroyed : exists s es,
  frun (Y := nat) finit [FGen LStart; FGen (LThrow 9); FNext; FGen LDestroy1; FGen LDestroy2] = Some (s, es) /\ In (Throw (XUser 9)) es /\
  lifeof (gen s) = Gone.
Proof. do 2 eexists. split; [vm_compute; reflexivity|]. split; [cbn; auto 25|reflexivity]. Qed.
