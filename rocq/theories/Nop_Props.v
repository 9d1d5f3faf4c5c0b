(** C80: what is made from [noop{v}] can be used like what a coroutine that returns
    [v] at once gives. *)
From Coq Require Import List Bool Arith.
From Verif Require Import Nop_Spec.
From Verif Require Promise_Model Task_Model Gen_Model Nop_Promise Nop_Task.
Import ListNotations.

(** ** Promise *)
Section Promise.
Import Promise_Model.
Context {V E : Type}.
Notation state := (Promise_Model.state V E).
Notation label := (Promise_Model.label V E).
Notation event := (Promise_Model.event V E).

Lemma goods_sound (es : list event) : sound es <-> Nop_Promise.goods es = true.
Proof.
  unfold sound, Nop_Promise.goods. rewrite forallb_forall. split.
  - intros H x I. destruct x; try reflexivity. destruct (H _ I).
  - intros H b I. specialize (H _ I). discriminate H.
Qed.

(** Wherever a promise can be made from noop, a coroutine can be started that returns the
    same value; and for every history afterwards: what happens with the coroutine's
    promise happens with the noop's, and what happens with the noop's happens with
    the coroutine's, unless that has undefined behaviour. *)
Theorem C80_promise : forall (s0 s1 : state) c h v e,
  run s0 [LNoop c h v] = Some (s1, e) ->
  exists t1 f, run s0 [LStart c h; LReturn c v; LFinal c] = Some (t1, f) /\
    e = f ++ [EAttach h false] /\
    forall ls : list label,
      (forall t2 g, run t1 ls = Some (t2, g) -> sound g -> exists s2, run s1 ls = Some (s2, g)) /\
      (forall s2 g, run s1 ls = Some (s2, g) ->
         (exists t2, run t1 ls = Some (t2, g)) \/
         exists a b t2 f2, ls = a ++ b /\ run t1 a = Some (t2, f2) /\ ~ sound f2).
Proof.
  intros s0 s1 c h v e H.
  assert (B : exists t1, run s0 [LStart c h; LReturn c v; LFinal c] = Some (t1, [EStart c h; EReturn c v; EFinal c]) /\ e = [EStart c h; EReturn c v; EFinal c] ++ [EAttach h false]).
  { cbn [run step] in *. destruct (cs (co s0 c)) eqn:C; try discriminate H. destruct (is_absent (life_of (hs s0 h))); [|discriminate H]. injection H as <- <-.
    assert (U : forall A (f : nat -> A) k x, upd f k x k = x) by (intros; unfold upd; now rewrite Nat.eqb_refl).
    eexists. split; [|reflexivity]. unfold final, live. repeat (progress (cbn -[Nat.eqb upd]; rewrite ?U)). reflexivity. }
  destruct B as (t1 & B & He). exists t1, [EStart c h; EReturn c v; EFinal c]. split; [exact B|]. split; [exact He|].
  pose proof (Nop_Promise.made_R c h v s0 s1 t1 _ _ H B) as X. intros ls.
  pose proof (Nop_Promise.run_R c ls s1 t1 X) as [(a & l & r & -> & t2 & e2 & t3 & e3 & Ra & Sl & G)|Q].
  - assert (Bad : ~ sound (e2 ++ e3)).
    { rewrite goods_sound, Nop_Promise.goods_app, G, Bool.andb_false_r. discriminate. }
    assert (Rl : run t1 (a ++ [l]) = Some (t3, e2 ++ e3)).
    { clear - Ra Sl. revert t1 t2 e2 Ra Sl. induction a as [|x a IH]; intros t1 t2 e2 Ra Sl; cbn [run app] in *.
      - injection Ra as <- <-. rewrite Sl. now rewrite app_nil_r.
      - destruct (step x t1) as [[u1 g1]|]; [|discriminate Ra]. destruct (run u1 a) as [[u2 g2]|] eqn:Ru; [|discriminate Ra]. injection Ra as <- <-.
        rewrite (IH u1 u2 g2 Ru Sl). now rewrite app_assoc. }
    replace (a ++ l :: r) with ((a ++ [l]) ++ r) by now rewrite <- app_assoc.
    split.
    + intros t4 g Rg Sg. exfalso. apply Bad.
      assert (P : exists g', g = (e2 ++ e3) ++ g').
      { clear - Rl Rg. revert t1 Rl Rg. generalize (e2 ++ e3) as f. revert g t4. induction (a ++ [l]) as [|x b IH]; intros g t4 f t1 Rl Rg; cbn [run app] in *.
        - injection Rl as <- <-. exists g; reflexivity.
        - destruct (step x t1) as [[u1 g1]|]; [|discriminate Rl]. destruct (run u1 b) as [[u2 g2]|] eqn:Ru; [|discriminate Rl]. injection Rl as <- <-.
          destruct (run u1 (b ++ r)) as [[u3 g3]|] eqn:Rb; [|discriminate Rg]. injection Rg as <- <-.
          destruct (IH _ _ _ _ Ru Rb) as (g' & ->). exists g'. now rewrite app_assoc. }
      destruct P as (g' & ->). intros b I. apply (Sg b). apply in_or_app. left. exact I.
    + intros s2 g _. right. exists (a ++ [l]), r, t3, (e2 ++ e3). auto.
  - split.
    + intros t2 g Rg _. rewrite Rg in Q. destruct Q as (s2 & Q & _). eauto.
    + intros s2 g Rg. left. destruct (run t1 ls) as [[t2 f2]|]; [|congruence]. destruct Q as (s3 & Q & _). rewrite Rg in Q. injection Q as <- <-. eauto.
Qed.

(** The value is there at once, and only once. *)
Theorem C80_promise_at_once : forall (s0 s1 : state) c h v e w,
  run s0 [LNoop c h v] = Some (s1, e) -> ws s0 w = WIdle ->
  (exists s2, run s1 [LAwait w h] = Some (s2, [EAwait w h; EResult w h (RVal (Fresh v))])) /\
  (exists s2, run s1 [LGet h] = Some (s2, [EGet h (RVal (Fresh v))])).
Proof.
  intros s0 s1 c h v e w H W. cbn [run step] in *. destruct (cs (co s0 c)) eqn:C; try discriminate H. destruct (is_absent (life_of (hs s0 h))); [|discriminate H]. injection H as <- <-.
  assert (U : forall A (f : nat -> A) k x, upd f k x k = x) by (intros; unfold upd; now rewrite Nat.eqb_refl).
  cbn [ws set_h set_c hs]. rewrite W. unfold get_result. repeat (progress (cbn -[Nat.eqb upd]; rewrite ?U)). split; eexists; reflexivity.
Qed.
End Promise.

Section PromiseExamples.
Import Promise_Model.
(** Assigning to the promise of a coroutine that has ended accesses its destroyed frame;
    to one made from noop it does not. *)
Theorem C80_promise_assign_refuted : exists ls : list (label nat unit),
  (exists s e, run init (LNoop 0 0 5 :: ls) = Some (s, e) /\ sound e) /\
  (exists t f, run init (LStart 0 0 :: LReturn 0 5 :: LFinal 0 :: ls) = Some (t, f) /\ In (EBad BFrame) f).
Proof.
  exists [LNoop 1 1 6; LAssign1 0 1; LAssign2 0]. split.
  - eexists. eexists. split; [vm_compute; reflexivity|]. intros b. vm_compute. intuition discriminate.
  - eexists. eexists. split; [vm_compute; reflexivity|]. vm_compute. tauto.
Qed.
Example C80_promise_nonvacuous : exists s1 e s2 g, run init [LStart 1 1 : label nat unit] = Some (s1, e) /\
  run s1 [LNoop 0 0 5; LMove 2 0; LAwait 7 2; LCancel 2 1; LReturn 1 8; LFinal 1; LDestroy1 2; LDestroy2 2] = Some (s2, g) /\ In (EResult 7 2 (RVal (Fresh 5))) g /\ sound g.
Proof. do 4 eexists. split; [vm_compute; reflexivity|]. split; [vm_compute; reflexivity|]. split; [vm_compute; tauto|]. intros b. vm_compute. intuition discriminate. Qed.
End PromiseExamples.

(** ** Task *)
Section Task.
Import Task_Model.
Context {V E : Type}.
Notation state := (Task_Model.state V E).
Notation label := (Task_Model.label V E).
Notation event := (Task_Model.event V E).

(** Whatever a program does with a task made from noop, after any history and without
    using a task it has moved from, it can do with the task of a coroutine that returns
    the value when it is started; others than that coroutine see the same. *)
Theorem C80_task : forall (pre ls : list label) (s0 s1 : state) p e c h v,
  run init pre = Some (s0, p) -> run s0 (LNoop c h v :: ls) = Some (s1, e) -> keeps [] ls ->
  exists ls' t1 f, filled c v ls ls' /\ run s0 (LCreate c h :: ls') = Some (t1, f) /\ visible c f = visible c e.
Proof.
  intros pre ls s0 s1 p e c h v Pre Rn Kp. pose proof (Nop_Task.run_Inv pre _ _ _ Nop_Task.Inv_init Pre) as I0.
  cbn [run] in Rn. destruct (step (LNoop c h v) s0) as [[s2 e2]|] eqn:S; [|discriminate Rn]. destruct (run s2 ls) as [[s3 e3]|] eqn:Rl; [|discriminate Rn]. injection Rn as <- <-.
  assert (B : exists t2 f2, step (LCreate c h) s0 = Some (t2, f2)).
  { cbn [step] in *. destruct (cs (co s0 c)); try discriminate S. destruct (absent s0 h); [|discriminate S]. eauto. }
  destruct B as (t2 & f2 & B). destruct (Nop_Task.made_R c h v s0 s2 t2 e2 f2 [] I0 S B) as (X & -> & ->).
  destruct (Nop_Task.run_R c v ls _ _ s2 t2 s3 e3 X Kp Rl) as (ls' & t3 & f3 & F & T & Vs).
  exists ls', t3, ([ECreate c h] ++ f3). split; [exact F|]. split; [cbn [run]; now rewrite B, T|].
  rewrite !Nop_Task.visible_app, Vs. unfold visible at 3. cbn. now rewrite Nat.eqb_refl.
Qed.

(** An await of it is ready at once; a spawn of it has its completion handler posted at
    once, and that gets the value. *)
Theorem C80_task_at_once : forall (s0 s1 : state) c h v e w,
  run s0 [LNoop c h v] = Some (s1, e) -> ws s0 w = WIdle ->
  (exists s2, run s1 [LAwait w h] = Some (s2, [EAwait w h; EResult w h (RVal (Fresh v))])) /\
  (forall g, g <> h -> absent s0 g = true -> exists s2, run s1 [LSpawn w g h; LHandler w] = Some (s2, [ESpawn w g h; EHandler w g (RVal (Fresh v))])).
Proof.
  intros s0 s1 c h v e w H W. cbn [run step] in H. destruct (cs (co s0 c)) eqn:C; try discriminate H. destruct (absent s0 h); [|discriminate H]. injection H as <- <-.
  assert (U : forall A (f : nat -> A) k x, upd f k x k = x) by (intros; unfold upd; now rewrite Nat.eqb_refl).
  split.
  - cbn [run step ws set_h set_c hs]. rewrite W. unfold user, live, get_result. repeat (progress (cbn -[Nat.eqb upd]; rewrite ?U)). eexists; reflexivity.
  - intros g N A. apply Nat.eqb_neq in N. cbn [run step ws set_h set_c hs]. rewrite W.
    replace (absent (set_h h (mkH Live true None (Some (Fresh v)) None None None) (set_c c (mkC Dead None) s0)) g) with true by (unfold absent in *; cbn [hs set_h set_c]; unfold upd; now rewrite N).
    unfold user, transfer, live. repeat (progress (cbn -[Nat.eqb upd]; rewrite ?U)). eexists; reflexivity.
Qed.
End Task.

Section TaskExamples.
Import Task_Model.
(** Used after it was moved from, the task made from noop gives a moved-from value; the
    coroutine's reports that it was moved from. *)
Theorem C80_task_moved_refuted :
  (exists s e, run init [LNoop 0 0 5 : label nat unit; LMove 1 0; LAwait 7 0] = Some (s, e) /\ In (EResult 7 0 (RVal Hollow)) e) /\
  (forall ls' t f, filled 0 5 [LMove 1 0 : label nat unit; LAwait 7 0] ls' -> run init (LCreate 0 0 :: ls') = Some (t, f) -> ~ In (EResult 7 0 (RVal Hollow)) f).
Proof.
  split; [eexists; eexists; split; [vm_compute; reflexivity|vm_compute; tauto]|].
  assert (Nil : forall (s : state nat unit) ls t f, filled 0 5 [] ls -> ls <> [] -> run s ls = Some (t, f) -> cs (co s 0) = Ready -> False).
  { intros s ls t f F N R C. inversion F as [| |l r r' I F']; subst; [congruence|]. destruct I as [->|[->| ->]]; cbn in R; rewrite C in R; discriminate R. }
  intros ls' t f F R.
  inversion F as [|l r r' F'|l r r' I F']; subst.
  2: { destruct I as [->|[->| ->]]; cbn in R; discriminate R. }
  inversion F' as [|l r r1 F1|l r r1 I F1]; subst.
  2: { destruct I as [->|[->| ->]]; cbn in R; discriminate R. }
  destruct r1 as [|x r1].
  - vm_compute in R. injection R as <- <-. vm_compute. intuition discriminate.
  - exfalso. change (LCreate 0 0 :: LMove 1 0 :: LAwait 7 0 :: x :: r1) with ([LCreate 0 0; LMove 1 0; LAwait 7 0] ++ x :: r1) in R.
    rewrite Nop_Task.run_app in R. remember (run init [LCreate 0 0 : label nat unit; LMove 1 0; LAwait 7 0]) as q eqn:Q.
    vm_compute in Q. destruct q as [[s2 e2]|]; [|discriminate R].
    destruct (run s2 (x :: r1)) as [[s3 e3]|] eqn:R2; [|discriminate R]. injection Q as -> ->.
    apply (Nil _ _ _ _ F1 ltac:(discriminate) R2). vm_compute. reflexivity.
Qed.
Example C80_task_nonvacuous : exists s0 p s1 e,
  run init [LCreate 1 1 : label nat unit; LAwait 6 1] = Some (s0, p) /\
  run s0 [LNoop 0 0 5; LMove 2 0; LReturn 1 8; LSpawn 7 3 2; LFinal 1; LHandler 7; LDestroy 2; LDestroy 0] = Some (s1, e) /\
  keeps [] [LMove 2 0 : label nat unit; LReturn 1 8; LSpawn 7 3 2; LFinal 1; LHandler 7; LDestroy 2; LDestroy 0] /\ In (EHandler 7 3 (RVal (Fresh 5))) e.
Proof.
  do 4 eexists. split; [vm_compute; reflexivity|]. split; [vm_compute; reflexivity|]. split; [|vm_compute; tauto].
  cbn. repeat split; intros k Q; try discriminate Q; injection Q as <-; intuition discriminate.
Qed.
End TaskExamples.

(** ** Generator *)
Section Gen.
Import Gen_Model.
Context {Y P E : Type}.
(** For every history the same outcome, event by event. *)
Theorem C80_generator : forall novalue (y : Y) (ls : list (label Y P E)),
  run novalue init (LNoop y :: ls) = run novalue init (LStart :: LReturn y :: LFinal :: ls).
Proof. intros novalue y ls. cbn. destruct (run novalue _ ls) as [[s e]|]; reflexivity. Qed.
(** The value is there at once; the generator has no other. *)
Theorem C80_generator_at_once : forall novalue (y : Y) w w' (p q : P), exists s : state Y P E,
  run novalue init [LNoop y; LAwait w p; LAwait w' q] = Some (s, [EReturn y; EFinal; EAwait w p; EResult w (RVal y); EAwait w' q; EResult w' (RExc XVoid)]).
Proof. intros novalue y w w' p q. cbn. eexists. reflexivity. Qed.
End Gen.
Example C80_generator_nonvacuous : exists s e,
  Gen_Model.run (P := unit) (E := unit) false Gen_Model.init [Gen_Model.LNoop 5; Gen_Model.LCancel 1; Gen_Model.LGet; Gen_Model.LDestroy1; Gen_Model.LDestroy2] = Some (s, e) /\ In (Gen_Model.EGet (Gen_Model.RVal 5)) e.
Proof. do 2 eexists. split; [vm_compute; reflexivity|]. vm_compute. tauto. Qed.

Print Assumptions C80_promise.
Print Assumptions C80_promise_at_once.
Print Assumptions C80_promise_assign_refuted.
Print Assumptions C80_task.
Print Assumptions C80_task_at_once.
Print Assumptions C80_task_moved_refuted.
Print Assumptions C80_generator.
Print Assumptions C80_generator_at_once.
