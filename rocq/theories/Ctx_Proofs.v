(** A context simulates a coroutine. *)
From Coq Require Import List Bool Arith Lia Permutation.
From Verif Require Import Ctx_Model Ctx_Spec Ctx_Acc.
Import ListNotations.

Section Sim.
Context {V X : Type}.
Notation label := (label V X).
Notation event := (event V X).
Notation outcome := (outcome V X).

Inductive stk_rel : list cframe -> list iframe -> Prop :=
| sr_nil : stk_rel [] []
| sr_res : forall n rs is, stk_rel rs is -> stk_rel (KResume :: rs) (IFiber :: repeat ITail n ++ is)
| sr_susp : forall p f n rs is, stk_rel rs is -> stk_rel (KSusp p f :: KResume :: rs) (IAfter p :: repeat ITail n ++ is)
| sr_other : forall n rs is, stk_rel rs is -> stk_rel (KOther :: rs) (IOther :: repeat ITail n ++ is).

Definition co_rel (cf : cfg) (c : cstate) (i : istate) : Prop :=
  match c with
  | CNone => fib i = FNone
  | CRun => fib i = FRun /\ callee i = false /\ alive i = true
  | CSusp p => (fib i = FIn p \/ p = PInit /\ lazy cf = true /\ fib i = FEntry) /\ callee i = true /\ alive i = true
  | CGone => fib i = FDead
  end.

Definition sim (cf : cfg) (c : cstate_) (i : istate) : Prop :=
  bad i = false /\ co_rel cf (co c) i /\ stk_rel (stk c) (istk i) /\ wf (co c) (stk c).

Lemma back_rep : forall n is, back (repeat ITail n ++ is) = back is.
Proof. induction n; intros is; cbn; auto. Qed.
Lemma back_rel : forall rs is, stk_rel rs is -> back is = is.
Proof. intros rs is H; inversion H; reflexivity. Qed.
Lemma touched_rel : forall st is, stk_rel st is -> stk_rel (touched st) is.
Proof. intros st is H; inversion H; subst; cbn; constructor; auto. Qed.

Lemma ordinary_given : forall p (o : outcome), ordinary (@EGot V X p o) -> given p o = o.
Proof. intros [|k []|] [[]|] H; cbn in *; reflexivity || contradiction. Qed.

Definition same_events (tr tr' : list event) : Prop := visible tr' = visible tr /\ Permutation tr' tr.

Lemma same_refl : forall tr, same_events tr tr.
Proof. split; auto. Qed.
Hint Resolve same_refl : core.

Lemma same_app : forall a b a' b', same_events a a' -> same_events b b' -> same_events (a ++ b) (a' ++ b').
Proof.
  intros a b a' b' [H1 H2] [H3 H4]. split.
  - unfold visible in *. rewrite !filter_app, H1, H3. reflexivity.
  - apply Permutation_app; auto.
Qed.

Lemma sim_step : forall cf c i l c' e, sim cf c i -> cstep cf c l = Some (c', e) -> Forall ordinary e ->
  exists i' e', istep cf i l = Some (i', e') /\ sim cf c' i' /\ same_events e e'.
Proof.
  intros cf [co st] [fb ca al is b] l c' e (HB & HC & HS & HW) E O. cbn [Ctx_Spec.co Ctx_Spec.stk bad istk fib] in *. subst b.
  destruct l as [rd|k y [o|]|v|x|o|r o| | |]; cbn in E.
  - (* LStart *)
    destruct co; try discriminate. destruct st; try discriminate. inversion HS; subst. cbn in HC; subst fb.
    unfold istep; cbn. destruct (lazy cf) eqn:L.
    + injection E as <- <-. do 2 eexists. split; [reflexivity|]. split; auto.
      repeat split; cbn; auto; constructor; discriminate.
    + destruct rd; injection E as <- <-; (do 2 eexists; split; [reflexivity|]; split; [|auto]).
      * repeat split; cbn; auto. apply (sr_res 0); constructor. constructor; auto; constructor.
      * repeat split; cbn; auto. apply (sr_susp _ _ 0); constructor. constructor; auto; constructor.
  - (* LAwait, ready *)
    destruct co; try discriminate. destruct st as [|[]]; try discriminate. injection E as <- <-.
    inversion HS; subst. unfold istep; cbn. do 2 eexists. split; [reflexivity|]. split.
    + repeat split; cbn; auto; apply HC.
    + inversion O as [|? ? _ O2]; subst. inversion O2 as [|? ? O3 _]; subst.
      pose proof (ordinary_given _ _ O3) as G; cbn in G. rewrite G. auto.
  - (* LAwait, not ready *)
    destruct co; try discriminate. destruct st as [|[]]; try discriminate. injection E as <- <-.
    inversion HS; subst. inversion HW; subst. cbn in HC; destruct HC as (-> & -> & ->). unfold istep; cbn. do 2 eexists. split; [reflexivity|]. split; auto.
    repeat split; cbn; auto. constructor; auto. constructor; auto.
  - (* LReturn *)
    destruct co; try discriminate. destruct st as [|[]]; try discriminate. injection E as E.
    inversion HS; subst. inversion HW; subst. cbn in HC; destruct HC as (-> & -> & ->). unfold istep, at_end; cbn. unfold ended in E.
    destruct (never cf) eqn:N; injection E as <- <-.
    { exfalso. repeat (inversion O as [|? ? ? O2]; subst; clear O; rename O2 into O; cbn in *; try contradiction). }
    do 2 eexists. split; [reflexivity|]. split.
    + repeat split; cbn; auto. constructor; auto. constructor; auto.
    + split; [reflexivity|]. cbn. apply perm_swap.
  - (* LThrow *)
    destruct co; try discriminate. destruct st as [|[]]; try discriminate.
    inversion HS; subst. inversion HW; subst. cbn in HC; destruct HC as (-> & -> & ->). unfold istep, at_end; cbn.
    destruct (rethrow cf) eqn:R.
    { injection E as <- <-. exfalso. inversion O as [|? ? ? O2]; subst. inversion O2 as [|? ? ? O3]; subst. inversion O3 as [|? ? O4 ?]; subst. exact O4. }
    injection E as E. unfold ended in E.
    destruct (never cf) eqn:N; injection E as <- <-.
    { exfalso. inversion O as [|? ? ? O2]; subst. inversion O2 as [|? ? ? O3]; subst. inversion O3 as [|? ? ? O4]; subst. inversion O4 as [|? ? O5 ?]; subst. exact O5. }
    do 2 eexists. split; [reflexivity|]. split; auto.
    repeat split; cbn; auto. constructor; auto. constructor; auto.
  - (* LResume *)
    destruct co as [| |p|]; try discriminate. destruct HC as (HF & HCa & HA). cbn in HCa, HA. subst ca al.
    assert (E' : env_turn st = true /\ p <> PFinal /\ c' = mkC CRun (KResume :: touched st) /\ e = continues p o).
    { destruct p; try discriminate; destruct (env_turn st) eqn:ET; try discriminate; injection E as <- <-; repeat split; auto; discriminate. }
    destruct E' as (ET & NF & -> & ->). clear E.
    pose proof (touched_below _ _ HW ET) as TB. pose proof (touched_rel _ _ HS) as TR.
    assert (S' : sim cf (mkC CRun (KResume :: touched st)) (mkI FRun false true (IFiber :: is) false)).
    { repeat split; cbn; auto. apply (sr_res 0); auto. constructor; auto. }
    assert (IT : forall Z (a b : Z), match is with IFiber :: _ => a | _ => b end = b).
    { intros Z a b. inversion HS; subst; try reflexivity. discriminate ET. }
    assert (IS : istep cf (mkI fb true true is false) (@LResume V X o) =
       match fb with FEntry => Some (enter (mkI fb true true is false), [EBegin]) | FIn PFinal => None
                   | FIn p => Some (enter (mkI fb true true is false), goes_on p o) | _ => None end).
    { unfold istep; cbn. destruct is as [|[]]; try reflexivity. specialize (IT nat 0 1). discriminate. }
    destruct HF as [HF|(-> & L & HF)]; cbn in HF; subst fb; rewrite IS; unfold enter; cbn.
    + destruct p as [|k y|]; [| |congruence]; (do 2 eexists; split; [reflexivity|]; split; [exact S'|]); auto.
      inversion O as [|? ? O1 _]; subst. cbn [goes_on continues]. rewrite (ordinary_given _ _ O1). auto.
    + do 2 eexists; split; [reflexivity|]; split; [exact S'|]. auto.
  - (* LEnds *)
    destruct st as [|[|p f|] st]; try (destruct r, co; discriminate).
    destruct st as [|[] st]; try (destruct r, co, f; discriminate).
    assert (BO : below_ok st) by (inversion HW; auto).
    assert (NR : co <> CRun) by (inversion HW; subst; congruence).
    inversion HS as [| |? ? n rs is' HS'|]; subst. unfold istep; cbn.
    pose proof (back_rep n is') as BK. rewrite (back_rel _ _ HS') in BK.
    destruct r as [| | |x].
    + assert (E' : Some (mkC co st, [EBack]) = Some (c', e)) by (rewrite <- E; destruct co; reflexivity).
      injection E' as <- <-. clear E. rewrite BK. do 2 eexists. split; [reflexivity|]. split; auto.
      repeat split; cbn; auto; try apply wf_below; auto.
    + destruct co as [| |q|]; try discriminate. destruct f; try discriminate.
      assert (q = p) by (inversion HW; congruence). subst q.
      destruct HC as (HF & HCa & HA). cbn in HCa, HA. subst ca al.
      destruct p as [|k y|].
      * injection E as <- <-. do 2 eexists. split; [reflexivity|]. split; auto.
        repeat split; cbn; auto. apply (sr_res (S n)); auto. constructor; auto.
      * injection E as <- <-. do 2 eexists. split; [reflexivity|]. split.
        -- repeat split; cbn; auto. apply (sr_res (S n)); auto. constructor; auto.
        -- inversion O as [|? ? O1 _]; subst. cbn [goes_on continues]. rewrite (ordinary_given _ _ O1). auto.
      * injection E as <- <-. inversion O as [|? ? O1 _]; subst. destruct O1.
    + assert (E' : Some (mkC co (KOther :: st), []) = Some (c', e)) by (rewrite <- E; destruct co; reflexivity).
      injection E' as <- <-. clear E. do 2 eexists. split; [reflexivity|]. split; auto.
      repeat split; cbn; auto; constructor; auto.
    + exfalso. destruct co as [| |q|]; try discriminate. destruct f; try discriminate.
      destruct p as [|k y|]; try discriminate; injection E as <- <-; inversion O as [|? ? O1 _]; subst; exact O1.
  - (* LOther *)
    destruct st as [|[] st]; try (destruct co; discriminate).
    assert (E' : Some (mkC co st, [EBack]) = Some (c', e)) by (rewrite <- E; destruct co; reflexivity).
    injection E' as <- <-. clear E.
    inversion HS as [| | |n rs is' HS']; subst. inversion HW; subst. unfold istep; cbn.
    pose proof (back_rep n is') as BK. rewrite (back_rel _ _ HS') in BK. rewrite BK.
    do 2 eexists. split; [reflexivity|]. split; auto. repeat split; cbn; auto; try apply wf_below; auto.
  - (* LDestroy *)
    destruct co as [| |p|]; try discriminate. destruct HC as (HF & HCa & HA). cbn in HCa, HA. subst ca al.
    destruct (env_turn st) eqn:ET; try discriminate. injection E as <- <-.
    pose proof (touched_below _ _ HW ET) as TB. pose proof (touched_rel _ _ HS) as TR.
    assert (S' : sim cf (mkC CGone (touched st)) (mkI FDead false false is false)).
    { repeat split; cbn; auto. apply wf_below; auto. discriminate. }
    assert (IS : istep cf (mkI fb true true is false) (@LDestroy V X) =
       match fb with FEntry => Some (mkI FDead false false is false, [EPromise; EFree])
      | FIn p => Some (mkI FDead false false is false, EPromise :: match p with PAt _ _ => [ELocals] | _ => [] end ++ [EFree])
      | _ => None end).
    { unfold istep; cbn. destruct is as [|[]]; try reflexivity. exfalso. inversion HS; subst; discriminate ET. }
    destruct HF as [HF|(-> & L & HF)]; cbn in HF; subst fb; rewrite IS; (do 2 eexists; split; [reflexivity|]; split; [exact S'|]).
    + destruct p; auto. split; [reflexivity|]. apply perm_swap.
    + auto.
  - (* LDone *)
    destruct co as [| |p|]; try discriminate.
    destruct (env_turn st) eqn:ET; try discriminate. injection E as <- <-.
    assert (NP : p <> PFinal) by (intros ->; inversion O as [|? ? O1 _]; subst; exact O1).
    assert (IS : istep cf (mkI fb ca al is false) (@LDone V X) =
       match fb with FEntry | FIn _ => Some (mkI fb ca al is false, [EDone false]) | _ => None end).
    { unfold istep; cbn. destruct is as [|[]]; try reflexivity. exfalso. inversion HS; subst; discriminate ET. }
    pose proof HC as HC'. destruct HC as (HF & HCa & HA).
    rewrite IS. exists (mkI fb ca al is false), [EDone false]. split.
    + destruct HF as [HF|(-> & L & HF)]; cbn in HF; subst fb; reflexivity.
    + split; [repeat split; auto; apply HC'|]. destruct p; auto. congruence.
Qed.

Lemma sim_run : forall cf ls c i c' e, sim cf c i -> crun cf c ls = Some (c', e) -> Forall ordinary e ->
  exists i' e', irun cf i ls = Some (i', e') /\ sim cf c' i' /\ same_events e e'.
Proof.
  intros cf. induction ls as [|l ls IH]; intros c i c' e S E O; cbn in *.
  - injection E as <- <-. eauto.
  - destruct (cstep cf c l) as [[c1 e1]|] eqn:E1; try discriminate.
    destruct (crun cf c1 ls) as [[c2 e2]|] eqn:E2; try discriminate. injection E as <- <-.
    apply Forall_app in O as [O1 O2].
    destruct (sim_step _ _ _ _ _ _ S E1 O1) as (i1 & f1 & I1 & S1 & Q1).
    destruct (IH _ _ _ _ S1 E2 O2) as (i2 & f2 & I2 & S2 & Q2).
    rewrite I1, I2. do 2 eexists. split; [reflexivity|]. split; auto. apply same_app; auto.
Qed.

Lemma sim_init : forall cf, sim cf cinit iinit.
Proof. intros cf. repeat split; cbn; auto; constructor; discriminate. Qed.
End Sim.
