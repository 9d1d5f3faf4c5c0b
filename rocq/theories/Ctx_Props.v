(** * Property theorems: experimental contexts (C62), detached coroutines (C63) *)
From Coq Require Import List Bool Arith Lia Permutation.
From Verif Require Import Ctx_Model Ctx_Spec Ctx_Acc Ctx_Proofs.
Import ListNotations.

(** ** C62: a context does what a coroutine with the same body, promise and awaitables does *)

(** What is missing: the histories with an event that is not [ordinary] (each refuted below) and
    the moment at which local variables are destroyed (refuted below). *)
Theorem C62_same_partial : forall (V X : Type) cf (ls : list (label V X)) c tr,
  crun cf cinit ls = Some (c, tr) -> Forall ordinary tr ->
  exists i tr', irun cf iinit ls = Some (i, tr') /\ bad i = false
    /\ visible tr' = visible tr /\ Permutation tr' tr.
Proof.
  intros V X cf ls c tr E O.
  destruct (sim_run _ _ _ _ _ _ (sim_init cf) E O) as (i & tr' & I & (B & _) & Q1 & Q2).
  exists i, tr'. auto.
Qed.

(** Whatever the awaitables and the resumers do: the body starts at most once, and once the
    handle has been destroyed the promise, the memory and the locals of a started body have been
    released exactly once; before that, neither promise nor memory. *)
Theorem C62_released_once_partial : forall (V X : Type) cf (ls : list (label V X)) c tr,
  crun cf cinit ls = Some (c, tr) -> Forall ordinary tr ->
  exists i tr', irun cf iinit ls = Some (i, tr') /\
    times is_begin tr' <= 1 /\
    if existsb (fun l => match l with LDestroy => true | _ => false end) ls
    then times is_promise tr' = 1 /\ times is_free tr' = 1 /\ times is_locals tr' = times is_begin tr'
    else times is_promise tr' = 0 /\ times is_free tr' = 0 /\ times is_locals tr' <= times is_begin tr'.
Proof.
  intros V X cf ls c tr E O.
  destruct (sim_run _ _ _ _ _ _ (sim_init cf) E O) as (i & tr' & I & _ & _ & Q).
  exists i, tr'. split; auto. rewrite !(times_perm _ _ _ Q).
  destruct (acc_init _ _ _ _ E) as [_ A].
  assert (D : forall ls (s : cstate_) s' (e : list (event V X)), crun cf s ls = Some (s', e) -> Forall ordinary e ->
     (co s' = CGone <-> co s = CGone \/ existsb (fun l => match l with LDestroy => true | _ => false end) ls = true)).
  { clear. induction ls as [|l ls IH]; intros s s' e E O; cbn in E.
    - injection E as <- <-. cbn. intuition discriminate.
    - destruct (cstep cf s l) as [[s1 e1]|] eqn:E1; try discriminate.
      destruct (crun cf s1 ls) as [[s2 e2]|] eqn:E2; try discriminate. injection E as <- <-.
      apply Forall_app in O as [O1 O2]. specialize (IH _ _ _ E2 O2). rewrite IH. cbn. rewrite orb_true_iff.
      assert (H : co s1 = CGone <-> co s = CGone \/ (match l with LDestroy => true | _ => false end) = true);
        [|rewrite H; tauto].
      clear -E1 O1. destruct s as [c st]. cbn [co stk] in *.
      destruct l as [rd|k y [o|]|v|x|o|r o| | |]; cbn in E1.
      + destruct c; try discriminate. destruct st; try discriminate.
        destruct (lazy cf), rd; injection E1 as <- <-; cbn; intuition discriminate.
      + destruct c; try discriminate. destruct st as [|[]]; try discriminate. injection E1 as <- <-. cbn; intuition discriminate.
      + destruct c; try discriminate. destruct st as [|[]]; try discriminate. injection E1 as <- <-. cbn; intuition discriminate.
      + destruct c; try discriminate. destruct st as [|[]]; try discriminate. injection E1 as E1. unfold ended in E1.
        destruct (never cf); injection E1 as <- <-; cbn; try (intuition discriminate).
        exfalso. cbn in O1. inversion O1 as [|? ? ? P2]; subst. inversion P2 as [|? ? ? P3]; subst.
        inversion P3 as [|? ? ? P4]; subst. inversion P4 as [|? ? P5 ?]; subst. exact P5.
      + destruct c; try discriminate. destruct st as [|[]]; try discriminate. unfold ended in E1.
        destruct (rethrow cf); [|destruct (never cf)]; injection E1 as <- <-; cbn; try (intuition discriminate).
        exfalso. cbn in O1. inversion O1 as [|? ? ? P2]; subst. inversion P2 as [|? ? ? P3]; subst.
        inversion P3 as [|? ? ? P4]; subst. inversion P4 as [|? ? P5 ?]; subst. exact P5.
      + destruct c as [| |q|]; try discriminate.
        destruct q; try discriminate; destruct (env_turn st); try discriminate; injection E1 as <- <-; cbn; intuition discriminate.
      + destruct st as [|[|q fr|] st]; try (destruct r, c; discriminate).
        destruct st as [|[] st]; try (destruct r, c, fr; discriminate).
        destruct r as [| | |x].
        * assert (E' : Some (mkC c st, [EBack]) = Some (s1, e1)) by (rewrite <- E1; destruct c; reflexivity).
          injection E' as <- <-. cbn. intuition discriminate.
        * destruct c as [| |q'|]; try discriminate. destruct fr; try discriminate.
          destruct q; injection E1 as <- <-; cbn; try (intuition discriminate).
          exfalso. inversion O1 as [|? ? P ?]; subst. exact P.
        * assert (E' : Some (mkC c (KOther :: st), []) = Some (s1, e1)) by (rewrite <- E1; destruct c; reflexivity).
          injection E' as <- <-. cbn. intuition discriminate.
        * destruct c as [| |q'|]; try discriminate. destruct fr; try discriminate.
          destruct q; try discriminate; injection E1 as <- <-; exfalso; inversion O1 as [|? ? P ?]; subst; exact P.
      + destruct st as [|[] st]; try (destruct c; discriminate).
        assert (E' : Some (mkC c st, [EBack]) = Some (s1, e1)) by (rewrite <- E1; destruct c; reflexivity).
        injection E' as <- <-. cbn. intuition discriminate.
      + destruct c as [| |q|]; try discriminate. destruct (env_turn st); try discriminate. injection E1 as <- <-. cbn. intuition.
      + destruct c as [| |q|]; try discriminate. destruct (env_turn st); try discriminate. injection E1 as <- <-. cbn. intuition discriminate. }
  specialize (D _ _ _ _ E O). cbn [co cinit] in D.
  destruct (existsb _ ls).
  - destruct D as [_ D]. rewrite (D (or_intror eq_refl)) in A. cbn in A. lia.
  - destruct (co c) as [| |[]|]; cbn in A; try lia. destruct D as [D _]. destruct (D eq_refl); discriminate.
Qed.

(** A context whose final suspend does not suspend (as that of a detached coroutine) writes to
    the memory it has freed, and its promise is never destroyed. *)
Theorem C62_no_final_suspend_refuted :
  exists i c, irun (mkCfg false true false) iinit [@LStart nat nat true; LReturn None]
       = Some (i, [EBegin; ELocals; ERet None; EFin; EFlow; EFree; EBack])
    /\ bad i = true
    /\ crun (mkCfg false true false) cinit [@LStart nat nat true; LReturn None]
       = Some (c, [EBegin; ERet None; ELocals; EFin; EFlow; EPromise; EFree; EBack]).
Proof. do 2 eexists. repeat split; vm_compute; reflexivity. Qed.

(** The same if the awaitable of the final suspend suspends and its await_suspend returns false. *)
Theorem C62_final_resumes_refuted :
  exists i c, irun (mkCfg false false false) iinit [@LStart nat nat true; LReturn None; LEnds RetFalse (Val None)]
       = Some (i, [EBegin; ELocals; ERet None; EFin; ESusp PFinal; EFlow; EFree; EBack])
    /\ bad i = true
    /\ crun (mkCfg false false false) cinit [@LStart nat nat true; LReturn None; LEnds RetFalse (Val None)]
       = Some (c, [EBegin; ERet None; ELocals; EFin; ESusp PFinal; EFlow; EPromise; EFree; EBack]).
Proof. do 2 eexists. repeat split; vm_compute; reflexivity. Qed.

(** done() is not true at the final suspend. *)
Theorem C62_done_refuted : exists i c tr,
  let ls := [@LStart nat nat true; LReturn (Some 7); LEnds RetVoid (Val None); LDone] in
  irun (mkCfg false false false) iinit ls = Some (i, tr ++ [EDone false])
  /\ crun (mkCfg false false false) cinit ls = Some (c, [EBegin; ERet (Some 7); ELocals; EFin; ESusp PFinal; EBack; EDone true]).
Proof.
  exists (mkI (FIn PFinal) true true [] false). eexists. exists [EBegin; ELocals; ERet (Some 7); EFin; ESusp PFinal; EBack].
  split; vm_compute; reflexivity.
Qed.

(** In fact no context ever says that it is done. *)
Theorem C62_never_done_refuted : forall (V X : Type) cf (ls : list (label V X)) i tr,
  irun cf iinit ls = Some (i, tr) -> ~ In (EDone true) tr.
Proof.
  intros V X cf ls. generalize iinit. induction ls as [|l ls IH]; intros s i tr E; cbn in E.
  - injection E as _ <-. auto.
  - destruct (istep cf s l) as [[s1 e1]|] eqn:E1; try discriminate.
    destruct (irun cf s1 ls) as [[s2 e2]|] eqn:E2; try discriminate. injection E as _ <-.
    rewrite in_app_iff. intros [H|H]; [|exact (IH _ _ _ E2 H)].
    clear - E1 H. unfold istep, at_end in E1. destruct (bad s); try discriminate.
    destruct l as [rd|k y [o|]|v|x|o|r o| | |]; destruct (istk s) as [|[|p| |] t]; try discriminate;
      repeat match type of E1 with
             | context [match ?x with _ => _ end] => destruct x; try discriminate
             end; injection E1 as _ <-; cbn in H; intuition discriminate.
Qed.

(** An exception from await_suspend does not reach the body, which stays suspended; it leaves the call that
    resumed the context. *)
Theorem C62_suspend_throws_refuted : exists i c,
  let ls := [@LStart nat nat true; LAwait 1 false None; LEnds (RetThrow 5) (Val None)] in
  irun (mkCfg false false false) iinit ls = Some (i, [EBegin; EReady 1; ESusp (PAt 1 false); ESuspThrew 5; EThrown 5])
  /\ fib i = FIn (PAt 1 false)
  /\ crun (mkCfg false false false) cinit ls = Some (c, [EBegin; EReady 1; ESusp (PAt 1 false); ESuspThrew 5; EGot (PAt 1 false) (Exc 5)]).
Proof. do 2 eexists. repeat split; vm_compute; reflexivity. Qed.

(** ctx.yield does not hand the pushed value to the body. *)
Theorem C62_yield_value_refuted : exists i c,
  let ls := [@LStart nat nat true; LAwait 1 true None; LEnds RetVoid (Val None); LResume (Val (Some 9))] in
  irun (mkCfg false false false) iinit ls
    = Some (i, [EBegin; EReady 1; ESusp (PAt 1 true); EBack; EGot (PAt 1 true) (Val None)])
  /\ crun (mkCfg false false false) cinit ls
    = Some (c, [EBegin; EReady 1; ESusp (PAt 1 true); EBack; EGot (PAt 1 true) (Val (Some 9))]).
Proof. do 2 eexists. split; vm_compute; reflexivity. Qed.

(** If unhandled_exception throws the program is terminated; a coroutine hands the exception to
    its resumer. *)
Theorem C62_rethrow_refuted : exists i c,
  let ls := [@LStart nat nat true; LThrow 3] in
  irun (mkCfg false false true) iinit ls = Some (i, [EBegin; ELocals; EUnh 3]) /\ bad i = true
  /\ crun (mkCfg false false true) cinit ls = Some (c, [EBegin; ELocals; EUnh 3; EThrown 3]).
Proof. do 2 eexists. repeat split; vm_compute; reflexivity. Qed.

(** The local variables of a destroyed context outlive its promise, those of a returning one do
    not see return_value. *)
Theorem C62_locals_order_refuted : exists i i' c c',
  let ls := [@LStart nat nat true; LAwait 1 false None; LEnds RetVoid (Val None); LDestroy] in
  let ls' := [@LStart nat nat true; LReturn (Some 2)] in
  irun (mkCfg false false false) iinit ls = Some (i, [EBegin; EReady 1; ESusp (PAt 1 false); EBack; EPromise; ELocals; EFree])
  /\ crun (mkCfg false false false) cinit ls = Some (c, [EBegin; EReady 1; ESusp (PAt 1 false); EBack; ELocals; EPromise; EFree])
  /\ irun (mkCfg false false false) iinit ls' = Some (i', [EBegin; ELocals; ERet (Some 2); EFin; ESusp PFinal])
  /\ crun (mkCfg false false false) cinit ls' = Some (c', [EBegin; ERet (Some 2); ELocals; EFin; ESusp PFinal]).
Proof. do 4 eexists. repeat split; vm_compute; reflexivity. Qed.

(** A lazy context is started, awaits, is resumed from inside await_suspend, awaits something whose
    await_suspend returns false, gives way to another coroutine that resumes it, returns, is destroyed. *)
Definition c62_history : list (label nat nat) :=
  [LStart false; LResume (Val None); LAwait 1 false None; LResume (Val (Some 4)); LAwait 2 false None;
   LEnds RetFalse (Val (Some 5)); LAwait 3 true None; LEnds RetHandle (Val None); LResume (Exc 6); LAwait 4 false (Some (Val (Some 8)));
   LReturn (Some 1); LEnds RetVoid (Val None); LDestroy; LOther; LEnds RetVoid (Val None)].
Example C62_nonvacuous : exists c tr i tr',
  crun (mkCfg true false false) cinit c62_history = Some (c, tr) /\ Forall ordinary tr
  /\ irun (mkCfg true false false) iinit c62_history = Some (i, tr') /\ length tr' = 22 /\ co c = CGone.
Proof.
  do 4 eexists. split; [vm_compute; reflexivity|]. split; [repeat constructor|]. split; [vm_compute; reflexivity|]. split; reflexivity.
Qed.

(** ** C63: a detached coroutine is released when it ends *)

(** detail/detached.hpp:73 (it starts at once), 74 (no final suspend), 78 (unhandled_exception
    throws); the coroutine itself is that of the language. *)
Definition detached_run {V X : Type} (ls : list (label V X)) := crun (mkCfg false true true) cinit (LStart true :: ls).

Lemma gone_stays : forall (V X : Type) cf (ls : list (label V X)) s s' e, crun cf s ls = Some (s', e) -> co s = CGone ->
  co s' = CGone /\ forall v x, ~ In (ERet v) e /\ ~ In (EUnh x) e.
Proof.
  intros V X cf. induction ls as [|l ls IH]; intros s s' e E G; cbn in E.
  - injection E as <- <-. auto.
  - destruct (cstep cf s l) as [[s1 e1]|] eqn:E1; try discriminate.
    destruct (crun cf s1 ls) as [[s2 e2]|] eqn:E2; try discriminate. injection E as <- <-.
    assert (H : co s1 = CGone /\ forall v x, ~ In (ERet v) e1 /\ ~ In (EUnh x) e1).
    { clear - E1 G. destruct s as [c st]; cbn in G; subst c. destruct l as [rd|k y [o|]|v|x|o|r o| | |]; cbn in E1; try discriminate.
      - destruct r; try (destruct st as [|[|? []|] [|[] ?]]; discriminate);
          destruct st as [|[] [|[] ?]]; try discriminate; injection E1 as <- <-; cbn; split; auto; intuition discriminate.
      - destruct st as [|[] ?]; try discriminate; injection E1 as <- <-; cbn; split; auto; intuition discriminate. }
    destruct H as [H1 H2]. destruct (IH _ _ _ E2 H1) as [H3 H4]. split; auto.
    intros v x. rewrite !in_app_iff. specialize (H2 v x). specialize (H4 v x). tauto.
Qed.

Definition no_final (st : list cframe) : Prop := forall f, ~ In (KSusp PFinal f) st.

Lemma touched_no_final : forall st, no_final st -> no_final (touched st).
Proof.
  intros [|[|p g|] t] N f; cbn; auto; intros H; try (apply (N f); exact H).
  destruct H as [H|H]; [|apply (N f); right; exact H]. injection H as -> <-. apply (N g). left; reflexivity.
Qed.

Lemma detached_step : forall (V X : Type) s (l : label V X) s1 e1,
  cstep (mkCfg false true true) s l = Some (s1, e1) -> wf (co s) (stk s) -> no_final (stk s) ->
  no_final (stk s1)
  /\ (forall v, In (ERet v) e1 -> co s1 = CGone)
  /\ (forall x, In (EUnh x) e1 -> co s1 = CSusp PFinal /\ In (EThrown x) e1)
  /\ (co s = CSusp PFinal -> co s1 = CSusp PFinal \/ l = LDestroy /\ co s1 = CGone).
Proof.
  intros V X [c st] l s1 e1 E W N. cbn [co stk] in *.
  assert (NT : forall a t, st = a :: t -> no_final t) by (intros a t -> f H; apply (N f); right; exact H).
  assert (NK : forall k t, no_final t -> k <> KSusp PFinal true -> k <> KSusp PFinal false -> no_final (k :: t)).
  { intros k t Nt K1 K2 f [->|H]; [destruct f; congruence|exact (Nt f H)]. }
  destruct l as [rd|k y [o|]|v|x|o|r o| | |]; cbn in E.
  - destruct c; try discriminate. destruct st; try discriminate.
    destruct rd; injection E as <- <-; cbn; repeat split; try (intuition discriminate); repeat (apply NK; try discriminate); intros f [].
  - destruct c; try discriminate. destruct st as [|[]]; try discriminate. injection E as <- <-. cbn; repeat split; auto; intuition discriminate.
  - destruct c; try discriminate. destruct st as [|[]]; try discriminate. injection E as <- <-. cbn; repeat split; try (intuition discriminate).
    repeat (apply NK; try discriminate). eauto.
  - destruct c; try discriminate. destruct st as [|[]]; try discriminate. injection E as <- <-.
    cbn; repeat split; try (intuition discriminate). eauto.
  - destruct c; try discriminate. destruct st as [|[]]; try discriminate. injection E as <- <-.
    cbn; repeat split; try (intuition discriminate). eauto. destruct H as [H|[H|[H|[]]]]; try discriminate. injection H as ->. auto.
  - destruct c as [| |q|]; try discriminate.
    destruct q; try discriminate; destruct (env_turn st) eqn:ET; try discriminate; injection E as <- <-; cbn;
      repeat split; try (intuition discriminate); apply NK; try discriminate; apply touched_no_final; auto.
  - destruct st as [|[|q fr|] st]; try (destruct r, c; discriminate).
    destruct st as [|[] st]; try (destruct r, c, fr; discriminate).
    assert (Ns : no_final st) by (intros f H; apply (N f); cbn; auto).
    assert (Nq : q <> PFinal) by (intros ->; apply (N fr); cbn; auto).
    destruct r as [| | |x].
    + assert (E' : Some (mkC c st, [EBack]) = Some (s1, e1)) by (rewrite <- E; destruct c; reflexivity).
      injection E' as <- <-. cbn. repeat split; auto; intuition discriminate.
    + destruct c as [| |q'|]; try discriminate. destruct fr; try discriminate.
      assert (D : q = q') by (inversion W; congruence). subst q'.
      destruct q; try congruence; injection E as <- <-; cbn; repeat split; try (apply NK; auto; discriminate); intuition congruence.
    + assert (E' : Some (mkC c (KOther :: st), []) = Some (s1, e1)) by (rewrite <- E; destruct c; reflexivity).
      injection E' as <- <-. cbn. repeat split; auto; try (apply NK; auto; discriminate); intuition discriminate.
    + destruct c as [| |q'|]; try discriminate. destruct fr; try discriminate.
      assert (D : q = q') by (inversion W; congruence). subst q'.
      destruct q; try congruence; injection E as <- <-; cbn; repeat split; auto; try (apply NK; auto; discriminate); intuition congruence.
  - destruct st as [|[] st]; try (destruct c; discriminate).
    assert (E' : Some (mkC c st, [EBack]) = Some (s1, e1)) by (rewrite <- E; destruct c; reflexivity).
    injection E' as <- <-. cbn. repeat split; eauto; intuition discriminate.
  - destruct c as [| |q|]; try discriminate. destruct (env_turn st); try discriminate. injection E as <- <-. cbn.
    repeat split; auto. apply touched_no_final; auto.
    all: intros; exfalso; destruct q; cbn in *; intuition discriminate.
  - destruct c as [| |q|]; try discriminate. destruct (env_turn st); try discriminate. injection E as <- <-. cbn.
    repeat split; auto; intuition discriminate.
Qed.

Lemma detached_steps : forall (V X : Type) (ls : list (label V X)) s s' e,
  crun (mkCfg false true true) s ls = Some (s', e) -> wf (co s) (stk s) -> no_final (stk s) ->
  (forall v, In (ERet v) e -> co s' = CGone)
  /\ (co s = CSusp PFinal \/ (exists x, In (EUnh x) e) -> co s' = CSusp PFinal \/ co s' = CGone /\ In LDestroy ls)
  /\ (forall x, In (EUnh x) e -> In (EThrown x) e).
Proof.
  intros V X. induction ls as [|l ls IH]; intros s s' e E W N; cbn in E.
  - injection E as <- <-. cbn. split; [|split]; try tauto. intros [H|[x []]]. auto.
  - destruct (cstep _ s l) as [[s1 e1]|] eqn:E1; try discriminate.
    destruct (crun _ s1 ls) as [[s2 e2]|] eqn:E2; try discriminate. injection E as <- <-.
    destruct (detached_step _ _ _ _ _ _ E1 W N) as (N1 & R1 & U1 & F1).
    destruct (IH _ _ _ E2 (wf_step _ _ _ _ _ E1 W) N1) as (R2 & F2 & U2). split; [|split].
    + intros v H. apply in_app_iff in H as [H|H]; eauto. apply (gone_stays _ _ _ _ _ _ _ E2); eauto.
    + intros H.
      assert (K : co s1 = CSusp PFinal \/ (l = LDestroy /\ co s1 = CGone) \/ exists x, In (EUnh x) e2).
      { destruct H as [H|[x H]]; [destruct (F1 H); auto|]. apply in_app_iff in H as [H|H]; eauto. left. eapply U1; eauto. }
      destruct K as [K|[[-> K]|K]].
      * destruct (F2 (or_introl K)) as [|[? ?]]; cbn; auto.
      * right. cbn. split; auto. apply (gone_stays _ _ _ _ _ _ _ E2 K).
      * destruct (F2 (or_intror K)) as [|[? ?]]; cbn; auto.
    + intros x H. rewrite in_app_iff in *. destruct H as [H|H]; auto. left. eapply U1; eauto.
Qed.

Lemma detached_acc : forall (V X : Type) (ls : list (label V X)) c tr, detached_run ls = Some (c, tr) ->
  (exists tr1, tr = EBegin :: tr1) /\
  acc (co c) (times is_begin tr) (times is_locals tr) (times is_promise tr) (times is_free tr)
  /\ (forall v, In (ERet v) tr -> co c = CGone)
  /\ ((exists x, In (EUnh x) tr) -> co c = CSusp PFinal \/ co c = CGone /\ In LDestroy ls)
  /\ (forall x, In (EUnh x) tr -> In (EThrown x) tr).
Proof.
  intros V X ls c tr E. pose proof (proj2 (acc_init _ _ _ _ E)) as A. unfold detached_run in E. cbn in E.
  destruct (crun _ _ ls) as [[s2 e2]|] eqn:E2; try discriminate. injection E as <- <-.
  destruct (detached_steps _ _ _ _ _ _ E2) as (R & F & U).
  - cbn. constructor; auto. constructor.
  - intros f [H|[]]. discriminate.
  - split; [eauto|]. split; [exact A|]. split; [|split].
    + intros v [H|H]; [discriminate|eauto].
    + intros [x [H|H]]; [discriminate|]. eauto.
    + intros x [H|H]; [discriminate|]. right; auto.
Qed.

(** The body starts within the call. When it returns, the locals, the promise and the memory
    have been released, once each. *)
Theorem C63_released_partial : forall (V X : Type) (ls : list (label V X)) c tr, detached_run ls = Some (c, tr) ->
  (exists tr1, tr = EBegin :: tr1)
  /\ times is_promise tr <= 1 /\ times is_free tr <= 1 /\ times is_locals tr <= 1
  /\ ((exists v, In (ERet v) tr) \/ In LDestroy ls ->
      times is_promise tr = 1 /\ times is_free tr = 1 /\ times is_locals tr = 1).
Proof.
  intros V X ls c tr E. destruct (detached_acc _ _ _ _ _ E) as (B & A & R & F & U). destruct B as [tr1 ->].
  assert (L : acc (co c) (times is_begin (@EBegin V X :: tr1)) (times is_locals (@EBegin V X :: tr1))
               (times is_promise (@EBegin V X :: tr1)) (times is_free (@EBegin V X :: tr1))) by exact A.
  assert (BG : 1 <= times is_begin (@EBegin V X :: tr1)) by (cbn; lia).
  split; [eauto|].
  assert (G : (exists v, In (ERet v) (@EBegin V X :: tr1)) \/ In LDestroy ls -> co c = CGone).
  { intros [[v H]|H]; [eauto|]. unfold detached_run in E.
    assert (K : forall (ls : list (label V X)) s s' e, crun (mkCfg false true true) s ls = Some (s', e) -> In LDestroy ls -> co s' = CGone).
    { clear. induction ls as [|l ls IH]; intros s s' e E [].
      - subst l. cbn in E. destruct (co s) eqn:C; try discriminate. destruct (env_turn (stk s)); try discriminate.
        destruct (crun _ _ ls) as [[s2 e2]|] eqn:E2; try discriminate. injection E as <- <-.
        apply (gone_stays _ _ _ _ _ _ _ E2). reflexivity.
      - cbn in E. destruct (cstep _ s l) as [[s1 e1]|] eqn:E1; try discriminate.
        destruct (crun _ s1 ls) as [[s2 e2]|] eqn:E2; try discriminate. injection E as <- <-. eauto. }
    apply (K _ _ _ _ E). right; exact H. }
  destruct (co c) as [| |[]|] eqn:C; cbn [acc] in L; (split; [lia|]; split; [lia|]; split; [lia|]; intros Hd; specialize (G Hd); try discriminate; lia).
Qed.

(** When an exception leaves the body it reaches whoever resumed the coroutine, but unless somebody
    still has a handle to destroy, the promise and the memory are never released. *)
Theorem C63_exception_leaks_refuted : forall (V X : Type) (ls : list (label V X)) c tr x, detached_run ls = Some (c, tr) ->
  In (EUnh x) tr -> ~ In LDestroy ls ->
  In (EThrown x) tr /\ times is_promise tr = 0 /\ times is_free tr = 0.
Proof.
  intros V X ls c tr x E H D. destruct (detached_acc _ _ _ _ _ E) as (B & A & R & F & U).
  split; [auto|]. destruct (F (ex_intro _ x H)) as [C|[_ C]]; [|contradiction]. rewrite C in A. cbn in A. lia.
Qed.

Example C63_nonvacuous : exists c tr, detached_run
    [@LAwait nat nat 1 false None; LEnds RetVoid (Val None); LResume (Val (Some 2)); LAwait 2 false None;
     LEnds RetFalse (Val None); LReturn None] = Some (c, tr)
  /\ tr = [EBegin; EReady 1; ESusp (PAt 1 false); EBack; EGot (PAt 1 false) (Val (Some 2)); EReady 2; ESusp (PAt 2 false);
          EGot (PAt 2 false) (Val None); ERet None; ELocals; EFin; EFlow; EPromise; EFree; EBack].
Proof. do 2 eexists. split; vm_compute; reflexivity. Qed.
Example C63_leak_nonvacuous : exists c tr, detached_run
    [@LAwait nat nat 1 false None; LEnds RetVoid (Val None); LResume (Exc 4); LThrow 4] = Some (c, tr)
  /\ tr = [EBegin; EReady 1; ESusp (PAt 1 false); EBack; EGot (PAt 1 false) (Exc 4); ELocals; EUnh 4; EThrown 4].
Proof. do 2 eexists. split; vm_compute; reflexivity. Qed.

Print Assumptions C62_same_partial.
Print Assumptions C62_released_once_partial.
Print Assumptions C62_no_final_suspend_refuted.
Print Assumptions C62_final_resumes_refuted.
Print Assumptions C62_done_refuted.
Print Assumptions C62_never_done_refuted.
Print Assumptions C62_suspend_throws_refuted.
Print Assumptions C62_yield_value_refuted.
Print Assumptions C62_rethrow_refuted.
Print Assumptions C62_locals_order_refuted.
Print Assumptions C62_nonvacuous.
Print Assumptions C63_released_partial.
Print Assumptions C63_exception_leaks_refuted.
Print Assumptions C63_nonvacuous.
Print Assumptions C63_leak_nonvacuous.
