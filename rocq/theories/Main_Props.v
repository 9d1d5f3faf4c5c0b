(** * Theorems about co_main (property C48) *)
From Coq Require Import List Bool ZArith Lia.
From Verif Require Import Main_Model Main_Spec.
Import ListNotations.

Lemma run_app a b s : run s (a ++ b) =
  match run s a with None => None | Some (s1, e1) =>
    match run s1 b with None => None | Some (s2, e2) => Some (s2, e1 ++ e2) end end.
Proof.
  revert s; induction a as [|l a IH]; intro s; cbn [app run].
  - destruct (run s b) as [[s2 e2]|]; reflexivity.
  - destruct (step s l) as [[s1 e1]|]; [|reflexivity]. rewrite IH.
    destruct (run s1 a) as [[s2 e2]|]; [|reflexivity].
    destruct (run s2 b) as [[s3 e3]|]; [|reflexivity]. rewrite app_assoc. reflexivity.
Qed.
Lemma run_snoc ls l s s' e' : run s (ls ++ [l]) = Some (s', e') ->
  exists s1 e1 e2, run s ls = Some (s1, e1) /\ step s1 l = Some (s', e2) /\ e' = e1 ++ e2.
Proof.
  rewrite run_app. destruct (run s ls) as [[s1 e1]|]; [|discriminate]. cbn [run].
  destruct (step s1 l) as [[s2 e2]|] eqn:E; [|discriminate]. intro H. injection H as <- <-.
  exists s1, e1, e2. rewrite app_nil_r. auto.
Qed.

Lemma arrived_app s a b : arrived s (a ++ b) = arrived s a + arrived s b.
Proof. unfold arrived. rewrite filter_app, app_length. reflexivity. Qed.
Lemma delivered_app s a b : delivered s (a ++ b) = delivered s a + delivered s b.
Proof. unfold delivered. rewrite filter_app, app_length. reflexivity. Qed.

(** signals of a kind not passed on yet *)
Definition und (s : sig) (st : state) : nat := match s with SIGINT => und_int st | SIGTERM => und_term st end.
Definition queued (s : sig) (st : state) : nat :=
  match posted st, s with
  | Some (_, Some SIGINT), SIGINT | Some (_, Some SIGTERM), SIGTERM => 1
  | _, _ => 0
  end.

Record inv (ls : list label) (es : list event) (st : state) : Prop :=
  { iAlive : over st = false -> (alive st = true <-> running ls);
    iCount : alive st = true -> forall s, delivered s es + queued s st + und s st = arrived s ls;
    iShape : alive st = true -> (waiting st = true /\ posted st = None /\ und_int st = 0 /\ und_term st = 0)
                 \/ (waiting st = false /\ exists s, posted st = Some (false, Some s)) }.

Lemma running_snoc ls l : running (ls ++ [l]) <-> running ls /\ is_end l = false.
Proof.
  unfold running. rewrite existsb_app. cbn [existsb]. rewrite orb_false_r, orb_false_iff. tauto.
Qed.

Ltac dstep H := cbn [step] in H; destruct (over _) eqn:?; [discriminate|].

Lemma inv_step ls es st l st' e : inv ls es st -> step st l = Some (st', e) -> inv (ls ++ [l]) (es ++ e) st'.
Proof.
  intros [A C S] H. unfold step in H. destruct (over st) eqn:O; [discriminate|]. specialize (A eq_refl).
  destruct l as [s| |v| |].
  - (* signal *)
    injection H as <- <-. split.
    + intros _. rewrite running_snoc. rewrite <- A.
      destruct (waiting st); [|destruct s]; cbn [alive is_end]; tauto.
    + intros L x. rewrite arrived_app, delivered_app.
      assert (L' : alive st = true) by (destruct (waiting st); [|destruct s]; exact L).
      specialize (C L' x). destruct (S L') as [(W & P & U1 & U2)|(W & y & P)]; rewrite W; unfold queued, und in *; rewrite P in *;
        destruct s, x; cbn [posted und_int und_term] in *; try destruct y;
        unfold arrived at 2, delivered at 2; cbn [filter is_sig is_for length] in *; lia.
    + intros L.
      assert (L' : alive st = true) by (destruct (waiting st); [|destruct s]; exact L).
      destruct (S L') as [(W & P & U1 & U2)|(W & y & P)]; rewrite W in *; cbn [waiting posted].
      * right. eauto.
      * right. destruct s; cbn [waiting posted]; eauto.
  - (* handler *)
    destruct (posted st) as [[ec sg]|] eqn:P; [|discriminate]. injection H as <- <-.
    assert (AL : alive (if ec then mk (waiting st) (und_int st) (und_term st) None (alive st) (res st) false
        else async_wait (mk (waiting st) (und_int st) (und_term st) None (alive st) (res st) false)) = alive st).
    { destruct ec; [reflexivity|]. unfold async_wait; cbn. destruct (und_int st), (und_term st); reflexivity. }
    split.
    + intros _. rewrite AL, running_snoc. cbn [is_end]. tauto.
    + rewrite AL. intros L x. specialize (C L x). rewrite arrived_app, delivered_app.
      destruct (S L) as [(W & P' & _)|(W & y & P')]; try rewrite P in P'; [discriminate|]. injection P' as -> ->.
      unfold emit, queued, und in *. rewrite P in C. rewrite L. unfold async_wait. cbn [und_int und_term].
      destruct (und_int st) as [|n], (und_term st) as [|m], y, x; cbn [posted und_int und_term] in *;
        unfold arrived at 2, delivered at 2; cbn [filter is_sig is_for length cancellation_of] in *; lia.
    + rewrite AL. intros L. destruct (S L) as [(W & P' & _)|(W & y & P')]; try rewrite P in P'; [discriminate|].
      injection P' as -> ->. unfold async_wait. cbn [und_int und_term].
      destruct (und_int st) as [|n], (und_term st) as [|m]; cbn [waiting posted und_int und_term]; eauto.
  - destruct (alive st) eqn:L; [|discriminate]. injection H as <- <-. split; cbn [alive]; [|discriminate|discriminate].
    intros _. rewrite running_snoc. cbn [is_end]. split; [discriminate|]. intros [_ K]; discriminate.
  - destruct (alive st) eqn:L; [|discriminate]. injection H as <- <-. split; cbn [alive over].
    + discriminate.
    + intros _ x. specialize (C eq_refl x). rewrite arrived_app, delivered_app.
      unfold queued, und in *. unfold arrived at 2, delivered at 2. cbn [posted und_int und_term].
      destruct x; cbn [filter is_sig is_for length]; lia.
    + intros _. exact (S eq_refl).
  - destruct (alive st) eqn:L; [discriminate|]. destruct (waiting st); [discriminate|].
    destruct (posted st); [discriminate|]. injection H as <- <-. split; cbn [alive over]; discriminate.
Qed.

Lemma reach ls st es : run init ls = Some (st, es) -> inv ls es st.
Proof.
  revert st es; induction ls as [|l ls IH] using rev_ind; intros st es H.
  - injection H as <- <-. split; cbn.
    + intros _. split; reflexivity.
    + intros _ [|]; reflexivity.
    + auto.
  - apply run_snoc in H as (s1 & e1 & e2 & H1 & H2 & ->). eapply inv_step; eauto.
Qed.

Lemma over_false ls st es : run init ls = Some (st, es) -> running ls -> over st = false.
Proof.
  revert st es; induction ls as [|l ls IH] using rev_ind; intros st es H R.
  - injection H as <- <-. reflexivity.
  - apply running_snoc in R as [R E]. apply run_snoc in H as (s1 & e1 & e2 & H1 & H2 & ->).
    pose proof (reach _ _ _ H1) as I. pose proof (IH _ _ H1 R) as O.
    unfold step in H2. rewrite O in H2. destruct l as [s| |v| |]; try discriminate.
    + injection H2 as <- <-. destruct (waiting s1); [|destruct s]; reflexivity.
    + destruct (posted s1) as [[ec sg]|]; [|discriminate]. injection H2 as <- <-.
      destruct ec; [reflexivity|]. unfold async_wait; cbn. destruct (und_int s1), (und_term s1); reflexivity.
    + rewrite (proj2 (iAlive _ _ _ I O) R) in H2. discriminate.
Qed.

(** No signal is delivered more often than it arrived, at any time while co_main runs *)
Theorem C48_at_most_once : forall ls st es s,
  run init ls = Some (st, es) -> running ls -> delivered s es <= arrived s ls.
Proof.
  intros ls st es s H R. pose proof (reach _ _ _ H) as I.
  pose proof (iCount _ _ _ I (proj2 (iAlive _ _ _ I (over_false _ _ _ H R)) R) s). lia.
Qed.
Print Assumptions C48_at_most_once.

(** While co_main runs, letting the queued handlers run delivers every signal that arrived, as the
    cancellation it stands for, exactly once *)
Theorem C48_delivered : forall ls st es,
  run init ls = Some (st, es) -> running ls ->
  exists n st' es', run init (ls ++ repeat LHandler n) = Some (st', es') /\
    forall s, delivered s es' = arrived s ls.
Proof.
  intros ls st es H R.
  remember (und_int st + und_term st) as k eqn:K.
  revert ls st es H R K; induction k as [|k IH]; intros ls st es H R K.
  - pose proof (reach _ _ _ H) as I. pose proof (over_false _ _ _ H R) as O.
    pose proof (proj2 (iAlive _ _ _ I O) R) as L.
    destruct (iShape _ _ _ I L) as [(W & P & U1 & U2)|(W & y & P)].
    + exists 0, st, es. cbn [repeat]. rewrite app_nil_r. split; [exact H|]. intros s.
      pose proof (iCount _ _ _ I L s) as C. unfold queued, und in C. rewrite P in C. destruct s; lia.
    + exists 1. cbn [repeat].
      assert (E : exists st', step st LHandler = Some (st', [emit st y])).
      { unfold step. rewrite O, P. eauto. }
      destruct E as [st' E]. exists st', (es ++ [emit st y]). rewrite run_app, H. cbn [run]. rewrite E.
      split; [reflexivity|]. intros s. rewrite delivered_app. pose proof (iCount _ _ _ I L s) as C.
      unfold queued, und, emit in *. rewrite P in C. rewrite L. unfold delivered at 2.
      destruct s, y; cbn [cancellation_of filter is_for length]; lia.
  - pose proof (reach _ _ _ H) as I. pose proof (over_false _ _ _ H R) as O.
    pose proof (proj2 (iAlive _ _ _ I O) R) as L.
    destruct (iShape _ _ _ I L) as [(W & P & U1 & U2)|(W & y & P)]; [lia|].
    assert (E : exists st', step st LHandler = Some (st', [emit st y]) /\ k = und_int st' + und_term st').
    { unfold step. rewrite O, P. eexists. split; [reflexivity|]. unfold async_wait. cbn [und_int und_term].
      destruct (und_int st) as [|a] eqn:Ea, (und_term st) as [|b] eqn:Eb; cbn [und_int und_term]; lia. }
    destruct E as (st' & E & K').
    assert (H' : run init (ls ++ [LHandler]) = Some (st', es ++ [emit st y])).
    { rewrite run_app, H. cbn [run]. rewrite E. reflexivity. }
    destruct (IH _ _ _ H' (proj2 (running_snoc _ _) (conj R (eq_refl : is_end LHandler = false))) K') as (n & st2 & es2 & H2 & D).
    exists (S n), st2, es2. split; [cbn [repeat]; rewrite <- app_assoc in H2; exact H2|].
    intros s. rewrite D, arrived_app. unfold arrived at 2. destruct s; cbn; lia.
Qed.
Print Assumptions C48_delivered.

(** While co_main runs main does not return *)
Theorem C48_waits : forall ls st es, run init ls = Some (st, es) -> running ls -> step st LExit = None.
Proof.
  intros ls st es H R. pose proof (reach _ _ _ H) as I. pose proof (over_false _ _ _ H R) as O.
  pose proof (proj2 (iAlive _ _ _ I O) R) as L. unfold step. rewrite O, L. reflexivity.
Qed.
Print Assumptions C48_waits.

(** The exit code is what co_main returned *)
Theorem C48_exit_code : forall ls st es v,
  run init ls = Some (st, es) -> In (EExit v) es ->
  In (LReturn v) ls /\ forall w, In (LReturn w) ls -> w = v.
Proof.
  (* the frame is gone exactly if co_main returned; then [res] is the value *)
  assert (G : forall ls st es, run init ls = Some (st, es) ->
    (forall w, In (LReturn w) ls -> alive st = false /\ w = res st) /\
    (alive st = false -> In (LReturn (res st)) ls) /\
    (forall v, In (EExit v) es -> alive st = false /\ v = res st)).
  { induction ls as [|l ls IH] using rev_ind; intros st es H.
    - injection H as <- <-. repeat split; try contradiction; try discriminate.
    - apply run_snoc in H as (s1 & e1 & e2 & H1 & H2 & ->). destruct (IH _ _ H1) as (I1 & I2 & I3).
      assert (Same : alive st = alive s1 -> res st = res s1 -> (forall w, l <> LReturn w) ->
         (forall v, In (EExit v) e2 -> alive st = false /\ v = res st) ->
         (forall w, In (LReturn w) (ls ++ [l]) -> alive st = false /\ w = res st) /\
         (alive st = false -> In (LReturn (res st)) (ls ++ [l])) /\
         (forall v, In (EExit v) (e1 ++ e2) -> alive st = false /\ v = res st)).
      { intros -> -> N X. split; [|split].
        - intros w K. apply in_app_or in K as [K|[K|[]]]; [auto|]. exfalso. exact (N w K).
        - intros K. apply in_or_app. auto.
        - intros v K. apply in_app_or in K as [K|K]; auto. }
      unfold step in H2. destruct (over s1); [discriminate|]. destruct l as [s| |v| |].
      + injection H2 as <- <-. apply Same; try (destruct (waiting s1); [|destruct s]; reflexivity).
        * discriminate.
        * intros v [].
      + destruct (posted s1) as [[ec sg]|]; [|discriminate]. injection H2 as <- <-. apply Same.
        * destruct ec; [reflexivity|]. unfold async_wait; cbn. destruct (und_int s1), (und_term s1); reflexivity.
        * destruct ec; [reflexivity|]. unfold async_wait; cbn. destruct (und_int s1), (und_term s1); reflexivity.
        * discriminate.
        * intros v K. destruct sg as [s|]; [|destruct K]. unfold emit in K. destruct K as [K|[]].
          destruct (alive s1); discriminate.
      + destruct (alive s1) eqn:L; [|discriminate]. injection H2 as <- <-. cbn [alive res].
        assert (RS : res (cancel (mk (waiting s1) (und_int s1) (und_term s1) (posted s1) true v false)) = v).
        { unfold cancel. cbn. destruct (waiting s1); reflexivity. }
        rewrite RS. split; [|split].
        * intros w K. apply in_app_or in K as [K|[K|[]]]; [|injection K as <-; auto].
          destruct (I1 w K). discriminate.
        * intros _. apply in_or_app. right. left. reflexivity.
        * intros w K. rewrite app_nil_r in K. destruct (I3 w K). discriminate.
      + destruct (alive s1) eqn:L; [|discriminate]. injection H2 as <- <-. apply Same; cbn; auto; try discriminate.
        intros w [K|[]]. discriminate.
      + destruct (alive s1) eqn:L; [discriminate|]. destruct (waiting s1); [discriminate|].
        destruct (posted s1); [discriminate|]. injection H2 as <- <-. apply Same; cbn; auto; try discriminate.
        intros w [K|[]]. injection K as <-. auto. }
  intros ls st es v H K. destruct (G _ _ _ H) as (I1 & I2 & I3). destruct (I3 v K) as [L ->].
  split; [auto|]. intros w W. apply I1 in W. tauto.
Qed.
Print Assumptions C48_exit_code.

(** states after a quiet return: nothing but the aborted wait can still run *)
Definition quiet (st : state) : Prop :=
  alive st = false /\ waiting st = false /\ (posted st = None \/ posted st = Some (true, None)).
Lemma quiet_run ls st st' es : quiet st -> run st ls = Some (st', es) ->
  quiet st' /\ existsb touches es = false.
Proof.
  revert st es; induction ls as [|l ls IH]; intros st es Q H.
  - injection H as <- <-. auto.
  - cbn [run] in H. destruct (step st l) as [[s1 e1]|] eqn:E; [|discriminate].
    destruct (run s1 ls) as [[s2 e2]|] eqn:E2; [|discriminate]. injection H as <- <-.
    destruct Q as (L & W & P).
    assert (Q1 : quiet s1 /\ existsb touches e1 = false).
    { unfold step in E. destruct (over st); [discriminate|]. rewrite L, W in E. destruct l as [s| |v| |].
      - injection E as <- <-. destruct s; repeat split; auto.
      - destruct P as [P|P]; rewrite P in E; [discriminate|]. injection E as <- <-. repeat split; auto.
      - discriminate.
      - discriminate.
      - cbn [orb] in E. destruct P as [P|P]; rewrite P in E; [|discriminate]. injection E as <- <-. repeat split; auto. }
    destruct Q1 as [Q1 T]. destruct (IH _ _ Q1 E2) as [Q2 T2]. split; [exact Q2|].
    rewrite existsb_app, T, T2. reflexivity.
Qed.

(** If every signal that arrived before co_main returned was delivered, nothing is delivered to
    co_main afterwards whatever arrives, and main returns after at most one more handler *)
Theorem C48_after_partial : forall a v st es,
  run init a = Some (st, es) -> running a -> (forall s, delivered s es = arrived s a) ->
  exists st1, run init (a ++ [LReturn v]) = Some (st1, es) /\
  forall b st2 es2, run st1 b = Some (st2, es2) ->
    existsb touches es2 = false /\
    (over st2 = true \/
     exists c st3 es3, (c = [LExit] \/ c = [LHandler; LExit]) /\ run st2 c = Some (st3, es3) /\ In (EExit v) es3).
Proof.
  intros a v st es H R D. pose proof (reach _ _ _ H) as I. pose proof (over_false _ _ _ H R) as O.
  pose proof (proj2 (iAlive _ _ _ I O) R) as L.
  destruct (iShape _ _ _ I L) as [(W & P & U1 & U2)|(W & y & P)].
  2:{ exfalso. pose proof (iCount _ _ _ I L y) as C. rewrite D in C. unfold queued in C. rewrite P in C.
      destruct y; lia. }
  exists (mk false (und_int st) (und_term st) (Some (true, None)) false v false). split.
  { rewrite run_app, H. cbn [run]. unfold step, cancel. rewrite O, L, W. cbn. rewrite app_nil_r. reflexivity. }
  intros b st2 es2 Hb.
  assert (Q : quiet (mk false (und_int st) (und_term st) (Some (true, None)) false v false)).
  { repeat split; auto. }
  destruct (quiet_run _ _ _ _ Q Hb) as [Q2 T]. split; [exact T|].
  assert (RV : res st2 = v).
  { clear - Hb Q. set (s0 := mk _ _ _ _ _ _ _) in *. assert (res s0 = v) by reflexivity. clearbody s0.
    revert s0 es2 Q Hb H; induction b as [|l b IH]; intros s0 es2 Q Hb R.
    - injection Hb as <- <-. exact R.
    - cbn [run] in Hb. destruct (step s0 l) as [[s1 e1]|] eqn:E; [|discriminate].
      destruct (run s1 b) as [[s2 e2]|] eqn:E2; [|discriminate]. injection Hb as <- <-.
      assert (E' : run s0 [l] = Some (s1, e1)) by (cbn [run]; rewrite E, app_nil_r; reflexivity).
      destruct (quiet_run _ _ _ _ Q E') as [Q1 _]. eapply IH; [exact Q1|exact E2|].
      destruct Q as (L & W & P). unfold step in E. destruct (over s0); [discriminate|]. rewrite L, W in E.
      destruct l as [s| |w| |].
      + injection E as <- <-. destruct s; exact R.
      + destruct P as [P|P]; rewrite P in E; [discriminate|]. injection E as <- <-. exact R.
      + discriminate.
      + discriminate.
      + cbn [orb] in E. destruct P as [P|P]; rewrite P in E; [|discriminate]. injection E as <- <-. exact R. }
  destruct (over st2) eqn:O2; [left; reflexivity|right].
  destruct Q2 as (L2 & W2 & [P2|P2]).
  - exists [LExit]. cbn [run]. unfold step. rewrite O2, L2, W2, P2. cbn. do 2 eexists. split; [auto|].
    split; [reflexivity|]. left. rewrite RV. reflexivity.
  - exists [LHandler; LExit]. cbn [run]. unfold step. rewrite O2, P2. cbn. rewrite L2, W2. cbn.
    do 2 eexists. split; [auto|]. split; [reflexivity|]. left. rewrite RV. reflexivity.
Qed.
Print Assumptions C48_after_partial.

(** Without that proviso the claim is false: a signal whose handler is queued when co_main returns
    is delivered to the destroyed frame ... *)
Theorem C48_dangling_refuted : exists ls st es, run init ls = Some (st, es) /\
  exists v c, In (LReturn v) ls /\ In (EDangling c) es.
Proof.
  exists [LSig SIGINT; LReturn 0; LHandler]. do 2 eexists. split; [reflexivity|].
  exists 0%Z, total. cbn. auto.
Qed.
Print Assumptions C48_dangling_refuted.

(** ... and the handler waits for the next signal, so main never returns unless one arrives *)
Theorem C48_hang_refuted : exists ls st es, run init ls = Some (st, es) /\ In (LReturn 0) ls /\
  forall l, step st l <> None -> exists s, l = LSig s.
Proof.
  exists [LSig SIGINT; LReturn 0; LHandler]. do 2 eexists. split; [reflexivity|]. split; [cbn; auto|].
  intros [s| |v| |] H; eauto; cbn in H; congruence.
Qed.
Print Assumptions C48_hang_refuted.

(** A concrete run: signals that arrive while a handler is queued are not lost *)
Example C48_nonvacuous : exists st,
  run init [LSig SIGTERM; LSig SIGINT; LSig SIGINT; LHandler; LHandler; LHandler; LReturn 3; LSig SIGINT; LHandler; LExit] =
    Some (st, [EEmit terminal; EEmit total; EEmit total; EExit 3]) /\
  running [LSig SIGTERM; LSig SIGINT; LSig SIGINT; LHandler; LHandler; LHandler].
Proof. eexists. split; [vm_compute; reflexivity|vm_compute; reflexivity]. Qed.
