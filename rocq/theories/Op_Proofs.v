(** * Proofs about awaited operations *)
From Coq Require Import List Bool Arith Lia.
From Verif Require Import Op_Model Op_Spec.
Import ListNotations.

Ltac inv H := inversion H; subst; clear H.

#[local] Arguments calls : simpl never.

(** ** The initiation *)
Definition pending (s : state) : Prop := alive s = true /\ res s = None.
Definition called (s : state) : Prop := tok s = Used /\ ci s = yes /\ exists a, res s = Some a.

Record FR (s : state) : Prop := mkFR
  { F_stack : onstack s = true; F_co : co s = Suspending; F_ep : init_ep s = None }.

Definition ci_ok (inside : bool) (s : state) : Prop :=
  if inside then ci s = maybe \/ ci s = initiating else ci s = initiating.

Definition K (inside : bool) (s : state) : Prop := (pending s /\ ci_ok inside s) \/ called s.

Definition only_calls (es : list event) : Prop := forall e, In e es -> exists a, e = ECalled a.

Lemma only_calls_app : forall a b, only_calls a -> only_calls b -> only_calls (a ++ b).
Proof. intros a b A B e I. apply in_app_or in I as [I|I]; auto. Qed.

Lemma calls_app : forall a b, calls (a ++ b) = calls a ++ calls b.
Proof. intros. unfold calls. apply flat_map_app. Qed.
Lemma results_app : forall a b, results (a ++ b) = results a ++ results b.
Proof. intros. unfold results. apply flat_map_app. Qed.

Lemma nm_app : forall a b, no_misuse (a ++ b) <-> no_misuse a /\ no_misuse b.
Proof. intros. unfold no_misuse. rewrite in_app_iff. tauto. Qed.
Lemma nm_cons : forall e b, no_misuse (e :: b) <-> e <> EMisuse /\ no_misuse b.
Proof. intros. unfold no_misuse. cbn. intuition congruence. Qed.

Definition POST (inside : bool) (p : prog) (s s' : state) (es : list event) (r : option exn) : Prop :=
  FR s' /\ K inside s' /\ only_calls es /\
  (called s -> called s' /\ calls es = [] /\ res s' = res s) /\
  (pending s -> pending s' /\ calls es = [] /\ (has_imm p = false -> ci s' = ci s)
                \/ exists a, calls es = [a] /\ res s' = Some a /\ called s') /\
  (forall e, r = Some e -> inside = false).

Lemma pending_not_called : forall s, pending s -> called s -> False.
Proof. intros s [A _] [B _]. unfold alive in A. rewrite B in A. discriminate. Qed.

Lemma exec_tame : forall p d s s' es r,
  tame (negb (d =? 0)) p -> FR s -> K (negb (d =? 0)) s ->
  (negb (d =? 0) = true -> pending s -> ci s = maybe \/ no_direct_call p) ->
  exec d p s = (s', es, r) -> no_misuse es ->
  POST (negb (d =? 0)) p s s' es r.
Proof.
  induction p as [|e|a k IHk|b IHb k IHk|k IHk|k IHk|b IHb k IHk];
    intros d s s' es r T F HK D X NM; cbn in X.
  - inv X. split; [|split; [|split; [|split; [|split]]]]; auto; try discriminate. intros e [].
  - inv X. split; [|split; [|split; [|split; [|split]]]]; auto. intros x [].
  - destruct (alive s) eqn:A.
    + rewrite (F_stack _ F) in X. cbn in X.
      destruct (d =? 0) eqn:D0.
      { destruct (call a s) as [s1 e1]. destruct (exec d k s1) as [[s2 e2] r2]. inv X.
        apply nm_cons in NM as [NM _]. congruence. }
      cbn in *. assert (P : pending s) by (destruct HK as [[P _]|C]; auto; destruct C as [C _]; unfold alive in A; rewrite C in A; discriminate).
      destruct (D eq_refl P) as [D1|[]].
      unfold call in X. rewrite D1 in X.
      set (s1 := set_ci (set_tok (set_res s (Some a)) Used) yes) in X.
      assert (C1 : called s1) by (unfold called; cbn; eauto).
      assert (F1 : FR s1) by (destruct F; constructor; auto).
      destruct (exec d k s1) as [[s2 e2] r2] eqn:EK. inv X.
      apply nm_cons in NM as [_ NM].
      specialize (IHk d s1 s' e2 r). rewrite D0 in IHk. cbn in IHk.
      specialize (IHk T F1 (or_intror C1)).
      destruct IHk as (Q1 & Q2 & Q3 & Q4 & Q5 & Q6); auto.
      { intros _ P1. destruct (pending_not_called _ P1 C1). }
      destruct (Q4 C1) as (Q7 & Q8 & Q9).
      split; [|split; [|split; [|split; [|split]]]]; auto.
      * intros e [<-|I]; eauto.
      * intros C. destruct (pending_not_called _ P C).
      * intros _. right. exists a. split; [|rewrite Q9; auto]. change (calls (ECalled a :: e2)) with ([a] ++ calls e2). rewrite Q8. reflexivity.
    + destruct (exec d k s) as [[s2 e2] r2] eqn:EK. inv X. apply nm_cons in NM as [NM _]. congruence.
  - assert (G : gone s = false) by (unfold gone; rewrite (F_co _ F); auto). rewrite G in X.
    destruct T as (T1 & T2 & T3).
    destruct HK as [[P CO]|C].
    + assert (CI : ci s = initiating \/ ci s = maybe).
      { unfold ci_ok in CO. destruct (negb (d =? 0)); tauto. }
      assert (X' : (let '(s1, es, r) := exec (S d) b (set_ci s maybe) in
         match r with
         | Some e => (s1, es, Some e)
         | None => let u := if gone s1 then [EUb] else [] in
                let s2 := match ci s1 with yes => s1 | _ => set_ci s1 initiating end in
                let '(s3, es', r') := exec d k s2 in (s3, es ++ u ++ es', r')
         end) = (s', es, r)) by (destruct CI as [-> | ->] in X; exact X).
      clear X. rename X' into X.
      destruct (exec (S d) b (set_ci s maybe)) as [[s1 e1] r1] eqn:EB.
      assert (NM1 : no_misuse e1).
      { destruct r1; [inv X; auto|]. cbn in X.
        destruct (exec d k _) as [[s3 e3] r3]. inv X. apply nm_app in NM as [NM _]. auto. }
      assert (PB : pending (set_ci s maybe)) by exact P.
      destruct (IHb (S d) (set_ci s maybe) s1 e1 r1) as (Q1 & Q2 & Q3 & Q4 & Q5 & Q6); auto.
      { destruct F; constructor; auto. }
      { left. split; auto. left. reflexivity. }
      cbn in Q6. destruct r1 as [x|]; [discriminate (Q6 x eq_refl)|].
      assert (G1 : gone s1 = false) by (unfold gone; rewrite (F_co _ Q1); auto).
      cbn in X. rewrite G1 in X.
      set (s2 := match ci s1 with yes => s1 | _ => set_ci s1 initiating end) in X.
      destruct (exec d k s2) as [[s3 e3] r3] eqn:EK. inv X.
      apply nm_app in NM as [_ NM]. cbn in NM.
      assert (F2 : FR s2) by (subst s2; destruct Q1; destruct (ci s1); constructor; auto).
      destruct (Q5 PB) as [(P1 & C1 & _)|(a & C1 & R1 & CA)].
      * (* the body has not called the handler *)
        assert (NY : ci s1 <> yes).
        { destruct Q2 as [[_ O]|O]; [|destruct (pending_not_called _ P1 O)]. cbn in O. destruct O; congruence. }
        assert (E2 : s2 = set_ci s1 initiating) by (subst s2; destruct (ci s1); congruence).
        assert (P2 : pending s2) by (rewrite E2; exact P1).
        destruct (IHk d s2 s' e3 r) as (W1 & W2 & W3 & W4 & W5 & W6); auto.
        { left. split; auto. rewrite E2. unfold ci_ok. destruct (negb (d =? 0)); cbn; auto. }
        split; [|split; [|split; [|split; [|split]]]]; auto.
        -- apply only_calls_app; auto.
        -- intros C. destruct (pending_not_called _ P C).
        -- intros _. rewrite calls_app, C1. cbn.
           destruct (W5 P2) as [(U1 & U2 & _)|(a & U)]; [left|right; eauto].
           split; auto. split; auto. discriminate.
      * (* it has *)
        destruct CA as (CA1 & CA2 & CA3).
        assert (E2 : s2 = s1) by (subst s2; rewrite CA2; auto). rewrite E2 in *.
        assert (CC : called s1) by (split; auto).
        destruct (IHk d s1 s' e3 r T2 Q1) as (W1 & W2 & W3 & W4 & W5 & W6); [| |exact EK|exact NM|].
        { right; exact CC. }
        { intros _ PP. destruct (pending_not_called _ PP CC). }
        destruct (W4 CC) as (V1 & V2 & V3).
        split; [|split; [|split; [|split; [|split]]]]; auto.
        -- apply only_calls_app; auto.
        -- intros C. destruct (pending_not_called _ P C).
        -- intros _. right. exists a. rewrite calls_app, C1, V2. cbn. rewrite V3. auto.
    + destruct C as (C1 & C2 & C3). rewrite C2 in X.
      assert (CC : called (add_job s b)) by (unfold called; cbn; auto).
      destruct (IHk d (add_job s b) s' es r T2) as (W1 & W2 & W3 & W4 & W5 & W6); [| | |exact X|exact NM|].
      { destruct F; constructor; auto. }
      { right; exact CC. }
      { intros _ PP. destruct (pending_not_called _ PP CC). }
      split; [|split; [|split; [|split; [|split]]]]; auto.
      intros PP. exfalso. destruct PP as [PP _]. unfold alive in PP. rewrite C1 in PP. discriminate.
  - destruct (alive s) eqn:A.
    + assert (P : pending s) by (destruct HK as [[P _]|C]; auto; destruct C as [C _]; unfold alive in A; rewrite C in A; discriminate).
      assert (P1 : pending (set_tok s Away)) by (destruct P; split; auto).
      destruct (IHk d (set_tok s Away) s' es r T) as (W1 & W2 & W3 & W4 & W5 & W6); [| | |exact X|exact NM|].
      { destruct F; constructor; auto. }
      { left. split; auto. destruct HK as [[_ O]|C]; [exact O|]. destruct (pending_not_called _ P C). }
      { intros I _. exact (D I P). }
      split; [|split; [|split; [|split; [|split]]]]; auto.
      intros C. destruct (pending_not_called _ P C).
    + destruct (exec d k s) as [[s2 e2] r2] eqn:EK. inv X. apply nm_cons in NM as [NM _]. congruence.
  - destruct (alive s) eqn:A.
    + rewrite (F_stack _ F) in X. cbn in X. destruct (exec d k _) as [[s2 e2] r2] eqn:EK. inv X.
      apply nm_cons in NM as [NM _]. congruence.
    + destruct (exec d k s) as [[s2 e2] r2] eqn:EK. inv X. apply nm_cons in NM as [NM _]. congruence.
  - destruct (exec d b s) as [[s1 e1] r1] eqn:EB. destruct (exec d k s1) as [[s2 e2] r2] eqn:EK. inv X.
    apply nm_app in NM as [NM1 NM2]. destruct T as (T1 & T2 & T3).
    destruct (IHb d s s1 e1 r1) as (Q1 & Q2 & Q3 & Q4 & Q5 & Q6); auto.
    { intros I P. destruct (D I P) as [D1|[D1 D2]]; auto. }
    destruct (IHk d s1 s' e2 r) as (W1 & W2 & W3 & W4 & W5 & W6); auto.
    { intros I P1. destruct HK as [[P CO]|C].
      - destruct (D I P) as [D1|[D1 D2]]; auto. destruct (has_imm b) eqn:HB; [right; auto|].
        destruct (Q5 P) as [(_ & _ & Z)|(a & _ & _ & Z)]; [|destruct (pending_not_called _ P1 Z)].
        left. rewrite Z; auto.
      - destruct (Q4 C) as [Z _]. destruct (pending_not_called _ P1 Z). }
    split; [|split; [|split; [|split; [|split]]]]; auto.
    + apply only_calls_app; auto.
    + intros C. destruct (Q4 C) as (Z1 & Z2 & Z3). destruct (W4 Z1) as (Y1 & Y2 & Y3).
      rewrite calls_app, Z2, Y2. split; auto. split; auto. congruence.
    + intros P. destruct (Q5 P) as [(Z1 & Z2 & Z3)|(a & Z1 & Z2 & Z3)].
      * destruct (W5 Z1) as [(Y1 & Y2 & Y3)|(a & Y1 & Y2 & Y3)].
        -- left. rewrite calls_app, Z2, Y2. split; auto. split; auto. cbn.
           intros HI. apply orb_false_iff in HI as [HI1 HI2]. rewrite Y3, Z3; auto.
        -- right. exists a. rewrite calls_app, Z2, Y1. auto.
      * right. exists a. destruct (W4 Z3) as (Y1 & Y2 & Y3). rewrite calls_app, Z1, Y2. rewrite Y3. auto.
Qed.

(** ** After the initiation *)
Definition finished (s : state) : Prop :=
  onstack s = false /\ gone s = true /\ alive s = false.

Record waiting (s : state) : Prop := mkW
  { W_stack : onstack s = false; W_ci : ci s = no; W_res : res s = None; W_ep : init_ep s = None;
    W_tok : tok s = Away; W_co : co s = Suspended }.

Lemma exec_finished : forall p d s s' es r, finished s -> exec d p s = (s', es, r) -> no_misuse es ->
  finished s' /\ es = [].
Proof.
  induction p as [|e|a k IHk|b IHb k IHk|k IHk|k IHk|b IHb k IHk];
    intros d s s' es r F X NM; cbn in X; pose proof F as (F1 & F2 & F3).
  - inv X. auto.
  - inv X. auto.
  - rewrite F3 in X. destruct (exec d k s) as [[s2 e2] r2]. inv X. apply nm_cons in NM as [NM _]; congruence.
  - rewrite F2, F1 in X. destruct (exec d k s) as [[s2 e2] r2]. inv X. apply nm_cons in NM as [NM _]; congruence.
  - rewrite F3 in X. destruct (exec d k s) as [[s2 e2] r2]. inv X. apply nm_cons in NM as [NM _]; congruence.
  - rewrite F3 in X. destruct (exec d k s) as [[s2 e2] r2]. inv X. apply nm_cons in NM as [NM _]; congruence.
  - destruct (exec d b s) as [[s1 e1] r1] eqn:EB. destruct (exec d k s1) as [[s2 e2] r2] eqn:EK. inv X.
    apply nm_app in NM as [N1 N2]. destruct (IHb _ _ _ _ _ F EB N1) as [G1 ->].
    destruct (IHk _ _ _ _ _ G1 EK N2) as [G2 ->]. auto.
Qed.

(** what one later activity can do to a waiting coroutine *)
Definition LATER (s' : state) (es : list event) : Prop :=
  (waiting s' /\ es = []) \/
  (finished s' /\ exists a, es = [ECalled a; EResume; EResult (RArgs a)]) \/
  (finished s' /\ es = [EDestroyed]).

Lemma exec_waiting : forall p d s s' es r, waiting s -> exec d p s = (s', es, r) -> no_misuse es ->
  LATER s' es.
Proof.
  induction p as [|e|a k IHk|b IHb k IHk|k IHk|k IHk|b IHb k IHk];
    intros d s s' es r W X NM; cbn in X; pose proof W as [W1 W2 W3 W4 W5 W6];
    assert (A : alive s = true) by (unfold alive; rewrite W5; auto);
    assert (G : gone s = false) by (unfold gone; rewrite W6; auto).
  - inv X. left; auto.
  - inv X. left; auto.
  - rewrite A, W1 in X. cbn in X. unfold call in X. rewrite W2 in X. unfold await_resume in X. cbn in X. rewrite W4 in X.
    match type of X with context [exec d k ?s1] => destruct (exec d k s1) as [[s2 e2] r2] eqn:EK;
      assert (F : finished s1) by (repeat split; auto) end.
    inv X. apply (nm_app [ECalled a; EResume; EResult (RArgs a)]) in NM as [_ NM].
    destruct (exec_finished _ _ _ _ _ _ F EK NM) as [F' ->]. right. left. split; auto. exists a. reflexivity.
  - rewrite G, W2 in X. apply (IHk d (add_job s b) s' es r); auto. constructor; auto.
  - rewrite A in X. apply (IHk d (set_tok s Away) s' es r); auto. constructor; auto.
  - rewrite A, W1 in X. cbn in X.
    match type of X with context [exec d k ?s1] => destruct (exec d k s1) as [[s2 e2] r2] eqn:EK;
      assert (F : finished s1) by (repeat split; auto) end.
    inv X. apply (nm_app [EDestroyed]) in NM as [_ NM].
    destruct (exec_finished _ _ _ _ _ _ F EK NM) as [F' ->]. right. right. split; auto.
  - destruct (exec d b s) as [[s1 e1] r1] eqn:EB. destruct (exec d k s1) as [[s2 e2] r2] eqn:EK. inv X.
    apply nm_app in NM as [N1 N2].
    destruct (IHb _ _ _ _ _ W EB N1) as [[V1 ->]|[[V1 (a & ->)]|[V1 ->]]].
    + exact (IHk _ _ _ _ _ V1 EK N2).
    + destruct (exec_finished _ _ _ _ _ _ V1 EK N2) as [V2 ->]. right. left. split; auto. exists a. reflexivity.
    + destruct (exec_finished _ _ _ _ _ _ V1 EK N2) as [V2 ->]. right. right. split; auto.
Qed.

Definition noise (es : list event) : Prop := forall e, In e es -> exists x, e = EEscaped x.

Lemma noise_app : forall a b, noise a -> noise b -> noise (a ++ b).
Proof. intros a b A B e I. apply in_app_or in I as [I|I]; auto. Qed.

Lemma noise_esc : forall r : option exn, noise (match r with Some e => [EEscaped e] | None => [] end).
Proof. intros [e|] x I; cbn in I; [destruct I as [<-|[]]; eauto|destruct I]. Qed.

Lemma step_finished : forall s l s' es, finished s -> step s l = (s', es) -> no_misuse es ->
  finished s' /\ noise es.
Proof.
  intros s l s' es F S NM.
  assert (G : forall p s0, finished s0 -> run_prog p s0 = (s', es) -> finished s' /\ noise es).
  { intros p s1 F1 R. unfold run_prog in R. destruct (exec 0 p s1) as [[s2 e2] r] eqn:X. inv R.
    apply nm_app in NM as [N1 _]. destruct (exec_finished _ _ _ _ _ _ F1 X N1) as [F2 ->].
    split; auto. apply noise_esc. }
  destruct l as [p|i]; cbn in S; [eapply G; eauto|].
  destruct (nth_error (jobs s) i) as [p|].
  - eapply G; [|exact S]. exact F.
  - inv S. split; auto. intros e [].
Qed.

Lemma run_finished : forall ls s s' es, finished s -> run s ls = (s', es) -> no_misuse es ->
  finished s' /\ noise es.
Proof.
  induction ls as [|l r IH]; intros s s' es F R NM; cbn in R.
  - inv R. split; auto. intros e [].
  - destruct (step s l) as [s1 e1] eqn:S. destruct (run s1 r) as [s2 e2] eqn:R2. inv R.
    apply nm_app in NM as [N1 N2]. destruct (step_finished _ _ _ _ F S N1) as [F1 O1].
    destruct (IH _ _ _ F1 R2 N2) as [F2 O2]. split; auto. apply noise_app; auto.
Qed.

Lemma step_waiting : forall s l s' es, waiting s -> step s l = (s', es) -> no_misuse es ->
  exists e1 e2, es = e1 ++ e2 /\ LATER s' e1 /\ noise e2.
Proof.
  intros s l s' es F S NM.
  assert (G : forall p s0, waiting s0 -> run_prog p s0 = (s', es) -> exists e1 e2, es = e1 ++ e2 /\ LATER s' e1 /\ noise e2).
  { intros p s1 F1 R. unfold run_prog in R. destruct (exec 0 p s1) as [[s2 e2] r] eqn:X. inv R.
    apply nm_app in NM as [N1 _]. pose proof (exec_waiting _ _ _ _ _ _ F1 X N1) as L.
    eexists _, _. split; [reflexivity|]. split; auto. apply noise_esc. }
  destruct l as [p|i]; cbn in S; [eapply G; eauto|].
  destruct (nth_error (jobs s) i) as [p|].
  - eapply G; [|exact S]. destruct F; constructor; auto.
  - inv S. exists [], []. split; auto. split; [left; auto|intros e []].
Qed.

(** a waiting coroutine: at most one call, which resumes it with the arguments *)
Definition RUN (es : list event) : Prop :=
  noise es \/
  (exists n1 a n2, es = n1 ++ [ECalled a; EResume; EResult (RArgs a)] ++ n2 /\ noise n1 /\ noise n2) \/
  (exists n1 n2, es = n1 ++ [EDestroyed] ++ n2 /\ noise n1 /\ noise n2).

Lemma run_waiting : forall ls s s' es, waiting s -> run s ls = (s', es) -> no_misuse es -> RUN es.
Proof.
  induction ls as [|l r IH]; intros s s' es W R NM; cbn in R.
  - inv R. left. intros e [].
  - destruct (step s l) as [s1 e1] eqn:S. destruct (run s1 r) as [s2 e2] eqn:R2. inv R.
    apply nm_app in NM as [N1 N2].
    destruct (step_waiting _ _ _ _ W S N1) as (a1 & a2 & -> & L & O).
    destruct L as [[W1 ->]|[[F1 (a & ->)]|[F1 ->]]].
    + destruct (IH _ _ _ W1 R2 N2) as [Q|[(n1 & a & n2 & -> & Q1 & Q2)|(n1 & n2 & -> & Q1 & Q2)]].
      * left. apply noise_app; auto.
      * right. left. exists (a2 ++ n1), a, n2. cbn. rewrite <- app_assoc. split; auto. split; auto. apply noise_app; auto.
      * right. right. exists (a2 ++ n1), n2. cbn. rewrite <- app_assoc. split; auto. split; auto. apply noise_app; auto.
    + destruct (run_finished _ _ _ _ F1 R2 N2) as [_ O2].
      right. left. exists [], a, (a2 ++ e2). cbn. split; auto. split; [intros e []|apply noise_app; auto].
    + destruct (run_finished _ _ _ _ F1 R2 N2) as [_ O2].
      right. right. exists [], (a2 ++ e2). cbn. split; auto. split; [intros e []|apply noise_app; auto].
Qed.

(** ** The whole await *)
Inductive SHAPE : list event -> Prop :=
| SCalled a pre n : only_calls pre -> calls pre = [a] -> noise n ->
    SHAPE (pre ++ [EReturned; EContinue; EResult (RArgs a)] ++ n)
| SThrew e pre n : only_calls pre -> length (calls pre) <= 1 -> noise n ->
    SHAPE (pre ++ [EThrew e; EContinue; EResult (RExn e)] ++ n)
| SLater pre es : only_calls pre -> calls pre = [] -> RUN es ->
    SHAPE (pre ++ [EReturned; ESuspend] ++ es).

Definition ASHAPE (s : state) (es : list event) : Prop :=
  (finished s /\ exists a pre, es = pre ++ [EReturned; EContinue; EResult (RArgs a)] /\ only_calls pre /\ calls pre = [a]) \/
  (finished s /\ exists e pre, es = pre ++ [EThrew e; EContinue; EResult (RExn e)] /\ only_calls pre /\ length (calls pre) <= 1) \/
  (waiting s /\ exists pre, es = pre ++ [EReturned; ESuspend] /\ only_calls pre /\ calls pre = []).

Lemma await_shape : forall p s es0, tame false p -> await_op None p = (s, es0) -> no_misuse es0 -> ASHAPE s es0.
Proof.
  intros p s es0 T AW. unfold await_op in AW.
  set (si := set_stack (set_ci s0 initiating) true) in *.
  destruct (exec 0 p si) as [[s1 es] r] eqn:X.
  destruct (finish_suspend s1 r) as [s2 e2] eqn:FS. inv AW.
  intros NM. apply nm_app in NM as [N1 N2].
  assert (PI : pending si) by (split; reflexivity).
  destruct (exec_tame p 0 si s1 es r T) as (Q1 & Q2 & Q3 & Q4 & Q5 & Q6); auto.
  { constructor; reflexivity. }
  { left. split; auto. reflexivity. }
  { discriminate. }
  cbn in Q2, Q6. destruct Q1 as [F1 F2 F3].
  unfold finish_suspend in FS.
  assert (G1 : gone s1 = false) by (unfold gone; rewrite F2; auto).
  destruct r as [e|].
  - (* the initiation threw *)
    assert (L : length (calls es) <= 1).
    { destruct (Q5 PI) as [(_ & -> & _)|(a & -> & _)]; auto. }
    right. left.
    destruct (Q5 PI) as [(P1 & C1 & _)|(a & C1 & R1 & (T1 & T2 & T3))].
    + destruct Q2 as [[_ CO]|C]; [|destruct (pending_not_called _ P1 C)]. cbn in CO.
      destruct P1 as [P1 _]. unfold alive in P1. destruct (tok s1) eqn:TK; try discriminate.
      * rewrite CO in FS. change (gone (set_tok s1 Used)) with (gone s1) in FS. rewrite G1 in FS.
        inv FS. split; [repeat split; auto|]. unfold await_resume in *. cbn in *. exists e, es. auto.
      * rewrite G1 in FS. inv FS. exfalso. apply N2. cbn. tauto.
    + rewrite T1 in FS. rewrite G1 in FS. inv FS. unfold await_resume in *. cbn in *.
      split; [repeat split; auto; unfold alive; cbn; rewrite T1; auto|]. exists e, es; auto.
  - destruct (Q5 PI) as [(P1 & C1 & _)|(a & C1 & R1 & (T1 & T2 & T3))].
    + destruct Q2 as [[_ CO]|C]; [|destruct (pending_not_called _ P1 C)]. cbn in CO.
      destruct P1 as [P1 P2]. unfold alive in P1. destruct (tok s1) eqn:TK; try discriminate.
      * unfold destroy_coro in FS. cbn in FS. inv FS. exfalso. apply N2. cbn. tauto.
      * rewrite G1, CO in FS. cbn in FS. inv FS. right. right.
        split; [constructor; auto|]. exists es. auto.
    + rewrite T1, G1, T2 in FS. cbn in FS. rewrite T2 in FS. inv FS. unfold await_resume in *. cbn in *. rewrite F3, R1 in *.
      left. split; [repeat split; auto; unfold alive; cbn; rewrite T1; auto|]. exists a, es. auto.
Qed.

Lemma shape : forall p ls, tame false p -> no_misuse (await_and_run None p ls) ->
  SHAPE (await_and_run None p ls).
Proof.
  intros p ls T NM. unfold await_and_run in *.
  destruct (await_op None p) as [s es] eqn:A. destruct (run s ls) as [s' es'] eqn:R. cbn [snd] in *.
  apply nm_app in NM as [N1 N2].
  destruct (await_shape _ _ _ T A N1) as [(F & a & pre & -> & P & C)|[(F & e & pre & -> & P & C)|(F & pre & -> & P & C)]];
    rewrite <- app_assoc.
  - apply SCalled; auto. eapply run_finished; eauto.
  - apply SThrew; auto. eapply run_finished; eauto.
  - apply SLater; auto. eapply run_waiting; eauto.
Qed.

Lemma run_still : forall ls s s' es, waiting s -> run s ls = (s', es) -> no_misuse es ->
  waiting s' \/ results es <> [] \/ In EDestroyed es.
Proof.
  induction ls as [|l r IH]; intros s s' es W R NM; cbn in R.
  - inv R. auto.
  - destruct (step s l) as [s1 e1] eqn:S. destruct (run s1 r) as [s2 e2] eqn:R2. inv R.
    apply nm_app in NM as [N1 N2].
    destruct (step_waiting _ _ _ _ W S N1) as (a1 & a2 & -> & L & O).
    destruct L as [[W1 ->]|[[F1 (a & ->)]|[F1 ->]]].
    + destruct (IH _ _ _ W1 R2 N2) as [Q|[Q|Q]]; auto.
      * right. left. cbn [app]. rewrite results_app. intros E. apply app_eq_nil in E as [_ E]. auto.
      * right. right. rewrite !in_app_iff. auto.
    + right. left. cbn. discriminate.
    + right. right. cbn. auto.
Qed.

(** ** Consequences *)
Lemma noise_facts : forall n, noise n -> calls n = [] /\ results n = [] /\
  (forall e, (forall x, e <> EEscaped x) -> ~ In e n) /\
  (forall P, (forall x, P (EEscaped x) = false) -> count P n = 0).
Proof.
  intros n O. repeat split.
  - induction n as [|e n IH]; auto. destruct (O e (or_introl eq_refl)) as [x ->]. apply IH. intros y Y; apply O; right; auto.
  - induction n as [|e n IH]; auto. destruct (O e (or_introl eq_refl)) as [x ->]. apply IH. intros y Y; apply O; right; auto.
  - intros e H I. destruct (O _ I) as [x X]. exact (H x X).
  - intros P H. unfold count. induction n as [|e n IH]; auto. cbn. destruct (O e (or_introl eq_refl)) as [x ->]. rewrite H.
    apply IH. intros y Y; apply O; right; auto.
Qed.

Lemma oc_facts : forall n, only_calls n -> results n = [] /\
  (forall e, (forall x, e <> ECalled x) -> ~ In e n) /\
  (forall P, (forall x, P (ECalled x) = false) -> count P n = 0).
Proof.
  intros n O. repeat split.
  - induction n as [|e n IH]; auto. destruct (O e (or_introl eq_refl)) as [x ->]. apply IH. intros y Y; apply O; right; auto.
  - intros e H I. destruct (O _ I) as [x X]. exact (H x X).
  - intros P H. unfold count. induction n as [|e n IH]; auto. cbn. destruct (O e (or_introl eq_refl)) as [x ->]. rewrite H.
    apply IH. intros y Y; apply O; right; auto.
Qed.

Lemma count_app : forall P a b, count P (a ++ b) = count P a + count P b.
Proof. intros. unfold count. rewrite filter_app, app_length. reflexivity. Qed.

Ltac facts :=
  repeat match goal with
  | H : noise ?n |- _ => let A := fresh "N" in let B := fresh "N" in let C := fresh "N" in let D := fresh "N" in
      destruct (noise_facts _ H) as (A & B & C & D); clear H
  | H : only_calls ?n |- _ => let A := fresh "O" in let B := fresh "O" in let C := fresh "O" in
      destruct (oc_facts _ H) as (A & B & C); clear H
  end.

Section Await.
Variables (p : prog) (ls : list label).
Hypothesis T : tame false p.
Let tr := await_and_run None p ls.
Hypothesis NM : no_misuse tr.

Lemma threw_calls : forall e pre n, In (EThrew e) (pre ++ [EThrew e; EContinue; EResult (RExn e)] ++ n).
Proof. intros. rewrite in_app_iff. cbn. tauto. Qed.

Theorem defined : ~ In EUb tr.
Proof.
  unfold tr in *. destruct (shape p ls T NM) as [a pre n H1 H2 H3|e pre n H1 H2 H3|pre es H1 H2 H3].
  - facts. rewrite !in_app_iff. intros [I|[I|I]]; [eapply O0; eauto; discriminate|cbn in I; intuition discriminate|eapply N1; eauto; discriminate].
  - facts. rewrite !in_app_iff. intros [I|[I|I]]; [eapply O0; eauto; discriminate|cbn in I; intuition discriminate|eapply N1; eauto; discriminate].
  - destruct H3 as [H3|[(n1 & a & n2 & -> & H3 & H4)|(n1 & n2 & -> & H3 & H4)]]; facts; rewrite !in_app_iff; intros I;
      repeat (destruct I as [I|I]); try (cbn in I; intuition discriminate);
      match goal with H : forall e, _ -> ~ In e ?n, I : In EUb ?n |- _ => exact (H EUb ltac:(discriminate) I) end.
Qed.

Theorem result_exact : (forall e, ~ In (EThrew e) tr) ->
  results tr = map RArgs (calls tr) /\ length (calls tr) <= 1.
Proof.
  unfold tr in *. destruct (shape p ls T NM) as [a pre n H1 H2 H3|e pre n H1 H2 H3|pre es H1 H2 H3]; intros NT.
  - facts. rewrite !results_app, !calls_app, H2, N, N0, O. cbn. auto.
  - exfalso. exact (NT e (threw_calls _ _ _)).
  - destruct H3 as [H3|[(n1 & a & n2 & -> & H3 & H4)|(n1 & n2 & -> & H3 & H4)]]; facts;
      rewrite !results_app, !calls_app;
      repeat match goal with H : calls ?n = [] |- _ => rewrite H | H : results ?n = [] |- _ => rewrite H end; cbn; auto.
Qed.

Theorem not_inside : exists pre x post, tr = pre ++ x :: post /\
  (x = EReturned \/ exists e, x = EThrew e) /\ (forall e, In e pre -> coro_event e = false).
Proof.
  unfold tr in *. destruct (shape p ls T NM) as [a pre n H1 H2 H3|e pre n H1 H2 H3|pre es H1 H2 H3].
  - exists pre, EReturned, ([EContinue; EResult (RArgs a)] ++ n). split; auto. split; auto.
    intros e I. destruct (H1 e I) as [x ->]. auto.
  - exists pre, (EThrew e), ([EContinue; EResult (RExn e)] ++ n). split; auto. split; eauto.
    intros y I. destruct (H1 y I) as [x ->]. auto.
  - exists pre, EReturned, ([ESuspend] ++ es). split; auto. split; auto.
    intros e I. destruct (H1 e I) as [x ->]. auto.
Qed.

Lemma during_oc : forall pre x post, only_calls pre -> (x = EReturned \/ exists e, x = EThrew e) ->
  during (pre ++ x :: post) = pre /\ after (pre ++ x :: post) = post.
Proof.
  induction pre as [|y pre IH]; intros x post O X; cbn.
  - destruct X as [->|[e ->]]; auto.
  - destruct (O y (or_introl eq_refl)) as [a ->]. destruct (IH x post) as [A B]; auto.
    + intros z I. apply O. right; auto.
    + rewrite A, B. auto.
Qed.

Ltac cnt :=
  rewrite ?count_app;
  repeat match goal with H : forall P, _ -> count P ?n = 0 |- context [count ?Q ?n] => rewrite (H Q) by (intros; reflexivity) end.

(** called during the initiation: no suspension *)
Theorem inline_iff : (forall e, ~ In (EThrew e) tr) ->
  (calls (during tr) <> [] -> count is_suspend tr = 0 /\ count is_resume tr = 0 /\ count is_continue tr = 1) /\
  (calls (during tr) = [] -> count is_suspend tr = 1 /\ count is_continue tr = 0 /\
                             count is_resume tr = length (calls tr)).
Proof.
  unfold tr in *. destruct (shape p ls T NM) as [a pre n H1 H2 H3|e pre n H1 H2 H3|pre es H1 H2 H3]; intros NT.
  - destruct (during_oc pre EReturned ([EContinue; EResult (RArgs a)] ++ n) H1 (or_introl eq_refl)) as [D _]. cbn [app] in *. rewrite D.
    rewrite H2. split; [intros _|discriminate].
    change (EReturned :: EContinue :: EResult (RArgs a) :: n) with ([EReturned; EContinue; EResult (RArgs a)] ++ n).
    facts. cnt. auto.
  - exfalso. exact (NT e (threw_calls _ _ _)).
  - destruct (during_oc pre EReturned ([ESuspend] ++ es) H1 (or_introl eq_refl)) as [D _]. cbn [app] in *. rewrite D.
    rewrite H2. split; [congruence|intros _].
    change (EReturned :: ESuspend :: es) with ([EReturned; ESuspend] ++ es).
    destruct H3 as [H3|[(n1 & a & n2 & -> & H3 & H4)|(n1 & n2 & -> & H3 & H4)]]; facts; cnt; rewrite !calls_app;
      repeat match goal with H : calls ?n = [] |- _ => rewrite H end; cbn; auto.
Qed.

(** nothing happens to the coroutine during the initiation *)
Theorem quiet_inside : init_over tr /\ forall e, In e (during tr) -> coro_event e = false.
Proof.
  unfold tr in *. destruct (shape p ls T NM) as [a pre n H1 H2 H3|e pre n H1 H2 H3|pre es H1 H2 H3]; cbn [app].
  - destruct (during_oc pre EReturned ([EContinue; EResult (RArgs a)] ++ n) H1 (or_introl eq_refl)) as [D _]. cbn [app] in D. rewrite D.
    split; [left; rewrite in_app_iff; cbn; tauto|]. intros e I. destruct (H1 e I) as [x ->]. auto.
  - destruct (during_oc pre (EThrew e) ([EContinue; EResult (RExn e)] ++ n) H1 (or_intror (ex_intro _ e eq_refl))) as [D _]. cbn [app] in D. rewrite D.
    split; [right; exists e; rewrite in_app_iff; cbn; tauto|]. intros y I. destruct (H1 y I) as [x ->]. auto.
  - destruct (during_oc pre EReturned ([ESuspend] ++ es) H1 (or_introl eq_refl)) as [D _]. cbn [app] in D. rewrite D.
    split; [left; rewrite in_app_iff; cbn; tauto|]. intros e I. destruct (H1 e I) as [x ->]. auto.
Qed.

(** an exception leaving the initiation comes out of the co_await at once *)
Theorem threw_result : forall e, In (EThrew e) tr ->
  results tr = [RExn e] /\ firstn 2 (after tr) = [EContinue; EResult (RExn e)] /\
  count is_suspend tr = 0 /\ count is_resume tr = 0 /\ ~ In EDestroyed tr.
Proof.
  unfold tr in *. destruct (shape p ls T NM) as [a pre n H1 H2 H3|e pre n H1 H2 H3|pre es H1 H2 H3]; intros e0 I.
  - facts. rewrite !in_app_iff in I. destruct I as [I|[I|I]]; [exfalso; eapply O0; eauto; discriminate|cbn in I; intuition discriminate|exfalso; eapply N1; eauto; discriminate].
  - pose proof (during_oc pre (EThrew e) ([EContinue; EResult (RExn e)] ++ n) H1 (or_intror (ex_intro _ e eq_refl))) as [_ D].
    cbn [app] in *. rewrite D.
    change (EThrew e :: EContinue :: EResult (RExn e) :: n) with ([EThrew e; EContinue; EResult (RExn e)] ++ n) in *.
    facts. assert (e0 = e) as ->.
    { rewrite !in_app_iff in I. destruct I as [I|[I|I]]; [exfalso; eapply O0; eauto; discriminate|cbn in I; intuition congruence|exfalso; eapply N1; eauto; discriminate]. }
    rewrite !results_app, N0, O. cnt. repeat split; auto.
    rewrite !in_app_iff. intros [J|[J|J]]; [eapply O0; eauto; discriminate|cbn in J; intuition discriminate|eapply N1; eauto; discriminate].
  - exfalso.
    destruct H3 as [H3|[(n1 & a & n2 & -> & H3 & H4)|(n1 & n2 & -> & H3 & H4)]]; facts; rewrite !in_app_iff in I;
      repeat (destruct I as [I|I]); try (cbn in I; intuition discriminate);
      match goal with H : forall e, _ -> ~ In e ?n, I : In (EThrew ?y) ?n |- _ => exact (H (EThrew y) ltac:(discriminate) I) end.
Qed.

(** the awaiting coroutine is never forgotten: as long as the handler has been
    neither invoked nor destroyed, somebody still holds it, and invoking it then
    gives the result *)
Theorem deliverable : forall a, results tr = [] -> ~ In EDestroyed tr ->
  await_and_run None p (ls ++ [LRun (Call a Done)]) = tr ++ [ECalled a; EResume; EResult (RArgs a)].
Proof.
  unfold tr in *. unfold await_and_run in *. intros a.
  assert (RA : forall l1 s l2, snd (run s (l1 ++ l2)) = snd (run s l1) ++ snd (run (fst (run s l1)) l2)).
  { clear. induction l1 as [|l l1 IH]; intros s l2; cbn; auto.
    destruct (step s l) as [s1 e1]. specialize (IH s1 l2).
    destruct (run s1 (l1 ++ l2)) as [s3 e3]. destruct (run s1 l1) as [s4 e4]. cbn in *. rewrite IH, app_assoc. auto. }
  destruct (await_op None p) as [s2 e2] eqn:A. destruct (run s2 ls) as [s3 e3] eqn:R. cbn [snd] in *. intros RS ND.
  apply nm_app in NM as [N1 N2]. rewrite results_app in RS. apply app_eq_nil in RS as [RS1 RS2].
  assert (W : waiting s3).
  { destruct (await_shape _ _ _ T A N1) as [(F & x & pre & -> & P & C)|[(F & e & pre & -> & P & C)|(F & pre & -> & P & C)]];
      try (rewrite results_app in RS1; cbn in RS1; apply app_eq_nil in RS1 as [_ RS1]; discriminate).
    destruct (run_still _ _ _ _ F R N2) as [Q|[Q|Q]]; auto; [congruence|].
    exfalso. apply ND. apply in_or_app. auto. }
  destruct W as [W1 W2 W3 W4 W5 W6].
  rewrite RA, R. cbn. unfold step, run_prog. cbn. unfold alive. rewrite W5, W1. cbn. unfold call. rewrite W2. unfold await_resume. cbn. rewrite W4.
  cbn. rewrite <- !app_assoc. reflexivity.
Qed.

End Await.

Theorem ready : forall a p ls, let tr := await_and_run (Some a) p ls in no_misuse tr ->
  results tr = [RArgs a] /\ calls tr = [] /\ count is_suspend tr = 0 /\ count is_resume tr = 0 /\ ~ In EUb tr.
Proof.
  intros a p ls tr NM. unfold tr, await_and_run, await_op in *.
  match type of NM with context [run ?s ls] => destruct (run s ls) as [s' es'] eqn:R; assert (F : finished s) by (repeat split; auto) end.
  cbn [snd] in *. apply nm_app in NM as [_ NM].
  destruct (run_finished _ _ _ _ F R NM) as [_ O]. facts.
  change (await_resume _) with [EResult (RArgs a)].
  rewrite results_app, calls_app, !count_app, N, N0, !N2 by (intros; reflexivity). repeat split; auto.
  rewrite in_app_iff. cbn. intros [[I|[I|[]]]|I]; try discriminate. eapply N1; eauto; discriminate.
Qed.
