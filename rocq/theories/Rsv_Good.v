(** * What holds after every history of the resolver model *)
From Coq Require Import List Bool Arith Lia Permutation.
From Verif Require Import Sock_Model Rsv_Model Rsv_Spec Rsv_Inv.
Import ListNotations.

Section good.
Variable W : nat.

Lemma good_init : good [] init [].
Proof.
  constructor; cbn; intros; try tauto; try discriminate; auto; try constructor.
Qed.

Lemma good_step : forall ls s es l s' e, good ls s es -> exec W l s = Some (s', e) -> good (ls ++ [l]) s' (es ++ e).
Proof.
  intros ls s es l s' e G H. destruct (exec_begun W _ _ _ _ H) as (B1 & B2 & B3).
  destruct (exec_tok W _ _ _ _ H) as (T1 & T2 & T3 & T4).
  assert (forall j, In j (queue s') -> In (EBegun (j_id j) (j_res j) (j_host j) (j_serv j)) (es ++ e) /\ exists o, In (LAwait (j_id j) o) (ls ++ [l])) as GQ.
  { intros j J. destruct (exec_queue W _ _ _ _ H j J) as [K|(o & h & w & -> & -> & _)].
    - destruct (g_queue _ _ _ G j K) as [A (o & B)]. split; [apply in_or_app; auto|exists o; apply in_or_app; auto].
    - split; [apply in_or_app; right; now left|exists o; apply in_or_app; right; now left]. }
  constructor.
  - intro k. rewrite (exec_text W _ _ _ _ H), text_snoc. f_equal. apply (g_text _ _ _ G).
  - intro o. rewrite (exec_ops W _ _ _ _ H), oper_snoc. f_equal. apply (g_ops _ _ _ G).
  - rewrite begun_app, ended_app, <- app_assoc. eapply Permutation_trans.
    + apply Permutation_app_tail. apply (g_perm _ _ _ G).
    + rewrite <- app_assoc. apply Permutation_app_head. apply (exec_pipe W _ _ _ _ H).
  - intros i I. rewrite begun_app in I. apply in_app_or in I. destruct I as [I|I].
    + apply B1. apply (g_flag _ _ _ G). exact I.
    + apply B2. exact I.
  - rewrite begun_app. pose proof (g_nodup _ _ _ G) as N. pose proof (g_flag _ _ _ G) as F.
    revert N F. generalize (begun_in es). intro L. induction L as [|a L IH]; intros N F; [exact B3|].
    inversion N; subst. cbn. constructor.
    + intro I. apply in_app_or in I. destruct I as [I|I]; [contradiction|]. destruct (B2 _ I) as [K _].
      rewrite F in K; [discriminate|now left].
    + apply IH; [auto|]. intros i I. apply F. now right.
  - apply (exec_work W _ _ _ _ H). apply (g_work _ _ _ G).
  - exact GQ.
  - intros j J. destruct (exec_active W _ _ _ _ H j J) as [K|(K & -> & _)].
    + destruct (g_active _ _ _ G j K). split; apply in_or_app; auto.
    + split; apply in_or_app; [left; apply (g_queue _ _ _ G j K)|right; now left].
  - intros i r J. destruct (exec_done W _ _ _ _ H i r J) as [K|[(j & K & <- & -> & X)|(j & a & K & <- & -> & ->)]].
    + apply told_mono. apply (g_done _ _ _ G). exact K.
    + apply told_mono. exists (j_res j), (j_host j), (j_serv j). split; [apply (g_queue _ _ _ G j K)|auto].
    + destruct (g_active _ _ _ G j K) as [A B]. exists (j_res j), (j_host j), (j_serv j).
      split; [apply in_or_app; auto|]. right. exists a. repeat split; apply in_or_app; auto. right; now left.
  - intros i r J. apply in_app_or in J. apply told_mono. destruct J as [J|J]; [apply (g_got _ _ _ G); exact J|].
    apply (g_done _ _ _ G). apply (exec_got W _ _ _ _ H). exact J.
  - intros i x n v J. apply in_app_or in J. destruct J as [J|J]; [apply named_mono; apply (g_named _ _ _ G); exact J|].
    destruct (exec_ebegun W _ _ _ _ H _ _ _ _ J) as (o & h & w & ow & -> & O & A & B).
    exists ls, o, [], h, w, ow. rewrite <- (g_text _ _ _ G), <- (g_text _ _ _ G), <- (g_ops _ _ _ G), O. auto.
  - intros j J X. destruct (exec_queue W _ _ _ _ H j J) as [K|(o & h & w & -> & _ & L & T & _)].
    + destruct (g_job _ _ _ G j K) as [U _].
      destruct (exec_expired W _ _ _ _ H j U X) as [X'|X'].
      * apply stopped_mono. apply (g_stop _ _ _ G); auto.
      * destruct (g_queue _ _ _ G j K) as [_ (o & O)]. exists ls, l, [], o. split; [auto|]. split; [auto|].
        destruct X' as [->|[->|(p & q & -> & Q & R & OW)]]; [left; auto|right; left; auto|].
        right; right. exists p, (o_host q), (o_serv q). split; [auto|]. rewrite <- (g_ops _ _ _ G), Q. cbn. now rewrite R, OW.
    + exfalso. revert X. unfold expired. unfold exec in H. destruct (up s); [|discriminate]. cbn [negb] in H.
      destruct (ops s o); [|discriminate]. destruct (begun s (j_id j)); [discriminate|].
      destruct (live s (o_res o0)), (text s (o_host o0)), (text s (o_serv o0)); injection H as <- _; cbn; rewrite L, T, Nat.eqb_refl; discriminate.
  - intros i J.
    assert (In (i, RAborted) (done s) \/ In (EGot i RAborted) es -> exists x n v, In (EBegun i x n v) (es ++ e) /\ stopped (ls ++ [l]) i x) as OLD.
    { intro K. destruct (g_aborted _ _ _ G i K) as (x & n & v & A & B). exists x, n, v. split; [apply in_or_app; auto|apply stopped_mono; auto]. }
    destruct J as [J|J].
    + destruct (exec_done W _ _ _ _ H i _ J) as [K|[(j & K & <- & _ & X)|(j & a & K & <- & -> & E)]]; [auto| |].
      * exists (j_res j), (j_host j), (j_serv j). split; [apply in_or_app; left; apply (g_queue _ _ _ G j K)|].
        apply stopped_mono. apply (g_stop _ _ _ G); auto.
      * destruct a; discriminate E.
    + apply in_app_or in J. destruct J as [J|J]; [auto|]. apply OLD. left. apply (exec_got W _ _ _ _ H). exact J.
  - intros x. apply T3. apply (g_used _ _ _ G).
  - intros j J. destruct (exec_queue W _ _ _ _ H j J) as [K|(o & h & w & _ & _ & L & T & _)].
    + destruct (g_job _ _ _ G j K) as [U V]. split; [auto|]. specialize (T2 (j_res j)). lia.
    + split; [apply T1; apply (g_used _ _ _ G); auto|]. rewrite T. apply T2.
Qed.

Theorem good_run : forall ls s es, run W ls init = Some (s, es) -> good ls s es.
Proof.
  apply hist_ind; [exact good_init|]. intros. eapply good_step; eauto.
Qed.

(** ** queries that have been cancelled before a worker took them *)
Definition doomed (i : nat) (s : state) : Prop :=
  begun s i = true /\ ~ In i (map j_id (active s)) /\ (forall r, In (i, r) (done s) -> r = RAborted) /\
  forall j, In j (queue s) -> j_id j = i -> used s (j_res j) = true /\ (live s (j_res j) = false \/ j_tok j < tok s (j_res j)).

Lemma doomed_expired : forall i s j, doomed i s -> In j (queue s) -> j_id j = i -> expired s j = true.
Proof.
  intros i s j (_ & _ & _ & D) J E. destruct (D j J E) as [_ [L|L]]; unfold expired.
  - rewrite L. reflexivity.
  - apply orb_true_iff. right. apply negb_true_iff. apply Nat.eqb_neq. lia.
Qed.

Lemma doomed_step : forall i l s s' e, exec W l s = Some (s', e) -> doomed i s ->
  doomed i s' /\ (forall r, In (EGot i r) e -> r = RAborted) /\ (forall n v, ~ In (EAsk i n v) e).
Proof.
  intros i l s s' e H D. pose proof D as (B & A & N & Q).
  destruct (exec_begun W _ _ _ _ H) as (B1 & B2 & B3). destruct (exec_tok W _ _ _ _ H) as (T1 & T2 & T3 & T4).
  assert (~ In i (map j_id (active s'))) as A'.
  { intro K. apply in_map_iff in K. destruct K as (j & E & J). destruct (exec_active W _ _ _ _ H j J) as [J'|(J' & _ & X)].
    - apply A. apply in_map_iff. eauto.
    - rewrite (doomed_expired i s j D J' E) in X. discriminate. }
  repeat split; auto.
  - intros r J. destruct (exec_done W _ _ _ _ H _ _ J) as [K|[(j & K & _ & -> & _)|(j & a & K & E & _)]]; auto.
    exfalso. apply A. apply in_map_iff. eauto.
  - destruct (exec_queue W _ _ _ _ H j H0) as [K|(o & h & w & -> & -> & _)]; [apply T1; apply (Q j K H1)|].
    subst i. destruct (B2 (j_id j)) as [F _]; [now left|congruence].
  - destruct (exec_queue W _ _ _ _ H j H0) as [K|(o & h & w & -> & -> & _)].
    + destruct (Q j K H1) as [U [L|L]]; [left; auto|right]. specialize (T2 (j_res j)). lia.
    + subst i. destruct (B2 (j_id j)) as [F _]; [now left|congruence].
  - intros r J. apply N. apply (exec_got W _ _ _ _ H). exact J.
  - intros n v J. unfold exec in H. destruct (up s); [|discriminate]. cbn [negb] in H.
    destruct l; repeat match goal with
      | H : Some _ = Some _ |- _ => injection H as <- <-
      | H : None = Some _ |- _ => discriminate H
      | H : (if ?b then _ else _) = Some _ |- _ => destruct b eqn:?
      | H : match ?x with _ => _ end = Some _ |- _ => destruct x eqn:?
      end; cbn in J; try tauto; try (destruct J as [J|J]; [try discriminate J|try tauto]).
    + injection J as <- <- <-. rewrite (doomed_expired _ s j D) in Heqb0; [discriminate|rewrite Heql; now left|auto].
    + destruct J as [J|[]]. discriminate J.
    + apply in_app_or in J. destruct J as [J|J]; revert J; apply in_gone; discriminate.
Qed.

Lemma doomed_run : forall i ls s s' es, run W ls s = Some (s', es) -> doomed i s ->
  (forall r, In (EGot i r) es -> r = RAborted) /\ (forall n v, ~ In (EAsk i n v) es).
Proof.
  intros i ls. induction ls as [|l ls IH]; intros s s' es H D; cbn in H.
  - injection H as <- <-. cbn. split; intros; tauto.
  - destruct (exec W l s) as [[s1 e1]|] eqn:X; [|discriminate]. destruct (run W ls s1) as [[s2 e2]|] eqn:R; [|discriminate].
    injection H as <- <-. destruct (doomed_step i _ _ _ _ X D) as (D' & P1 & P2). destruct (IH _ _ _ R D') as (Q1 & Q2).
    split; intros; [apply in_app_or in H; destruct H; eauto|]. intro K. apply in_app_or in K. destruct K as [K|K]; [eapply P2; eauto|eapply Q2; eauto].
Qed.

(** ** nothing ends without an answer *)
Lemma quiet_step : forall l s s' e, exec W l s = Some (s', e) -> ~ is_reply l -> W <= length (active s) -> active s <> [] ->
  active s' = active s /\ (forall i, In i (map fst (done s')) -> In i (map fst (done s))) /\
  (forall i, In i (ended_in e) -> In i (map fst (done s))).
Proof.
  intros l s s' e H NR L NE. unfold exec in H. destruct (up s); [|discriminate]. cbn [negb] in H.
  destruct l; repeat match goal with
      | H : Some _ = Some _ |- _ => injection H as <- <-
      | H : None = Some _ |- _ => discriminate H
      | H : (if ?b then _ else _) = Some _ |- _ => destruct b eqn:?
      | H : match ?x with _ => _ end = Some _ |- _ => destruct x eqn:?
      end; cbn; repeat split; auto; try tauto.
  all: try (destruct (o_own o0); cbn; auto).
  all: try (apply Nat.ltb_lt in Heqb; lia).
  all: try (exfalso; apply NR; exact Logic.I).
  all: intros i J; rewrite ?Heql in *; cbn in *; auto; try tauto.
Qed.

Lemma quiet_run : forall ls s s' es, run W ls s = Some (s', es) -> Forall (fun l => ~ is_reply l) ls -> W <= length (active s) -> active s <> [] ->
  active s' = active s /\ forall i, In i (ended_in es) -> In i (map fst (done s)).
Proof.
  induction ls as [|l ls IH]; intros s s' es H F L NE; cbn in H.
  - injection H as <- <-. cbn. split; [auto|intros ? []].
  - destruct (exec W l s) as [[s1 e1]|] eqn:X; [|discriminate]. destruct (run W ls s1) as [[s2 e2]|] eqn:R; [|discriminate].
    injection H as <- <-. inversion F; subst. destruct (quiet_step _ _ _ _ X H1 L NE) as (A & B & C).
    destruct (IH _ _ _ R H2) as (A' & C'); [now rewrite A|now rewrite A|]. split; [congruence|].
    intros i J. rewrite ended_app in J. apply in_app_or in J. destruct J; auto.
Qed.

(** a query in getaddrinfo, with any number of workers *)
Lemma look_step : forall l s s' e i, exec W l s = Some (s', e) -> ~ is_reply l ->
  looking i s -> ~ In i (map fst (done s)) -> ~ In i (map j_id (queue s)) -> begun s i = true ->
  looking i s' /\ ~ In i (map fst (done s')) /\ ~ In i (map j_id (queue s')) /\ begun s' i = true /\ ~ In i (ended_in e).
Proof.
  intros l s s' e i H NR L ND NQ B. destruct (exec_begun W _ _ _ _ H) as (B1 & B2 & B3).
  assert (~ In i (map j_id (queue s'))) as NQ'.
  { intro K. apply in_map_iff in K. destruct K as (j & E & J). destruct (exec_queue W _ _ _ _ H j J) as [K|(o & h & w & -> & -> & _)].
    - apply NQ. apply in_map_iff. eauto.
    - destruct (B2 (j_id j)) as [F _]; [now left|]. rewrite E in F. congruence. }
  assert (looking i s') as L'.
  { unfold looking in *. unfold exec in H. destruct (up s); [|discriminate]. cbn [negb] in H.
    destruct l; repeat match goal with
      | H : Some _ = Some _ |- _ => injection H as <- <-
      | H : None = Some _ |- _ => discriminate H
      | H : (if ?b then _ else _) = Some _ |- _ => destruct b eqn:?
      | H : match ?x with _ => _ end = Some _ |- _ => destruct x eqn:?
      end; cbn; auto.
    - destruct (o_own o0); cbn; auto.
    - rewrite map_app. apply in_or_app. auto.
    - exfalso. apply NR. exact Logic.I. }
  pose proof (exec_pipe W _ _ _ _ H) as P.
  assert (~ In i (map fst (done s'))) as ND'.
  { intro K. apply in_map_iff in K. destruct K as ((i', r) & E & J). cbn in E. subst i'.
    destruct (exec_done W _ _ _ _ H _ _ J) as [K|[(j & K & E & _)|(j & a & K & E & -> & _)]].
    - apply ND. apply in_map_iff. exists (i, r). auto.
    - apply NQ. apply in_map_iff. eauto.
    - unfold exec in H. destruct (up s); [|discriminate]. cbn [negb] in H.
      destruct l; try (apply NR; exact Logic.I); repeat match goal with
      | H : Some _ = Some _ |- _ => injection H; intros; try discriminate; clear H
      | H : None = Some _ |- _ => discriminate H
      | H : (if ?b then _ else _) = Some _ |- _ => destruct b eqn:?
      | H : match ?x with _ => _ end = Some _ |- _ => destruct x eqn:?
      end.
      destruct (done s), (queue s); cbn in *; discriminate. }
  repeat split; auto.
  intro K. assert (forall k, In k (ended_in e) -> In k (map fst (done s)) \/ In k (map j_id (queue s))) as EE.
  { intro k. clear - H NR. unfold exec in H. destruct (up s); [|discriminate]. cbn [negb] in H.
    destruct l; repeat match goal with
      | H : Some _ = Some _ |- _ => injection H as <- <-
      | H : None = Some _ |- _ => discriminate H
      | H : (if ?b then _ else _) = Some _ |- _ => destruct b eqn:?
      | H : match ?x with _ => _ end = Some _ |- _ => destruct x eqn:?
      end; cbn; try tauto.
    rewrite ended_app, !flat_gone. apply in_app_or. }
  destruct (EE i K); auto.
Qed.

Lemma look_run : forall ls s s' es i, run W ls s = Some (s', es) -> Forall (fun l => ~ is_reply l) ls ->
  looking i s -> ~ In i (map fst (done s)) -> ~ In i (map j_id (queue s)) -> begun s i = true ->
  looking i s' /\ ~ In i (ended_in es).
Proof.
  induction ls as [|l ls IH]; intros s s' es i H F A B C D; cbn in H.
  - injection H as <- <-. auto.
  - destruct (exec W l s) as [[s1 e1]|] eqn:X; [|discriminate]. destruct (run W ls s1) as [[s2 e2]|] eqn:R; [|discriminate].
    injection H as <- <-. inversion F; subst. destruct (look_step _ _ _ _ _ X H1 A B C D) as (A1 & B1 & C1 & D1 & E1).
    destruct (IH _ _ _ _ R H2 A1 B1 C1 D1) as (P & Q). split; [auto|]. rewrite ended_app. intro K. apply in_app_or in K. tauto.
Qed.

(** ** every query can end *)
Lemma finish : 1 <= W -> forall n s, 3 * length (queue s) + 2 * length (active s) + length (done s) <= n -> up s = true ->
  exists ls s' es, run W ls s = Some (s', es) /\ Forall automatic ls /\ pipe s' = [] /\ up s' = true /\
    forall i, In i (pipe s) -> exists r, In (EGot i r) es.
Proof.
  intro HW. induction n as [|n IH]; intros s M U.
  - destruct (queue s) eqn:Q, (active s) eqn:A, (done s) eqn:D; cbn in M; try lia.
    exists [], s, []. cbn. unfold pipe. rewrite Q, A, D. repeat split; auto; contradiction.
  - assert (forall l s1 e1, exec W l s = Some (s1, e1) -> automatic l ->
      3 * length (queue s1) + 2 * length (active s1) + length (done s1) <= n -> up s1 = true ->
      (forall i, In i (pipe s) -> In i (pipe s1) \/ exists r, In (EGot i r) e1) ->
      exists ls s' es, run W ls s = Some (s', es) /\ Forall automatic ls /\ pipe s' = [] /\ up s' = true /\
        forall i, In i (pipe s) -> exists r, In (EGot i r) es) as GO.
    { intros l s1 e1 X A M1 U1 P. destruct (IH s1 M1 U1) as (ls & s' & es & R & F & PE & U' & G).
      exists (l :: ls), s', (e1 ++ es). cbn. rewrite X, R. repeat split; auto.
      intros i I. destruct (P i I) as [K|(r & K)]; [destruct (G i K) as (r & K')|]; exists r; apply in_or_app; auto. }
    destruct (done s) as [|(i, r) d] eqn:D.
    + destruct (active s) as [|j a] eqn:A.
      * destruct (queue s) as [|j q] eqn:Q.
        -- exists [], s, []. cbn. unfold pipe. rewrite Q, A, D. repeat split; auto; contradiction.
        -- destruct (expired s j) eqn:X.
           ++ eapply (GO LBegin).
              { unfold exec. rewrite U, Q, A, X. cbn [negb length]. replace (0 <? W) with true by (symmetry; apply Nat.ltb_lt; lia). reflexivity. }
              { exact Logic.I. } { cbn. rewrite A, D. cbn in *. lia. } { exact U. }
              intros i0. unfold pipe. cbn. rewrite D, A, Q. cbn. tauto.
           ++ eapply (GO LBegin).
              { unfold exec. rewrite U, Q, A, X. cbn [negb length]. replace (0 <? W) with true by (symmetry; apply Nat.ltb_lt; lia). reflexivity. }
              { exact Logic.I. } { cbn. rewrite D. cbn in *. lia. } { exact U. }
              intros i0. unfold pipe. cbn. rewrite D, ?A, Q. cbn. tauto.
      * eapply (GO (LReply 0 (AErr 0))).
        { unfold exec. rewrite U, A. cbn [negb nth_error]. reflexivity. }
        { exact Logic.I. } { cbn. rewrite D. cbn in *. lia. } { exact U. }
        intros i. unfold pipe. cbn. rewrite D, A. cbn. tauto.
    + eapply (GO (LRun false)).
      { unfold exec. rewrite U, D. cbn [negb andb]. reflexivity. }
      { exact Logic.I. } { cbn in *. lia. } { exact U. }
      intros k. unfold pipe. cbn. rewrite D. cbn. intros [<-|K]; [right; exists r; auto|auto].
Qed.

End good.
