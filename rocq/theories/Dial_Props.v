(** * C87: connecting a socket *)
From Coq Require Import List Bool Arith Lia.
From Verif Require Import Sock_Model Rsv_Model Dial_Model Dial_Spec Dial_Inv Dial_Good Dial_Fd.
Import ListNotations.

Lemma fills_map : forall k l, Forall2 (fills k) l (map (adopted k) l).
Proof. intros k l. induction l; constructor; auto. apply fills_adopted. Qed.

Lemma in_results : forall i r es, In (EGot i r) es <-> In r (results i es).
Proof.
  intros i r es. unfold results. rewrite in_flat_map. split.
  - intro H. exists (EGot i r). split; [auto|]. cbn. rewrite Nat.eqb_refl. now left.
  - intros (v & V & H). destruct v; cbn in H; try tauto. destruct (i0 =? i) eqn:E; [|destruct H].
    apply Nat.eqb_eq in E. subst. destruct H as [->|[]]. exact V.
Qed.

Lemma got_ended : forall k ls s es i r, run k ls init = Some (s, es) -> In (EGot i r) es -> results i es = [r] /\ ended k es i r.
Proof.
  intros k ls s es i r H K. pose proof (good_run k _ _ _ H) as G. apply in_results in K.
  destruct (g_res _ _ _ G i) as [(o & A & B)|[A|(r' & A & B)]].
  - pose proof (r_got _ _ _ _ (g_op _ _ _ G o A)) as X. rewrite B in X. rewrite X in K. destruct K.
  - destruct (quiet_attempts i es) as (_ & _ & X); [intros v V E; pose proof (g_new _ _ _ G v i V E); lia|]. rewrite X in K. destruct K.
  - rewrite A in K. destruct K as [->|[]]. auto.
Qed.

(** A connect ends at most once. *)
Theorem C87_once : forall k ls s es i, run k ls init = Some (s, es) -> length (results i es) <= 1.
Proof.
  intros k ls s es i H. destruct (results i es) as [|r [|r' l]] eqn:R; cbn; try lia.
  destruct (got_ended k _ _ _ i r H) as [A _]; [apply in_results; rewrite R; now left|]. rewrite R in A. discriminate.
Qed.
Print Assumptions C87_once.

(** The endpoints are attempted in their order, each once, with what is missing in their protocol filled in for the class of the socket. *)
Theorem C87_attempts : forall k ls s es i b l, run k ls init = Some (s, es) -> In (EStart i b l) es ->
  exists eps n, Forall2 (fills k) l eps /\ attempts i es = firstn n eps.
Proof.
  intros k ls s es i b l H K. pose proof (good_run k _ _ _ H) as G. exists (map (adopted k) l).
  destruct (g_res _ _ _ G i) as [(o & A & <-)|[A|(r & A & (b' & l' & ST & (n & B) & _))]].
  - pose proof (g_op _ _ _ G o A) as R. destruct (r_start _ _ _ _ R) as (l' & P & Q & _).
    destruct (g_start _ _ _ G _ _ _ _ _ K P) as [_ <-]. destruct (r_phase _ _ _ _ R) as [(P1 & _ & P2 & _)|(_ & P2 & _)].
    + exists 0. split; [apply fills_map|exact P2].
    + rewrite Q in P2. eexists. split; [apply fills_map|exact P2].
  - exfalso. pose proof (g_new _ _ _ G _ i K eq_refl). lia.
  - destruct (g_start _ _ _ G _ _ _ _ _ K ST) as [<- <-]. exists n. split; [apply fills_map|exact B].
Qed.
Print Assumptions C87_attempts.

(** Success means: the attempts up to the one before failed, the last one succeeded, and it is the one reported. *)
Theorem C87_success : forall k ls s es i e, run k ls init = Some (s, es) -> In (EGot i (COk e)) es ->
  exists b l eps n errs, In (EStart i b l) es /\ Forall2 (fills k) l eps /\ nth_error eps n = Some e /\
    attempts i es = firstn (S n) eps /\ outcomes i es = errs ++ [None] /\ length errs = n /\ Forall (fun r => r <> None) errs.
Proof.
  intros k ls s es i e H K. destruct (got_ended k _ _ _ _ _ H K) as (_ & b & l & ST & _ & n & A & B & errs & C & D & F).
  exists b, l, (map (adopted k) l), n, errs. repeat split; auto. apply fills_map.
Qed.
Print Assumptions C87_success.

(** An error means: there was nothing to connect to; or all were attempted and failed, and it is the error of the last attempt; or a connect to
    a sequence was cancelled by a signal, the socket was closed during it, or no descriptor could be opened. *)
Theorem C87_error : forall k ls s es i x, run k ls init = Some (s, es) -> In (EGot i (CErr x)) es ->
  exists b l eps, In (EStart i b l) es /\ Forall2 (fills k) l eps /\
   ((l = [] /\ x = NotFound /\ b = false) \/
    (l <> [] /\ attempts i es = eps /\ Forall (fun r => r <> None) (outcomes i es) /\ last (outcomes i es) None = Some x) \/
    (x = Aborted /\ b = false /\ (stopped_during i es \/ closed_during i es \/ exists e y, In (EFail i e y) es))).
Proof.
  intros k ls s es i x H K. destruct (got_ended k _ _ _ _ _ H K) as (_ & b & l & ST & _ & E).
  exists b, l, (map (adopted k) l). split; [auto|]. split; [apply fills_map|]. cbn zeta in E.
  destruct E as [(F & [(A & B & C)|[(A & B & C)|(A & B & C)]])|(A & B & C)].
  - left. destruct l; [auto|discriminate].
  - right; left. split; [intros ->; apply A; reflexivity|auto].
  - right; right. auto.
  - right; right. auto.
Qed.
Print Assumptions C87_error.

(** When success is reported, and nobody has closed the socket meanwhile, the socket is the one that was connected; for a sequence it
    has the protocol of the endpoint reported. *)
Theorem C87_connected : forall k ls s es ok s' e i ep b l, run k ls init = Some (s, es) -> exec k (LRun ok) s = Some (s', e) ->
  In (EGot i (COk ep)) e -> In (EStart i b l) es -> ~ closed_during i es ->
  exists d, fd s' = Some d /\ In (ETry i (d_id d) ep) es /\ (b = false -> d_proto d = e_proto ep).
Proof.
  intros k ls s es ok s' e i ep b l H X K ST NC. pose proof (good_run k _ _ _ H) as G. cbn [exec] in X.
  destruct (op s) as [o|] eqn:O; [|discriminate]. destruct (o_phase o) as [|r] eqn:PH; [discriminate|]. injection X as X.
  pose proof (g_op _ _ _ G o O) as R. destruct (r_start _ _ _ _ R) as (l' & P1 & P2 & P3).
  assert (forall s2 r0, finish s2 o r0 = (s', e) -> r0 = COk ep /\ o_id o = i /\ fd s' = fd s2) as FI.
  { intros s2 r0 E. injection E as <- <-. destruct K as [K|[]]. injection K as <- <-. auto. }
  assert (forall s2 o2 e2 ok2, next s2 o2 e2 ok2 = (s', e) -> False) as NX.
  { intros s2 o2 e2 ok2 E. unfold next in E. destruct ok2; injection E as <- <-; apply in_app_or in K;
    destruct K as [K|K]; [destruct (fd s2); cbn in K; [destruct K as [K|[]]; discriminate K|destruct K]|cbn in K; intuition discriminate|destruct (fd s2); cbn in K; [destruct K as [K|[]]; discriminate K|destruct K]|cbn in K; intuition discriminate]. }
  assert (r = None /\ nth_error (o_eps o) (o_idx o) = Some ep /\ o_id o = i /\ fd s' = fd s) as (-> & NE & <- & F).
  { destruct (o_single o) eqn:SI.
    - destruct (P3 eq_refl) as [_ IX]. rewrite IX. unfold single in X. destruct r as [x|].
      + destruct (nth_error (o_eps o) 0); destruct (FI _ _ X) as [E _]; discriminate E.
      + destruct (nth_error (o_eps o) 0); destruct (FI _ _ X) as (E & ? & ?); [injection E as ->; auto|discriminate E].
    - unfold process in X. destruct (nth_error (o_eps o) (o_idx o)) as [e0|]; [|destruct (FI _ _ X) as [E _]; discriminate E].
      destruct (fd s) as [d|] eqn:D; [|destruct (FI _ _ X) as [E _]; discriminate E].
      destruct r as [x|].
      + destruct (o_stop o); [destruct (FI _ _ X) as [E _]; discriminate E|].
        destruct (nth_error (o_eps o) (S (o_idx o))); [exfalso; exact (NX _ _ _ _ X)|destruct (FI _ _ X) as [E _]; discriminate E].
      + destruct (FI _ _ X) as (E & ? & F). injection E as ->. rewrite F, D. auto. }
  destruct (g_start _ _ _ G _ _ _ _ _ ST P1) as [-> _].
  destruct (r_conn _ _ _ _ R (or_intror PH) NC) as (d & e0 & A & B & C & D). rewrite NE in B. injection B as <-.
  exists d. rewrite F. auto.
Qed.
Print Assumptions C87_connected.

(** Every descriptor that is opened is closed at most once; at any moment at most one is open, the one of the socket. *)
Theorem C87_descriptors : forall k ls s es, run k ls init = Some (s, es) ->
  NoDup (opened es) /\ NoDup (closed es) /\ (forall d, In d (closed es) -> In d (opened es)) /\
  forall d, In d (opened es) -> In d (closed es) \/ exists f, fd s = Some f /\ d_id f = d.
Proof.
  intros k ls s es H. destruct (descs_run k _ _ _ H) as (A & B & C & D & F). split; [auto|]. split; [auto|]. split.
  - intros d I. apply A. apply D in I. tauto.
  - intros d I. apply A in I. destruct (fd s) as [f|] eqn:FD; [|left; apply D; auto].
    destruct (Nat.eq_dec (d_id f) d) as [Q|N]; [right; eauto|left; apply D; auto].
Qed.
Print Assumptions C87_descriptors.

(** Every connect can end without help of the user, at every moment. *)
Theorem C87_ends : forall k ls s es i b l, run k ls init = Some (s, es) -> In (EStart i b l) es ->
  exists ls' s' es' r, run k ls' s = Some (s', es') /\ Forall automatic ls' /\ In (EGot i r) (es ++ es').
Proof.
  intros k ls s es i b l H K. pose proof (good_run k _ _ _ H) as G.
  destruct (g_res _ _ _ G i) as [(o & A & <-)|[A|(r & A & _)]].
  - destruct (run_end k s o A) as (ls' & s' & es' & R & F & r & B). exists ls', s', es', r. repeat split; auto. apply in_or_app. auto.
  - exfalso. pose proof (g_new _ _ _ G _ i K eq_refl). lia.
  - exists [], s, [], r. repeat split; auto. apply in_or_app. left. apply in_results. rewrite A. now left.
Qed.
Print Assumptions C87_ends.

(** After the coroutine was cancelled, except with type total, no further attempt begins. *)
Theorem C87_stop : forall k ls s es c s1 e1 i ls' s' es', run k ls init = Some (s, es) -> exec k (LStop c) s = Some (s1, e1) -> In (EStop i c) e1 ->
  c <> Total -> run k ls' s1 = Some (s', es') -> attempts i (e1 ++ es') = [].
Proof.
  intros k ls s es c s1 e1 i ls' s' es' H X K NT R. pose proof (good_run k _ _ _ H) as G. cbn [exec] in X.
  destruct (op s) as [o|] eqn:O; [|discriminate].
  assert (passes o c = true) as PS by (unfold passes; destruct c; try congruence; apply orb_true_r). rewrite PS in X.
  destruct (abort _) as [o' ea] eqn:A. injection X as <- <-. destruct (abort_id _ _ _ A) as (A1 & A2 & _ & A4). cbn in A1, A2.
  assert (o_id o = i) as <-.
  { destruct K as [K|K]; [injection K as ->; reflexivity|]. unfold abort in A. cbn in A. destruct (o_phase o); injection A as <- <-; [destruct K as [K|[]]; discriminate K|destruct K]. }
  rewrite att_app. replace (attempts (o_id o) (EStop (o_id o) c :: ea)) with (attempts (o_id o) ea) by reflexivity. rewrite A4.
  apply (cut_run k _ _ _ _ _ R). split; [apply (r_id _ _ _ _ (g_op _ _ _ G o O))|]. cbn. intros o2 E _. injection E as <-. exact A2.
Qed.
Print Assumptions C87_stop.

Definition dead (i : nat) (s : state) : Prop := i < count s /\ forall o, op s = Some o -> o_id o = i -> o_stop o = true /\ o_phase o = Posted (Some Aborted).

Lemma dead_step : forall k i l s s' e, exec k l s = Some (s', e) -> dead i s -> dead i s' /\ forall r, In (EGot i r) e -> r = CErr Aborted.
Proof.
  intros k i l s s' e H CU. pose proof CU as [C1 C2].
  assert (forall o o' ea, abort o = (o', ea) -> o_id o' = o_id o /\ o_stop o' = o_stop o /\ (o_phase o = Posted (Some Aborted) -> o_phase o' = Posted (Some Aborted)) /\ forall j r, ~ In (EGot j r) ea) as AB.
  { intros o o' ea A. unfold abort in A. destruct (o_phase o) eqn:P; injection A as <- <-; cbn; repeat split; auto; try congruence; intros j r; intuition discriminate. }
  assert (forall f j r, ~ In (EGot j r) (closing f)) as CL by (intros [d|] j r; cbn; intuition discriminate).
  assert (forall o s2 r0, op s = Some o -> finish s2 o r0 = (s', e) -> count s2 = count s -> (o_id o = i -> r0 = CErr Aborted) -> dead i s' /\ forall r, In (EGot i r) e -> r = CErr Aborted) as FI.
  { intros o s2 r0 O E HC HR. injection E as <- <-. split; [split; [cbn; lia|discriminate]|]. intros r [K|[]]. injection K as K1 K2. rewrite <- K2. auto. }
  assert (forall s2 o2 e2 ok2, next s2 o2 e2 ok2 = (s', e) -> count s2 >= count s -> o_id o2 <> i -> dead i s' /\ forall r, In (EGot i r) e -> r = CErr Aborted) as NX.
  { intros s2 o2 e2 ok2 E HC N. destruct (next_shape _ _ _ _ _ _ E) as (P & (p & Q) & _). split.
    - split; [lia|]. intros o3 E3 I3. rewrite Q in E3. injection E3 as <-. cbn in I3. congruence.
    - intros r K. exfalso. unfold next in E. destruct ok2; injection E as <- <-; apply in_app_or in K; (destruct K as [K|K]; [exact (CL _ _ _ K)|cbn in K; intuition discriminate]). }
  destruct l; cbn [exec] in H.
  - destruct (fd s) as [d|], ok; injection H as <- <-; (split; [split; auto|cbn; intros; intuition discriminate]).
  - destruct (fd s) as [d|]; [|discriminate]. injection H as <- <-; (split; [split; auto|cbn; intros; tauto]).
  - destruct (op s) as [o|] eqn:O.
    + destruct (abort o) as [o' ea] eqn:A. injection H as <- <-. destruct (AB _ _ _ A) as (A1 & A2 & A3 & A4). split.
      * split; [exact C1|]. cbn. intros o2 E I. injection E as <-. rewrite A1 in I. destruct (C2 o eq_refl I). rewrite A2. auto.
      * intros r [K|K]; [discriminate K|]. apply in_app_or in K. destruct K as [K|K]; [destruct (CL _ _ _ K)|destruct (A4 _ _ K)].
    + injection H as <- <-. split; [split; [exact C1|discriminate]|]. intros r K. destruct (CL _ _ _ K).
  - destruct (op s) as [o|] eqn:O.
    + destruct (abort o) as [o' ea] eqn:A. injection H as <- <-. destruct (AB _ _ _ A) as (A1 & A2 & A3 & A4). split.
      * split; [exact C1|]. cbn. intros o2 E I. injection E as <-. rewrite A1 in I. destruct (C2 o eq_refl I). rewrite A2. auto.
      * intros r [K|K]; [discriminate K|]. destruct (A4 _ _ K).
    + injection H as <- <-. split; [exact CU|intros r []].
  - destruct (op s) as [o|] eqn:O; [discriminate|]. destruct (fd s) as [d|] eqn:D.
    + injection H as <- <-. split; [split; cbn; [lia|intros o E I; injection E as <-; cbn in I; lia]|cbn; intros; intuition discriminate].
    + destruct (attempt _ _ _ ok) as [s1 e1] eqn:A. injection H as <- <-. destruct (attempt_shape _ _ _ _ _ _ A) as (P & (p & Q) & R). cbn in P, Q.
      split; [split; [lia|]|]. { intros o E I. rewrite Q in E. injection E as <-. cbn in I. lia. }
      intros r K. exfalso. destruct ok; injection A as <- <-; cbn in K; intuition discriminate.
  - destruct (op s) as [o|] eqn:O; [discriminate|]. destruct (map (adopted k) l) as [|e1 eps].
    + injection H as <- <-. split; [split; cbn; [lia|intros o E I; injection E as <-; cbn in I; lia]|cbn; intros; intuition discriminate].
    + destruct (next _ _ _ ok) as [s1 e2] eqn:A. injection H as <- <-. destruct (next_shape _ _ _ _ _ _ A) as (P & (p & Q) & R). cbn in P, Q.
      split; [split; [lia|]|]. { intros o E I. rewrite Q in E. injection E as <-. cbn in I. lia. }
      intros r K. exfalso. unfold next in A. destruct K as [K|K]; [discriminate K|]. destruct ok; injection A as <- <-; apply in_app_or in K; (destruct K as [K|K]; [exact (CL _ _ _ K)|cbn in K; intuition discriminate]).
  - destruct (op s) as [o|] eqn:O; [|discriminate]. destruct (passes o c).
    + destruct (abort _) as [o' ea] eqn:A. injection H as <- <-. destruct (AB _ _ _ A) as (A1 & A2 & A3 & A4). cbn in A1, A2, A3. split.
      * split; [exact C1|]. cbn. intros o2 E I. injection E as <-. rewrite A1 in I. destruct (C2 o eq_refl I). rewrite A2. auto.
      * intros r [K|K]; [discriminate K|]. destruct (A4 _ _ K).
    + injection H as <- <-. split; [split; [exact C1|rewrite O; exact C2]|]. cbn. intros; intuition discriminate.
  - destruct (op s) as [o|] eqn:O; [|discriminate]. destruct (o_phase o) eqn:PH; [|discriminate]. injection H as <- <-.
    split; [|cbn; intros; intuition discriminate]. split; [exact C1|]. cbn. intros o2 E I. injection E as <-. cbn in *.
    destruct (C2 o eq_refl I). congruence.
  - destruct (op s) as [o|] eqn:O; [|discriminate]. destruct (o_phase o) as [|r] eqn:PH; [discriminate|]. injection H as H.
    assert (o_id o = i -> o_stop o = true /\ r = Some Aborted) as RA.
    { intro I. destruct (C2 o eq_refl I) as [X Y]. split; [auto|congruence]. }
    destruct (o_single o).
    + unfold single in H. destruct r as [x|], (nth_error (o_eps o) 0); apply (FI o _ _ eq_refl H eq_refl); intro I; destruct (RA I) as [_ X]; congruence.
    + unfold process in H. destruct (nth_error (o_eps o) (o_idx o)); [|apply (FI o _ _ eq_refl H eq_refl); intro I; destruct (RA I) as [_ ->]; reflexivity].
      destruct (fd s); [|apply (FI o _ _ eq_refl H eq_refl); auto].
      destruct r as [x|]; [|apply (FI o _ _ eq_refl H eq_refl); intro I; destruct (RA I); discriminate].
      destruct (o_stop o) eqn:ST; [apply (FI o _ _ eq_refl H eq_refl); auto|].
      destruct (nth_error (o_eps o) (S (o_idx o))).
      * eapply NX; [exact H|lia|]. cbn. intro I. destruct (RA I). congruence.
      * apply (FI o _ _ eq_refl H eq_refl). intro I. destruct (RA I). congruence.
Qed.

(** If the attempt had not been answered when the coroutine was cancelled, the result is that it was aborted. *)
Theorem C87_stop_result : forall k ls s es c s1 e1 i ls' s' es' r, run k ls init = Some (s, es) -> exec k (LStop c) s = Some (s1, e1) -> In (EStop i c) e1 ->
  c <> Total -> unanswered i es -> run k ls' s1 = Some (s', es') -> In (EGot i r) es' -> r = CErr Aborted.
Proof.
  intros k ls s es c s1 e1 i ls' s' es' r H X K NT UN R J. pose proof (good_run k _ _ _ H) as G. cbn [exec] in X.
  destruct (op s) as [o|] eqn:O; [|discriminate]. pose proof (g_op _ _ _ G o O) as RU.
  assert (passes o c = true) as PS by (unfold passes; destruct c; try congruence; apply orb_true_r). rewrite PS in X.
  destruct (abort _) as [o' ea] eqn:A. injection X as <- <-.
  assert (o_id o = i) as <-.
  { destruct K as [K|K]; [injection K as ->; reflexivity|]. unfold abort in A. cbn in A. destruct (o_phase o); injection A as <- <-; [destruct K as [K|[]]; discriminate K|destruct K]. }
  assert (o_phase o = Waiting) as PH.
  { destruct (r_phase _ _ _ _ RU) as [(_ & _ & A1 & A2)|(A1 & A2 & A3)]; unfold unanswered in UN.
    - rewrite A1, A2 in UN. cbn in UN. lia.
    - destruct (o_phase o); [reflexivity|]. destruct A3 as (errs & B1 & B2 & _). rewrite B1, A2, app_length, firstn_length in UN. cbn [length] in UN. lia. }
  assert (dead (o_id o) (mk (fd s) (fresh s) (count s) (Some o'))) as D.
  { split; [apply (r_id _ _ _ _ RU)|]. cbn. intros o2 E _. injection E as <-. unfold abort in A. cbn in A. rewrite PH in A. injection A as <- <-. auto. }
  revert D R J. generalize (mk (fd s) (fresh s) (count s) (Some o')). intro s0. clear - r. revert s0 es'. induction ls' as [|l ls' IH]; intros s0 es' D R J; cbn in R.
  - injection R as <- <-. destruct J.
  - destruct (exec k l s0) as [[s2 e2]|] eqn:X; [|discriminate]. destruct (run k ls' s2) as [[s3 e3]|] eqn:Y; [|discriminate].
    injection R as <- <-. destruct (dead_step k _ _ _ _ _ X D) as [D' E]. apply in_app_or in J. destruct J; [auto|eapply IH; eauto].
Qed.
Print Assumptions C87_stop_result.

(** The connect to one endpoint keeps an open socket with everything that was set. *)
Theorem C87_keeps : forall k s d e ok ls s' es, op s = None -> fd s = Some d -> run k (LConnect1 e ok :: ls) s = Some (s', es) -> Forall calm ls -> fd s' = Some d.
Proof.
  intros k s d e ok ls s' es O D R F. cbn [run exec] in R. rewrite O, D in R.
  match type of R with context [run k ls ?x] => set (s0 := x) in R end.
  assert (fd s0 = Some d /\ (forall o, op s0 = Some o -> o_single o = true)) as [A B].
  { split; [reflexivity|]. unfold s0. cbn. intros o E. injection E as <-. reflexivity. }
  destruct (run k ls s0) as [[s2 e2]|] eqn:Y; [|discriminate]. injection R as <- _. clearbody s0. clear - A B Y F. revert s0 A B e2 Y.
  induction ls as [|l ls IH]; intros s0 A B e2 Y; cbn in Y; [injection Y as <- _; exact A|].
  destruct (exec k l s0) as [[s1 e1]|] eqn:X; [|discriminate]. destruct (run k ls s1) as [[s3 e3]|] eqn:Z; [|discriminate]. injection Y as <- _.
  assert (calm l /\ Forall calm ls) as [CA F'] by (inversion F; auto).
  assert (fd s1 = Some d /\ (forall o, op s1 = Some o -> o_single o = true)) as [A' B'].
  { assert (forall o o' ea, abort o = (o', ea) -> o_single o' = o_single o) as AB by (intros o o' ea E; unfold abort in E; destruct (o_phase o); injection E as <- _; reflexivity).
    destruct l; try (exfalso; exact CA); cbn [exec] in X; destruct (op s0) as [o|] eqn:O; try discriminate.
    - destruct (abort o) as [o' ea] eqn:E. injection X as <- _. split; [exact A|]. cbn. intros o2 E2. injection E2 as <-. rewrite (AB _ _ _ E). auto.
    - injection X as <- _. split; [auto|]. rewrite O. discriminate.
    - destruct (passes o c); [destruct (abort _) as [o' ea] eqn:E|]; injection X as <- _; (split; [exact A|]).
      + cbn. intros o2 E2. injection E2 as <-. rewrite (AB _ _ _ E). cbn. auto.
      + rewrite O. auto.
    - destruct (o_phase o); [|discriminate]. injection X as <- _. split; [exact A|]. cbn. intros o2 E2. injection E2 as <-. cbn. auto.
    - destruct (o_phase o) as [|r]; [discriminate|]. rewrite (B o eq_refl) in X. injection X as X. unfold single in X.
      destruct r, (nth_error (o_eps o) 0); injection X as <- _; (split; [exact A|discriminate]). }
  eapply IH; eauto.
Qed.
Print Assumptions C87_keeps.

(** ** Concrete histories *)
Definition v6 : ep := E (P AF_INET6 0 0) 60.
Definition v4 : ep := E (P AF_INET 0 0) 40.
Definition v6' : ep := E (P AF_INET6 1 6) 60.
Definition v4' : ep := E (P AF_INET 1 6) 40.

Example C87_nonvacuous : exists s, run Stream [LConnect [v6; v4] None; LDone (Some 111); LRun None; LDone None; LRun None] init = Some (s,
  [EStart 0 false [v6; v4]; EOpen 0 (P AF_INET6 1 6); ETry 0 0 v6'; EAnswer 0 (Some (Sys 111));
   EClose 0; EOpen 1 (P AF_INET 1 6); ETry 0 1 v4'; EAnswer 0 None; EGot 0 (COk v4')]).
Proof. eexists. reflexivity. Qed.
Example C87_nonvacuous_stop : exists s es s1 e1 s' es', run Stream [LConnect [v6; v4] None] init = Some (s, es) /\ unanswered 0 es /\
  exec Stream (LStop All) s = Some (s1, e1) /\ In (EStop 0 All) e1 /\ run Stream [LRun None] s1 = Some (s', es') /\ In (EGot 0 (CErr Aborted)) es'.
Proof. eexists _, _, _, _, _, _. repeat split; [cbn; unfold unanswered; cbn; lia|now left|now left]. Qed.
Example C87_nonvacuous_keeps : exists s d s' es, run Stream [LOpen (P AF_INET 1 6) None; LOption 9] init = Some (s, [EOpen 0 (P AF_INET 1 6)]) /\
  op s = None /\ fd s = Some d /\ d_opts d = [9] /\ run Stream [LConnect1 v4 None; LDone None; LRun None] s = Some (s', es) /\ In (EGot 0 (COk v4')) es.
Proof. eexists _, _, _, _. repeat split. cbn. tauto. Qed.

(** ** What is false of the code *)

(** "cancel() ends a connect": with a sequence it ends the attempt, and the next one begins. *)
Theorem C87_cancel_refuted : exists ls s es, run Stream ls init = Some (s, es) /\ In (ECancel 0) es /\
  In (EAnswer 0 (Some Aborted)) es /\ In (EGot 0 (COk v4')) es /\ ~ stopped_during 0 es.
Proof.
  exists [LConnect [v6; v4] None; LCancel; LRun None; LDone None; LRun None]. eexists _, _. split; [reflexivity|].
  repeat split; try (cbn; tauto). intros (c & K). cbn in K. intuition discriminate.
Qed.
Print Assumptions C87_cancel_refuted.

(** "close() ends a connect": not if the socket is opened again before the connect has noticed. *)
Theorem C87_close_refuted : exists ls s es, run Stream ls init = Some (s, es) /\ In (EShut 0) es /\ In (EGot 0 (COk v4')) es.
Proof.
  exists [LConnect [v6; v4] None; LClose; LOpen (P AF_INET 1 6) None; LRun None; LDone None; LRun None]. eexists _, _. split; [reflexivity|].
  repeat split; cbn; tauto.
Qed.
Print Assumptions C87_close_refuted.

(** "Cancelling the coroutine ends a connect": the type total is ignored by the connect to a sequence. *)
Theorem C87_total_refuted : exists ls s es, run Stream ls init = Some (s, es) /\ In (EStop 0 Total) es /\ In (EGot 0 (COk v4')) es.
Proof.
  exists [LConnect [v6; v4] None; LStop Total; LDone (Some 111); LRun None; LDone None; LRun None]. eexists _, _. split; [reflexivity|].
  repeat split; cbn; tauto.
Qed.
Print Assumptions C87_total_refuted.

(** "All endpoints are attempted before an error is reported, which is that of an attempt": if the system does not know the family of an endpoint, the
    following ones are not attempted, and the error says that somebody cancelled. *)
Theorem C87_family_refuted : exists ls s es, run Stream ls init = Some (s, es) /\ In (EStart 0 false [v6; v4]) es /\
  In (EGot 0 (CErr Aborted)) es /\ attempts 0 es = [v6'] /\ outcomes 0 es = [Some (Sys 97)] /\
  ~ stopped_during 0 es /\ ~ closed_during 0 es /\ ~ In (ECancel 0) es.
Proof.
  exists [LConnect [v6; v4] (Some 97); LRun None]. eexists _, _. split; [reflexivity|].
  split; [now left|]. split; [cbn; tauto|]. split; [reflexivity|]. split; [reflexivity|].
  split; [intros (c & K); cbn in K; intuition discriminate|]. split; intro K; cbn in K; intuition discriminate.
Qed.
Print Assumptions C87_family_refuted.

(** "Options and the address that was bound stay": the connect to a sequence closes an open socket first. *)
Theorem C87_options_refuted : exists ls s es d, run Stream ls init = Some (s, es) /\ In (LOption 9) ls /\ ~ In LClose ls /\
  In (EGot 0 (COk v4')) es /\ fd s = Some d /\ d_opts d = [] /\ In (EClose 0) es.
Proof.
  exists [LOpen (P AF_INET 1 6) None; LOption 9; LConnect [v4] None; LDone None; LRun None]. eexists _, _, _. split; [reflexivity|].
  repeat split; try (cbn; tauto). cbn. intuition discriminate.
Qed.
Print Assumptions C87_options_refuted.
