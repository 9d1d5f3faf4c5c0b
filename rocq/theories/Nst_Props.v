(** * C78: combinators inside combinators
    [t] is any nest of gather, join and race over operations ([wf]: each operation occurs once
    and no combinator is empty), [ls] any history of completions and cancellations, [tr] what
    happened.  [ends] (Nst_Spec) says when, and with what, each part of [t] ends. *)
From Coq Require Import List Bool Arith Lia.
From Verif Require Import Nst_Model Nst_Spec Nst_Proofs.
Import ListNotations.

Section Props.
Context {V E : Type}.
Notation tree := (tree V E).
Notation out := (out V E).
Notation event := (event V E).
Notation comp := (comp V E).
Notation st := (st V E).
Notation label := (label V E).

(** Every operation is started at most once, completes at most once and only if it was started;
    the awaiting coroutine continues at most once, and nothing happens after that. *)
Theorem C78_once (t : tree) (ls : list label) s (tr : list event) :
  wf t -> await t ls = Some (s, tr) ->
  NoDup (started tr) /\ NoDup (map fst (dones tr)) /\
  incl (started tr) (leaves t) /\ incl (map fst (dones tr)) (started tr) /\
  (results tr = [] \/ exists tr0 o, tr = tr0 ++ [EResult o] /\ results tr0 = []).
Proof.
  intros Hwf Hrun. pose proof (await_inv t ls s tr Hwf Hrun) as (I1 & I2 & I3 & I4 & I5).
  repeat split; auto.
  - intros id Hid. apply I1. apply touches_in. auto.
  - destruct s as [s|]; [left; apply I5|]. destruct I5 as (tr0 & n & o & H1 & H2 & _). right. eauto.
Qed.

(** The awaiting coroutine gets the outcome that the specification gives, when the specification
    says that the whole has ended; never an empty one. *)
Theorem C78_result (t : tree) (ls : list label) s (tr : list event) :
  wf t -> await t ls = Some (s, tr) ->
  results tr = match ends tr t with Some (_, o) => [o] | None => [] end /\ ~ In OUndef (results tr).
Proof.
  intros Hwf Hrun. pose proof (await_inv t ls s tr Hwf Hrun) as (I1 & I2 & I3 & I4 & I5).
  destruct s as [s|].
  - destruct I5 as [HW Hr]. rewrite Hr, (W_ends _ _ _ HW). auto.
  - destruct I5 as (tr0 & n & o & -> & H2 & H3). rewrite results_app, H2, H3. cbn. split; [reflexivity|].
    intros [->|[]]. destruct Hwf as [_ Hf]. apply (ends_bound _ t Hf) in H3. tauto.
Qed.

(** It continues exactly when no operation that was started is unfinished: not before (so nothing
    it awaits outlives the await), and not later. *)
Theorem C78_structured (t : tree) (ls : list label) s (tr : list event) :
  wf t -> await t ls = Some (s, tr) ->
  (results tr <> [] <-> forall id, ~ pending tr id).
Proof.
  intros Hwf Hrun. pose proof (await_inv t ls s tr Hwf Hrun) as (I1 & I2 & I3 & I4 & I5).
  destruct s as [s|].
  - destruct I5 as [HW Hr]. rewrite Hr. split; [tauto|]. intros H. destruct (W_begun _ _ _ HW) as (id & _ & H2).
    apply (W_waits _ _ _ HW) in H2 as [_ H2]. exfalso. exact (H id H2).
  - destruct I5 as (tr0 & n & o & H1 & H2 & H3). split; [|intros _; subst tr; rewrite results_app; cbn; destruct (results tr0); discriminate].
    intros _ id [H4 H5]. apply H5. eapply ends_quiet; eauto. apply I1. apply touches_in. auto.
Qed.

(** All that is started is started by the await itself. *)
Theorem C78_starts (t : tree) (ls : list label) s (tr : list event) s0 tr0 :
  wf t -> await t ls = Some (s, tr) -> await t [] = Some (s0, tr0) -> started tr = started tr0.
Proof.
  intros Hwf Hrun H0. revert s tr Hrun. induction ls as [|l ls IH] using rev_ind; intros s tr Hrun.
  - congruence.
  - rewrite await_app in Hrun. destruct (await t ls) as [[s1 e1]|] eqn:H1; [|discriminate]. cbn in Hrun.
    pose proof (await_inv t ls s1 e1 Hwf H1) as (_ & _ & _ & _ & I5).
    specialize (IH _ _ eq_refl).
    destruct (step s1 l) as [[s2 e2]|] eqn:Hst; [|discriminate]. injection Hrun as <- <-. rewrite app_nil_r, started_app, IH.
    assert (G : started e2 = []); [|rewrite G; apply app_nil_r].
    destruct s1 as [s1|]; [|discriminate]. destruct I5 as [HW _]. destruct Hwf as [Hn Hf].
    destruct l as [id x|c]; cbn in Hst.
    + destruct (deliver id x s1) as [[e r]|] eqn:Hd; [|discriminate]. destruct (answer r) as [s3 e3] eqn:Ha. injection Hst as <- <-.
      destruct (deliver_ok id x t Hf Hn _ _ _ HW Hd) as (_ & _ & (sg & Hs & Ho) & _). cbn in Hs. subst e.
      rewrite started_app. destruct (done_cons id x sg Ho) as (-> & _). destruct r; cbn in Ha; injection Ha as <- <-; reflexivity.
    + injection Hst as <- <-. apply sigs_touches. apply signal_only.
Qed.

(** While it waits, exactly the unfinished operations can complete, and a completion is recorded
    as such. *)
Theorem C78_enabled (t : tree) (ls : list label) s (tr : list event) id (x : comp) :
  wf t -> await t ls = Some (Some s, tr) ->
  (await t (ls ++ [LComplete id x]) <> None <-> pending tr id) /\
  (forall s1 tr1, await t (ls ++ [LComplete id x]) = Some (s1, tr1) -> dones tr1 = dones tr ++ [(id, x)]).
Proof.
  intros Hwf Hrun. pose proof (await_inv t ls _ tr Hwf Hrun) as (I1 & _ & _ & _ & HW & _). destruct Hwf as [Hn Hf].
  rewrite await_app, Hrun. cbn [run step]. split.
  - split.
    + intros H. destruct (deliver id x s) as [[e r]|] eqn:Hd; [|tauto].
      destruct (deliver_ok id x t Hf Hn _ _ _ HW Hd) as (_ & H1 & _). exact H1.
    + intros Hp. pose proof (deliver_enabled id x s) as He.
      destruct (deliver id x s) as [[e r]|]; [destruct (answer r); discriminate|].
      exfalso. apply He; [|reflexivity]. apply (W_waits _ _ _ HW). split; [|exact Hp]. apply I1, touches_in. left. apply Hp.
  - intros s1 tr1. destruct (deliver id x s) as [[e r]|] eqn:Hd; [|discriminate].
    destruct (answer r) as [s2 e2] eqn:Ha. intros [= <- <-].
    destruct (deliver_ok id x t Hf Hn _ _ _ HW Hd) as (_ & _ & (sg & Hs & Ho) & _). cbn in Hs. subst e.
    rewrite app_nil_r, !dones_app. destruct (done_cons id x sg Ho) as (_ & -> & _). f_equal.
    destruct r; cbn in Ha; injection Ha as <- <-; reflexivity.
Qed.

(** It does not hang: whatever the unfinished operations end with, once they have completed the
    awaiting coroutine continues. *)
Theorem C78_completes (t : tree) (ls : list label) s (tr : list event) (f : nat -> comp) :
  wf t -> await t ls = Some (s, tr) ->
  exists ids tr1, await t (ls ++ map (fun id => LComplete id (f id)) ids) = Some (None, tr1).
Proof.
  intros Hwf. remember (length (leaves t) - length (dones tr)) as m eqn:Hm.
  revert ls s tr Hm. induction m as [m IH] using lt_wf_ind; intros ls s tr Hm Hrun.
  destruct s as [s|]; [|exists [], tr; rewrite app_nil_r; exact Hrun].
  pose proof (await_inv t ls _ tr Hwf Hrun) as (I1 & _ & I3 & I4 & HW & _).
  destruct (W_begun _ _ _ HW) as (id & H1 & H2). apply (W_waits _ _ _ HW) in H2 as [_ H2].
  destruct (C78_enabled t ls s tr id (f id) Hwf Hrun) as [H3 H4].
  pose proof (proj2 H3 H2) as H5. destruct (await t (ls ++ [LComplete id (f id)])) as [[s1 tr1]|] eqn:Hr; [|tauto].
  specialize (H4 _ _ eq_refl).
  assert (Hlt : length (dones tr) < length (leaves t)).
  { rewrite <- (map_length fst (dones tr)).
    assert (NoDup (id :: map fst (dones tr))) by (constructor; [apply H2|exact I3]).
    apply (NoDup_incl_length H). intros j [<-|Hj]; [exact H1|]. apply I1, touches_in. auto. }
  destruct (IH (length (leaves t) - length (dones tr1))) with (ls := ls ++ [LComplete id (f id)]) (s := s1) (tr := tr1)
    as (ids & tr2 & H6); auto.
  - rewrite H4, app_length. cbn. lia.
  - exists (id :: ids), tr2. cbn [map]. rewrite <- app_assoc in H6. exact H6.
Qed.

(** A race one of whose arguments has ended, or a join one of whose arguments has failed, has sent a signal
    to every unfinished operation in it, however deep. *)
Theorem C78_signalled (t : tree) (ls : list label) s (tr : list event) id :
  wf t -> await t ls = Some (s, tr) -> below_decided tr t id -> pending tr id -> In id (signalled tr).
Proof.
  intros Hwf Hrun (u & H1 & H2 & H3) Hp. pose proof (await_inv t ls s tr Hwf Hrun) as (I1 & _ & _ & _ & I5).
  destruct s as [s|].
  - destruct I5 as [HW _]. eapply waits_signalled; eauto.
  - exfalso. destruct I5 as (tr0 & n & o & _ & _ & H6). apply Hp. eapply ends_quiet; [exact H6| |apply Hp].
    apply I1, touches_in. left. apply Hp.
Qed.

(** Without a cancellation from outside a signal has no other reason than that: the operation that completed is in
    a decided race or join together with the one that gets the signal, and the type is that of
    the race, or "all" for join. *)
Theorem C78_signals (t : tree) (ls : list label) s (tr : list event) id x s1 (e : list event) j c :
  wf t -> await t ls = Some (s, tr) -> await t (ls ++ [LComplete id x]) = Some (s1, tr ++ e) -> In (ESig j c) e ->
  exists u, part u t /\ In j (leaves u) /\ In id (leaves u) /\ decided (tr ++ e) u /\ own u = c.
Proof.
  intros Hwf Hrun Hrun1 Hj. pose proof (await_inv t ls s tr Hwf Hrun) as (I1 & _ & _ & _ & I5).
  rewrite await_app, Hrun in Hrun1. cbn [run] in Hrun1. destruct s as [s|]; [|discriminate]. destruct I5 as [HW _]. destruct Hwf as [Hn Hf].
  cbn [step] in Hrun1. destruct (deliver id x s) as [[e1 r]|] eqn:Hd; [|discriminate]. destruct (answer r) as [s2 e2] eqn:Ha.
  injection Hrun1 as <- He. rewrite app_nil_r in He. apply app_inv_head in He. subst e.
  destruct (deliver_ok id x t Hf Hn _ _ _ HW Hd) as (_ & _ & _ & Hw & _). cbn [fst] in Hw.
  assert (Hx : In (ESig j c) e1 /\ forall u : tree, apart e2 u).
  { destruct r; cbn in Ha; injection Ha as <- <-.
    - rewrite app_nil_r in Hj. split; [exact Hj|]. intros u i _ [].
    - apply in_app_iff in Hj as [Hj|[Hj|[]]]; [|discriminate]. split; [exact Hj|]. intros u i _ []. }
  destruct Hx as [Hx1 Hx2]. destruct (Hw _ _ Hx1) as (u & U1 & U2 & U3 & U4 & U5).
  exists u. repeat split; auto; [apply U5; cbn; auto|]. rewrite app_assoc. apply decided_ext; auto.
Qed.
Theorem C78_signals_start (t : tree) s (tr : list event) j c :
  wf t -> await t [] = Some (s, tr) -> In (ESig j c) tr ->
  exists u, part u t /\ In j (leaves u) /\ decided tr u /\ own u = c.
Proof.
  intros [Hn Hf] Hrun Hj. unfold await in Hrun. pose proof (go_ok t Hf Hn []) as G.
  destruct (go t) as [e r]. cbn [fst snd] in G. destruct G as (_ & Hw & _); [intros id _ []|].
  destruct (answer r) as [s1 e1] eqn:Ha. cbn in Hrun. injection Hrun as <- <-. rewrite app_nil_r in *.
  assert (Hx : In (ESig j c) e /\ forall u : tree, apart e1 u).
  { destruct r; cbn in Ha; injection Ha as <- <-.
    - rewrite app_nil_r in Hj. split; [exact Hj|]. intros u i _ [].
    - apply in_app_iff in Hj as [Hj|[Hj|[]]]; [|discriminate]. split; [exact Hj|]. intros u i _ []. }
  destruct Hx as [Hx1 Hx2]. destruct (Hw _ _ Hx1) as (u & U1 & U2 & U3 & U4 & _).
  exists u. repeat split; auto. apply decided_ext; auto.
Qed.

(** Cancelling the awaiting coroutine sends a signal of that type to exactly the unfinished
    operations that are not in a decided race or join (those got theirs), and does nothing else. *)
Theorem C78_cancel (t : tree) (ls : list label) s (tr : list event) c :
  wf t -> await t ls = Some (Some s, tr) ->
  exists e, await t (ls ++ [LCancel c]) = Some (Some s, tr ++ e) /\
    forall ev, In ev e <-> exists id, ev = ESig id c /\ pending tr id /\ ~ below_decided tr t id.
Proof.
  intros Hwf Hrun. pose proof (await_inv t ls _ tr Hwf Hrun) as (I1 & _ & _ & _ & HW & _). destruct Hwf as [Hn Hf].
  exists (signal c s). rewrite await_app, Hrun. cbn. rewrite app_nil_r. split; [reflexivity|].
  intros ev. split.
  - intros Hi. destruct (signal_only c s ev Hi) as (id & c' & ->).
    apply (signal_exact tr t s c Hn HW) in Hi as (-> & H1 & H2 & H3). eauto.
  - intros (id & -> & H1 & H2). apply (signal_exact tr t s c Hn HW). repeat split; auto; try apply H1.
    apply I1, touches_in. left. apply H1.
Qed.

(** An operation that is not started is in a race that had been decided. *)
Theorem C78_unstarted (t : tree) (ls : list label) s (tr : list event) id :
  wf t -> await t ls = Some (s, tr) -> In id (leaves t) -> ~ In id (started tr) ->
  exists ct l, part (Comb Race ct l) t /\ In id (leaves (Comb Race ct l)) /\ decided tr (Comb Race ct l).
Proof.
  intros Hwf Hrun Hi Hs. pose proof (await_inv t ls s tr Hwf Hrun) as (_ & _ & _ & I4 & I5).
  destruct s as [s|].
  - destruct I5 as [HW _]. eapply waiting_unstarted; eauto.
  - destruct I5 as (tr0 & n & o & _ & _ & H). eapply ended_unstarted; eauto.
Qed.
End Props.

(** ** Cases *)
Definition op (id : nat) : tree nat nat := Op id None.
(** gather(race(1, join(2, 3)), 4) *)
Definition ex1 : tree nat nat :=
  Comb Gather 0 [Comb Race 2 [op 1; Comb Join 0 [op 2; op 3]]; op 4].
Lemma ex1_wf : wf ex1.
Proof.
  split; [|cbn; repeat split; discriminate].
  cbn. repeat constructor; cbn; intuition discriminate.
Qed.

(** 2 fails: the join signals 3, and the race is not decided before 3 has ended, too. *)
Example C78_nonvacuous :
  let tr := [EStart 1; EStart 2; EStart 3; EStart 4; EDone 2 (inr 9); ESig 3 7] in
  exists s, await ex1 [LComplete 2 (inr 9)] = Some (Some s, tr) /\
  below_decided tr ex1 3 /\ pending tr 3 /\ pending tr 1 /\ ~ below_decided tr ex1 1.
Proof.
  eexists. split; [vm_compute; reflexivity|].
  split; [|split; [|split]].
  - exists (Comb Join 0 [op 2; op 3]). split; [|split].
    + eapply part_arg; [left; reflexivity|]. eapply part_arg; [right; left; reflexivity|]. constructor.
    + cbn. auto.
    + exists (op 2), 0, 9. split; [cbn; auto|reflexivity].
  - split; cbn; [auto|]. intros [H|[]]; discriminate.
  - split; cbn; [auto|]. intros [H|[]]; discriminate.
  - intros (u & H1 & H2 & H3).
    inversion H1 as [|? ? ? ? ? Ht Hp]; subst; [exact H3|].
    destruct Ht as [<-|[<-|[]]].
    + inversion Hp as [|? ? ? ? ? Ht2 Hp2]; subst.
      * destruct H3 as (t & n & o & Hi & He). destruct Hi as [<-|[<-|[]]]; vm_compute in He; discriminate.
      * destruct Ht2 as [<-|[<-|[]]].
        -- inversion Hp2; subst. exact H3.
        -- apply part_leaves in Hp2. apply Hp2 in H2. cbn in H2. intuition discriminate.
    + apply part_leaves in Hp. apply Hp in H2. cbn in H2. intuition discriminate.
Qed.
(** The rest of that history: the error of the join wins the race, and the whole waits for 1 and 4. *)
Example C78_nonvacuous_end :
  let ls := [LComplete 2 (inr 9); LCancel 1; LComplete 3 (inl 5); LComplete 4 (inl 6); LComplete 1 (inl 7)] in
  await ex1 ls = Some (None,
    [EStart 1; EStart 2; EStart 3; EStart 4; EDone 2 (inr 9); ESig 3 7; ESig 1 1; ESig 4 1;
     EDone 3 (inl 5); ESig 1 2; EDone 4 (inl 6); EDone 1 (inl 7);
     EResult (OVal (VAll [OErr 9; OVal (VOp 6)]))]).
Proof. vm_compute. reflexivity. Qed.

(** race(gather(1, 2), 3): 3 wins, and its result is given when 1 and 2 have ended. *)
Definition ex2 : tree nat nat := Comb Race 2 [Comb Gather 0 [op 1; op 2]; op 3].
Example C78_nonvacuous_race :
  await ex2 [LComplete 1 (inl 4); LComplete 3 (inl 5); LComplete 2 (inl 6)] = Some (None,
    [EStart 1; EStart 2; EStart 3; EDone 1 (inl 4); EDone 3 (inl 5); ESig 2 2; EDone 2 (inl 6);
     EResult (OVal (VWin 1 (VOp 5)))]).
Proof. vm_compute. reflexivity. Qed.

(** gather(1, race(2 at once, 3)): 3 is not started. *)
Definition ex3 : tree nat nat := Comb Gather 0 [op 1; Comb Race 2 [Op 2 (Some (inl 8)); op 3]].
Example C78_nonvacuous_unstarted :
  exists s, await ex3 [] = Some (Some s, [EStart 1; EStart 2; EDone 2 (inl 8)]) /\ wf ex3.
Proof.
  eexists. split; [vm_compute; reflexivity|]. split; [|cbn; repeat split; discriminate].
  cbn. repeat constructor; cbn; intuition discriminate.
Qed.
(** join(1, race(2, 3 at once failing)): the race fails at once, and so 1 is cancelled. *)
Example C78_nonvacuous_start :
  exists s, await (Comb Join 0 [op 1; Comb Race 2 [op 2; Op 3 (Some (inr 8))]]) [LComplete 2 (inl 1)] =
    Some (Some s, [EStart 1; EStart 2; EStart 3; EDone 3 (inr 8); ESig 2 2; EDone 2 (inl 1); ESig 1 7]).
Proof. eexists. vm_compute. reflexivity. Qed.

Print Assumptions C78_once.
Print Assumptions C78_result.
Print Assumptions C78_structured.
Print Assumptions C78_starts.
Print Assumptions C78_enabled.
Print Assumptions C78_completes.
Print Assumptions C78_signalled.
Print Assumptions C78_signals.
Print Assumptions C78_signals_start.
Print Assumptions C78_cancel.
Print Assumptions C78_unstarted.
