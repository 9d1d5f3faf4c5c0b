(** * C71: several coroutines wait for the same promises

    Full statement: a promise has one awaiter; a second one gets an error and nobody
    else notices.  Every coroutine is resumed with the outcome of a promise only when
    the promise has that outcome, and nobody is destroyed or left waiting for a promise
    that has ended, also if several coroutines wait on a wait_group.  That is false of
    the code ([..._refuted]); it is proved for plain awaits, and for histories in which
    race, wait_group and interruption are kept away from promises that others
    await ([polite]). *)
From Coq Require Import List Bool Arith Lia.
From Verif Require Import Paw_Model Paw_Spec Paw_Proofs.
Import ListNotations.

(** Every result that a coroutine is resumed with is right, nobody is destroyed, no undefined behaviour. *)
Theorem C71_results_right_partial : forall ls s es e,
  polite_run init ls -> run init ls = Some (s, es) -> In e es -> proper s e.
Proof. intros ls s es e P R H. exact (proj1 (proj2 (run_inv ls _ _ _ init_inv P R)) e H). Qed.
Print Assumptions C71_results_right_partial.

(** Whoever waits waits for something that has not ended: a race for none that has, a gather and a
    plain await for at least one that has not, and it is registered there. *)
Theorem C71_waits_partial : forall ls s es c,
  polite_run init ls -> run init ls = Some (s, es) ->
  co s c <> Gone /\
  forall k g l, co s c = Busy k g l ->
    (exists i h, nth_error l i = Some h /\ done s (hp h) = None /\ awr s (hp h) = Some (c, i)) /\
    (k = KRace -> forall h, In h l -> done s (hp h) = None).
Proof.
  intros ls s es c P R. destruct (run_inv ls _ _ _ init_inv P R) as ([I So] & _). split; [apply (v_gone _ I)|].
  intros k g l B. split.
  - pose proof (So _ _ _ _ B) as E. apply existsb_exists in E. destruct E as (h & H & W). apply is_wait_true in W.
    apply In_nth_error in H. destruct H as [i H]. exists i, h. destruct (v_wait _ I _ _ _ _ _ _ B H W) as (X & Y & _). auto.
  - intros -> h H. destruct (v_busy _ I _ _ _ _ B h H) as (_ & W & _). specialize (W eq_refl). apply In_nth_error in H. destruct H as [i H].
    now destruct (v_wait _ I _ _ _ _ _ _ B H W) as (_ & X & _).
Qed.
Print Assumptions C71_waits_partial.

(** When the promise ends that a coroutine races for, or the last one that it waits for, it is resumed with the outcome. *)
Theorem C71_woken_partial : forall ls s es c k g l i h ok s' es',
  polite_run init ls -> run init ls = Some (s, es) ->
  co s c = Busy k g l -> nth_error l i = Some h -> hs h = HWait ->
  (k = KRace \/ forall j h', j <> i -> nth_error l j = Some h' -> hs h' <> HWait) ->
  step s (LFinish (hp h) ok) = Some (s', es') ->
  exists l', In (EGot c k l') es' /\ length l' = length l /\ In (mkh (hp h) (hi h) (HEnd (if ok then ROk else RErr))) l'.
Proof. intros ls s es c k g l i h ok s' es' P R. apply finish_wakes. apply (run_inv ls _ _ _ init_inv P R). Qed.
Print Assumptions C71_woken_partial.

(** wait_one() takes exactly the promise that has returned out of the group, and nothing if it has
    thrown; wait() empties the group. *)
Theorem C71_group_partial : forall ls s es c k l i h ok s' es',
  polite_run init ls -> run init ls = Some (s, es) ->
  co s c = Busy k true l -> nth_error l i = Some h -> hs h = HWait ->
  step s (LFinish (hp h) ok) = Some (s', es') ->
  (k = KRace -> group s' = if ok then remove Nat.eq_dec (hp h) (group s) else group s) /\
  (k = KGather -> (forall j h', j <> i -> nth_error l j = Some h' -> hs h' <> HWait) -> group s' = []).
Proof.
  intros ls s es c k l i h ok s' es' P R B N W S. destruct (run_inv ls _ _ _ init_inv P R) as (I & _). split.
  - intros ->. eapply wait_one_erases; eauto.
  - intros -> O. eapply wait_empties; eauto.
Qed.
Print Assumptions C71_group_partial.

(** Whatever the program does with the promises, polite or not: a coroutine that is still suspended has at least
    one helper that nothing has resumed or destroyed; when the last one is lost, so is the coroutine. *)
Theorem C71_suspended_has_a_helper : forall ls s es c k g l,
  run init ls = Some (s, es) -> co s c = Busy k g l -> exists h, In h l /\ hs h = HWait.
Proof. intros ls s es c k g l R B. apply (run_helped ls _ _ _ init_helped R c k g l B). Qed.
Print Assumptions C71_suspended_has_a_helper.

(** In every state: who awaits a promise that somebody else awaits gets the error at once, and nobody else notices. *)
Theorem C71_second_told : forall s c p w,
  co s c = Idle -> dead s p = false -> done s p = None -> awr s p = Some w ->
  exists s', step s (LAwait c p) = Some (s', [EGot c KDirect [mkh p 0 (HEnd RAlready)]]) /\
    (forall c', co s' c' = co s c') /\ (forall q, awr s' q = awr s q) /\ (forall q, done s' q = done s q) /\ group s' = group s.
Proof.
  intros s c p w C D N A. cbn [step]. rewrite C, D. unfold gather. cbn [start_gather]. rewrite N, A. cbn [existsb is_wait hs finish].
  eexists. split; [reflexivity|]. cbn [set_co co awr done group]. repeat split; auto.
  intros c'. unfold upd. destruct (Nat.eqb_spec c' c) as [->|]; auto.
Qed.
Print Assumptions C71_second_told.

(** The same for gather: exactly the children that somebody else awaits fail with the error, and whoever awaits them still does. *)
Theorem C71_gather_told : forall s c ps s' es,
  step s (LGather c ps) = Some (s', es) ->
  (forall c', c' <> c -> co s' c' = co s c') /\ (forall q w, awr s q = Some w -> awr s' q = Some w) /\
  exists l, (es = [EGot c KGather l] \/ co s' c = Busy KGather false l) /\ map hp l = ps /\
    forall h, In h l -> (hs h = HEnd RAlready <-> done s (hp h) = None /\ awr s (hp h) <> None).
Proof.
  intros s c ps s' es S. cbn [step] in S. destruct (co s c) eqn:C; try discriminate.
  destruct (alive s ps && distinct ps) eqn:D; [|discriminate]. injection S as S. apply andb_prop in D. destruct D as [_ D]. apply distinct_nodup in D.
  unfold gather in S. destruct (start_gather c 0 (index ps) s) as [s1 t] eqn:G. rewrite <- (index_snd ps) in D.
  destruct (start_gather_spec _ _ _ _ _ _ D G) as [(B1 & B1a & B1b & B1c) B2 B3 B4 B5]. rewrite index_snd in B2.
  assert (AL : forall h, In h t -> (hs h = HEnd RAlready <-> done s (hp h) = None /\ awr s (hp h) <> None)).
  { intros h H. specialize (B3 h H). split.
    - intros E. now rewrite E in B3.
    - intros [X Y]. destruct (hs h) as [|[]|]; try contradiction; try reflexivity;
      try (destruct B3 as (b & Z & _); congruence). destruct B3. contradiction. }
  assert (OLD : forall q w, awr s q = Some w -> awr s1 q = Some w).
  { intros q w E. destruct (B5 q) as [Q|(j & h & Q1 & Q2 & Q3)]; [congruence|].
    pose proof (B3 h (nth_error_In _ _ Q1)) as Z. rewrite Q2, Q3 in Z. destruct Z. congruence. }
  destruct (existsb is_wait t) eqn:W.
  - injection S as <- <-. cbn [set_co co awr]. split; [intros c' N; rewrite upd_other by assumption; now rewrite B1c|]. split; [exact OLD|].
    exists t. rewrite upd_same. auto.
  - unfold finish in S. assert (L : existsb is_lost t = false).
    { apply existsb_false. intros h H. specialize (B3 h H). unfold is_lost. destruct (hs h); auto. contradiction. }
    rewrite L in S. injection S as <- <-. cbn [set_co co awr]. split; [intros c' N; rewrite upd_other by assumption; now rewrite B1c|].
    split; [exact OLD|]. exists t. auto.
Qed.
Print Assumptions C71_gather_told.

(** ** Counterexamples *)

Ltac comp := vm_compute; reflexivity.
Definition ran ls := match run init ls with Some x => x | None => (init, []) end.

(** A race over a promise that coroutine 1 awaits: 1 is resumed although the promise has not ended. *)
Theorem C71_race_steals_refuted : ~ (forall ls s es c p,
  run init ls = Some (s, es) -> (forall l, In l ls -> match l with LAwait _ _ | LRace _ _ | LFinish _ _ => True | _ => False end) ->
  In (EGot c KDirect [mkh p 0 (HEnd RUnfinished)]) es -> False).
Proof.
  intros H. apply (H [LAwait 1 5; LRace 2 [(0, 5); (1, 6)]] (fst (ran [LAwait 1 5; LRace 2 [(0, 5); (1, 6)]])) (snd (ran [LAwait 1 5; LRace 2 [(0, 5); (1, 6)]])) 1 5).
  - comp.
  - intros l [<-|[<-|[]]]; exact Logic.I.
  - vm_compute. now left.
Qed.
Print Assumptions C71_race_steals_refuted.

(** A second wait() on a wait_group destroys the coroutine that is in the first. *)
Theorem C71_wait_twice_refuted : ~ (forall ls s es c,
  run init ls = Some (s, es) -> (forall l, In l ls -> match l with LPush _ | LWait _ | LFinish _ _ => True | _ => False end) ->
  In (EGone c) es -> False).
Proof.
  intros H. apply (H [LPush 5; LPush 6; LWait 1; LWait 2] (fst (ran [LPush 5; LPush 6; LWait 1; LWait 2])) (snd (ran [LPush 5; LPush 6; LWait 1; LWait 2])) 1).
  - comp.
  - intros l [<-|[<-|[<-|[<-|[]]]]]; exact Logic.I.
  - vm_compute. auto.
Qed.
Print Assumptions C71_wait_twice_refuted.

(** A second wait_one() resumes the first although no promise has ended, and takes a promise out of the group. *)
Theorem C71_wait_one_twice_refuted : ~ (forall ls s es c l h,
  run init ls = Some (s, es) -> (forall l, In l ls -> match l with LPush _ | LWaitOne _ _ | LFinish _ _ => True | _ => False end) ->
  In (EGot c KRace l) es -> In h l -> hs h = HEnd RUnfinished -> done s (hp h) = None -> In (hp h) (group s)).
Proof.
  intros H. specialize (H [LPush 5; LPush 6; LWaitOne 1 [1; 0]; LWaitOne 2 [0; 1]] (fst (ran [LPush 5; LPush 6; LWaitOne 1 [1; 0]; LWaitOne 2 [0; 1]]))
    (snd (ran [LPush 5; LPush 6; LWaitOne 1 [1; 0]; LWaitOne 2 [0; 1]])) 1 [mkh 6 1 (HEnd RDetached); mkh 5 0 (HEnd RUnfinished)] (mkh 5 0 (HEnd RUnfinished))).
  cbn [hp] in H. assert (G : In 5 (group (fst (ran [LPush 5; LPush 6; LWaitOne 1 [1; 0]; LWaitOne 2 [0; 1]])))).
  { apply H.
    - comp.
    - intros l [<-|[<-|[<-|[<-|[]]]]]; exact Logic.I.
    - vm_compute. auto.
    - right. now left.
    - reflexivity.
    - comp. }
  vm_compute in G. destruct G as [G|[]]. discriminate.
Qed.
Print Assumptions C71_wait_one_twice_refuted.

(** wait_one() while another coroutine is in wait(): undefined behaviour. *)
Theorem C71_wait_and_wait_one_refuted : ~ (forall ls s es,
  run init ls = Some (s, es) -> (forall l, In l ls -> match l with LPush _ | LWait _ | LWaitOne _ _ => True | _ => False end) -> ~ In EUb es).
Proof.
  intros H. apply (H [LPush 5; LWait 1; LPush 6; LWaitOne 2 [1; 0]] (fst (ran [LPush 5; LWait 1; LPush 6; LWaitOne 2 [1; 0]])) (snd (ran [LPush 5; LWait 1; LPush 6; LWaitOne 2 [1; 0]]))).
  - comp.
  - intros l [<-|[<-|[<-|[<-|[]]]]]; exact Logic.I.
  - vm_compute. auto.
Qed.
Print Assumptions C71_wait_and_wait_one_refuted.

(** A gather that lost a promise to coroutine 1 and is interrupted resumes 1, although the promise has not ended. *)
Theorem C71_interrupted_gather_refuted : ~ (forall ls s es c p,
  run init ls = Some (s, es) -> (forall l, In l ls -> match l with LAwait _ _ | LGather _ _ | LInterrupt _ | LFinish _ _ => True | _ => False end) ->
  In (EGot c KDirect [mkh p 0 (HEnd RUnfinished)]) es -> False).
Proof.
  intros H. apply (H [LAwait 1 5; LGather 2 [5; 6]; LInterrupt 2] (fst (ran [LAwait 1 5; LGather 2 [5; 6]; LInterrupt 2])) (snd (ran [LAwait 1 5; LGather 2 [5; 6]; LInterrupt 2])) 1 5).
  - comp.
  - intros l [<-|[<-|[<-|[]]]]; exact Logic.I.
  - vm_compute. now left.
Qed.
Print Assumptions C71_interrupted_gather_refuted.

(** ** The hypotheses are met *)

Definition ex : list label :=
  [LAwait 1 5; LAwait 2 5; LGather 3 [5; 6; 7]; LPush 8; LPush 9; LWaitOne 4 [1; 0]; LRace 5 [(1, 10); (0, 11)];
   LFinish 9 true; LWait 4; LFinish 7 false; LFinish 5 true; LFinish 10 false; LFinish 8 true; LFinish 6 true; LGather 6 [20; 21]; LInterrupt 6; LAwait 1 30; LAwait 2 30].

Example C71_nonvacuous : exists s es, polite_run init ex /\ run init ex = Some (s, es) /\
  es = [EGot 2 KDirect [mkh 5 0 (HEnd RAlready)];
        EGot 4 KRace [mkh 9 1 (HEnd ROk); mkh 8 0 (HEnd RDetached)];
        EGot 1 KDirect [mkh 5 0 (HEnd ROk)];
        EGot 5 KRace [mkh 10 1 (HEnd RErr); mkh 11 0 (HEnd RDetached)];
        EGot 4 KGather [mkh 8 0 (HEnd ROk)];
        EGot 3 KGather [mkh 5 0 (HEnd RAlready); mkh 6 1 (HEnd ROk); mkh 7 2 (HEnd RErr)];
        EGot 6 KGather [mkh 20 0 (HEnd RDetached); mkh 21 1 (HEnd RDetached)];
        EGot 2 KDirect [mkh 30 0 (HEnd RAlready)]] /\
  co s 1 = Busy KDirect false [mkh 30 0 HWait] /\ group s = [].
Proof.
  exists (fst (ran ex)), (snd (ran ex)). split; [|split; [comp|split; [comp|split; comp]]].
  unfold ex. cbn [polite_run].
  repeat match goal with
  | |- polite ?s ?l /\ match step ?s ?l with _ => _ end =>
      let x := eval vm_compute in (step s l) in
      split; [|replace (step s l) with x by (vm_compute; reflexivity); cbv beta iota zeta; cbn [polite_run]]
  end; try exact Logic.I.
  all: try (vm_compute; intuition discriminate).
  all: cbn [polite].
  all: try (intros c k l E; do 8 (destruct c as [|c]; [vm_compute in E; discriminate|]); vm_compute in E; discriminate).
  all: try (intros k g l h E I; vm_compute in E; injection E as <- <- <-; destruct I as [<-|[<-|[]]]; reflexivity).
  all: try (intros p H; vm_compute in H; intuition (subst; try (vm_compute; reflexivity); try match goal with G : In _ _ |- _ => vm_compute in G end; intuition discriminate)).
Qed.
