(** * C86: looking up names *)
From Coq Require Import List Bool Arith Lia Permutation.
From Verif Require Import Sock_Model Rsv_Model Rsv_Spec Rsv_Inv Rsv_Good.
Import ListNotations.

(** Every await that has begun ends at most once, and nothing else ends. *)
Theorem C86_once : forall W ls s es, run W ls init = Some (s, es) ->
  NoDup (begun_in es) /\ NoDup (ended_in es) /\ forall i, In i (ended_in es) -> In i (begun_in es).
Proof.
  intros W ls s es H. pose proof (good_run W _ _ _ H) as G. pose proof (g_nodup _ _ _ G) as N.
  split; [exact N|]. pose proof (Permutation_NoDup (g_perm _ _ _ G) N) as M. split.
  - clear - M. induction (ended_in es) as [|a l IH]; [constructor|]. cbn in M. inversion M; subst.
    constructor; [intro K; apply H1; apply in_or_app; auto|auto].
  - intros i I. apply (Permutation_in _ (Permutation_sym (g_perm _ _ _ G))). apply in_or_app. auto.
Qed.
Print Assumptions C86_once.

(** A query is made for what the strings of the operation contain at the moment of the await. *)
Theorem C86_names : forall W ls s es i x n v, run W ls init = Some (s, es) -> In (EBegun i x n v) es ->
  exists before o after h w b, ls = before ++ LAwait i o :: after /\ oper_after o before None = Some (x, h, w, b) /\
    text_after h before None = Some n /\ text_after w before None = Some v.
Proof. intros W ls s es i x n v H K. exact (g_named _ _ _ (good_run W _ _ _ H) _ _ _ _ K). Qed.
Print Assumptions C86_names.

Lemma transform_matches : forall a, matches a (transform a).
Proof.
  intros [l|e]; [|reflexivity]. cbn. induction l as [|[f ty a] l IH]; [constructor|]. destruct f; cbn; constructor; exact IH.
Qed.

(** A coroutine gets the system's answer to its own query, complete and in order, or learns that the query was aborted. *)
Theorem C86_own : forall W ls s es i r, run W ls init = Some (s, es) -> In (EGot i r) es ->
  exists x n v, In (EBegun i x n v) es /\
    (r = RAborted \/ exists a, In (EAsk i n v) es /\ In (EReply i a) es /\ matches a r).
Proof.
  intros W ls s es i r H K. destruct (g_got _ _ _ (good_run W _ _ _ H) _ _ K) as (x & n & v & A & B).
  exists x, n, v. split; [exact A|]. destruct B as [B|(a & P & Q & ->)]; [auto|]. right. exists a. repeat split; auto. apply transform_matches.
Qed.
Print Assumptions C86_own.

(** Nothing is aborted unless its resolver was cancelled or destroyed, or its lookup destroyed, after the await began. *)
Theorem C86_aborted : forall W ls s es i, run W ls init = Some (s, es) -> In (EGot i RAborted) es ->
  exists x n v before l after o, In (EBegun i x n v) es /\ ls = before ++ l :: after /\ In (LAwait i o) before /\ stops x before l.
Proof.
  intros W ls s es i H K. destruct (g_aborted _ _ _ (good_run W _ _ _ H) i (or_intror K)) as (x & n & v & A & (l1 & l & l2 & o & B & C & D)).
  exists x, n, v, l1, l, l2, o. auto.
Qed.
Print Assumptions C86_aborted.

(** cancel(), the destructor of the resolver and that of a lookup abort exactly the queries that have not been taken by a worker:
    these are not looked up any more, and their coroutines are told. *)
Theorem C86_cancel : forall W ls s es i x l ls' s' es', run W ls init = Some (s, es) -> queued i x s ->
  stops x ls l -> run W (l :: ls') s = Some (s', es') ->
  (forall r, In (EGot i r) es' -> r = RAborted) /\ (forall n v, ~ In (EAsk i n v) es').
Proof.
  intros W ls s es i x l ls' s' es' H (j & J & <- & <-) L R.
  pose proof (good_run W _ _ _ H) as G. cbn [run] in R.
  destruct (exec W l s) as [[s1 e1]|] eqn:X; [|discriminate]. destruct (run W ls' s1) as [[s2 e2]|] eqn:R1; [|discriminate].
  injection R as <- <-.
  pose proof (Permutation_NoDup (g_perm _ _ _ G) (g_nodup _ _ _ G)) as N.
  assert (In (j_id j) (begun_in es)) as B.
  { apply (Permutation_in _ (Permutation_sym (g_perm _ _ _ G))). apply in_or_app. right. unfold pipe. apply in_or_app. right. apply in_or_app. right. now apply in_map. }
  assert (NoDup (map fst (done s) ++ map j_id (active s) ++ map j_id (queue s))) as N1.
  { clear - N. fold (pipe s). induction (ended_in es) as [|a q IH]; [exact N|]. cbn in N. inversion N; auto. }
  assert (~ In (j_id j) (map j_id (active s))) as NA.
  { intro K. assert (NoDup (map j_id (active s) ++ map j_id (queue s))) as N2.
    { clear - N1. induction (map fst (done s)) as [|a q IH]; [exact N1|]. cbn in N1. inversion N1; auto. }
    apply in_split in K. destruct K as (a & b & K). rewrite K in N2. rewrite <- app_assoc in N2. cbn in N2.
    apply NoDup_remove_2 in N2. apply N2. apply in_or_app. right. apply in_or_app. right. now apply in_map. }
  assert (~ In (j_id j) (map fst (done s))) as ND.
  { intro K. apply in_split in K. destruct K as (a & b & K). rewrite K in N1. rewrite <- app_assoc in N1. cbn in N1.
    apply NoDup_remove_2 in N1. apply N1. apply in_or_app. right. apply in_or_app. right. apply in_or_app. right. now apply in_map. }
  assert (NoDup (map j_id (queue s))) as NQ.
  { clear - N1. rewrite app_assoc in N1. induction (map fst (done s) ++ map j_id (active s)) as [|a q IH]; [exact N1|]. cbn in N1. inversion N1; auto. }
  assert (doomed (j_id j) s1 /\ e1 = []) as [D ->].
  { unfold exec in X. destruct (up s); [|discriminate]. cbn [negb] in X.
    destruct (g_job _ _ _ G j J) as [U V].
    assert (forall k, In k (queue s) -> j_id k = j_id j -> k = j) as UQ.
    { intros k K E. clear - NQ K E J. induction (queue s) as [|a q IH]; [destruct K|]. cbn in NQ. inversion NQ; subst.
      destruct K as [->|K], J as [->|J]; auto.
      - exfalso. apply H1. rewrite E. now apply in_map.
      - exfalso. apply H1. rewrite <- E. now apply in_map. }
    destruct L as [->|[->|(o & h & v & -> & O)]];
    [destruct (live s (j_res j)) eqn:LV; [|discriminate]|destruct (live s (j_res j)) eqn:LV; [|discriminate]|
     rewrite <- (g_ops _ _ _ G) in O; destruct (ops s o) as [p|]; [|discriminate]; cbn in O; injection O as O1 O2 O3 O4; rewrite O4, O1 in X];
    injection X as <- <-; (split; [|reflexivity]);
    (split; [cbn; apply (g_flag _ _ _ G); exact B|]); (split; [exact NA|]); (split; [intros r K; exfalso; apply ND; apply in_map_iff; exists (j_id j, r); auto|]).
    - intros k K E. rewrite (UQ k K E). cbn. split; [auto|]. right. unfold upd. rewrite Nat.eqb_refl. lia.
    - intros k K E. rewrite (UQ k K E). cbn. split; [auto|]. left. unfold upd. now rewrite Nat.eqb_refl.
    - intros k K E. rewrite (UQ k K E). cbn. split; [auto|]. left. unfold upd. now rewrite Nat.eqb_refl. }
  exact (doomed_run W _ _ _ _ _ R1 D).
Qed.
Print Assumptions C86_cancel.

(** With one worker, which is the default, awaits end in the order in which they began. *)
Theorem C86_order : forall ls s es, run 1 ls init = Some (s, es) -> exists rest, begun_in es = ended_in es ++ rest.
Proof.
  intros ls s es H.
  enough (length (active s) <= 1 /\ begun_in es = ended_in es ++ pipe s) as [_ K] by eauto.
  revert ls s es H. apply hist_ind; [cbn; auto|]. intros ls s es l s' e _ (A & B) X.
  destruct (exec_order 1 eq_refl _ _ _ _ A X) as (A' & B'). split; [exact A'|].
  rewrite begun_app, ended_app, B, <- !app_assoc, B'. reflexivity.
Qed.
Print Assumptions C86_order.

(** run() of the context does not return before all awaits have ended. *)
Theorem C86_alive : forall W ls s es, run W (ls ++ [LReturn]) init = Some (s, es) ->
  forall i, In i (begun_in es) <-> In i (ended_in es).
Proof.
  intros W ls s es H i. pose proof (good_run W _ _ _ H) as G.
  rewrite run_app in H. destruct (run W ls init) as [[s1 e1]|] eqn:R; [|discriminate]. cbn -[exec] in H.
  destruct (exec W LReturn s1) as [[s2 e2]|] eqn:X; [|discriminate]. injection H as <- <-.
  unfold exec in X. destruct (up s1); [|discriminate]. cbn [negb] in X. destruct (work s1 =? 0) eqn:E; [|discriminate].
  injection X as <- <-. apply Nat.eqb_eq in E. rewrite (g_work _ _ _ G) in E. apply length_zero_iff_nil in E.
  pose proof (g_perm _ _ _ G) as P. rewrite E in P. rewrite (app_nil_r (ended_in _)) in P. split; intro K.
  - apply (Permutation_in _ P). exact K.
  - apply (Permutation_in _ (Permutation_sym P)). exact K.
Qed.
Print Assumptions C86_alive.

(** At every moment workers and context can, without the user, bring every await to its end. *)
Theorem C86_ends : forall W ls s es, 1 <= W -> run W ls init = Some (s, es) -> up s = true ->
  exists ls' s' es', run W ls' s = Some (s', es') /\ Forall automatic ls' /\
    forall i, In i (begun_in es) -> In i (ended_in es) \/ exists r, In (EGot i r) es'.
Proof.
  intros W ls s es HW H U. pose proof (good_run W _ _ _ H) as G.
  destruct (finish W HW _ s (Nat.le_refl _) U) as (ls' & s' & es' & R & F & _ & _ & K).
  exists ls', s', es'. repeat split; auto. intros i I.
  apply (Permutation_in _ (g_perm _ _ _ G)) in I. apply in_app_or in I. destruct I as [I|I]; [auto|right; apply K; exact I].
Qed.
Print Assumptions C86_ends.

(** What is in getaddrinfo cannot be interrupted: whatever the user does, cancelling the coroutine, the resolver, or destroying it, the await
    does not end before the system has answered; with all workers busy neither does any other that has not been posted yet. *)
Theorem C86_uninterruptible : forall W ls s es i ls' s' es', run W ls init = Some (s, es) -> looking i s ->
  run W ls' s = Some (s', es') -> Forall (fun l => ~ is_reply l) ls' ->
  ~ In i (ended_in es') /\ (length (active s) = W -> forall k, In k (map j_id (queue s)) -> ~ In k (ended_in es')).
Proof.
  intros W ls s es i ls' s' es' H L R F. pose proof (good_run W _ _ _ H) as G.
  pose proof (Permutation_NoDup (g_perm _ _ _ G) (g_nodup _ _ _ G)) as N.
  assert (NoDup (map fst (done s) ++ map j_id (active s) ++ map j_id (queue s))) as N1.
  { clear - N. fold (pipe s). induction (ended_in es) as [|a q IH]; [exact N|]. cbn in N. inversion N; auto. }
  assert (forall (a b : list nat) k, NoDup (a ++ b) -> In k a -> In k b -> False) as DJ.
  { clear. intros a b k N A B. apply in_split in A. destruct A as (p & q & ->). rewrite <- app_assoc in N. cbn in N.
    apply NoDup_remove_2 in N. apply N. apply in_or_app. right. apply in_or_app. auto. }
  assert (NoDup (map j_id (active s) ++ map j_id (queue s))) as N2.
  { clear - N1. induction (map fst (done s)) as [|a q IH]; [exact N1|]. cbn in N1. inversion N1; auto. }
  split.
  - destruct (look_run W _ _ _ _ i R F L) as [_ KK]; [| | |exact KK].
    + intro K. apply (DJ _ _ i N1 K). apply in_or_app. auto.
    + intro K. exact (DJ _ _ i N2 L K).
    + apply (g_flag _ _ _ G). apply (Permutation_in _ (Permutation_sym (g_perm _ _ _ G))). apply in_or_app. right.
      unfold pipe. apply in_or_app. right. apply in_or_app. left. exact L.
  - intros E k K J. destruct (quiet_run W _ _ _ _ R F) as [_ Q]; [lia|intro A; unfold looking in L; rewrite A in L; destruct L|].
    apply (DJ _ _ k N1 (Q k J)). apply in_or_app. auto.
Qed.
Print Assumptions C86_uninterruptible.

(** No undefined behaviour if at every await the resolver and the strings of the operation exist. *)
Theorem C86_defined : forall W ls s es i, run W ls init = Some (s, es) -> In (EUb i) es ->
  exists before o after s1 es1 x h w b, ls = before ++ LAwait i o :: after /\ run W before init = Some (s1, es1) /\
    oper_after o before None = Some (x, h, w, b) /\
    (live s1 x = false \/ text_after h before None = None \/ text_after w before None = None).
Proof.
  intros W ls s es i H. revert ls s es H.
  apply (hist_ind W (fun ls _ es => In (EUb i) es -> exists before o after s1 es1 x h w b, ls = before ++ LAwait i o :: after /\ run W before init = Some (s1, es1) /\
    oper_after o before None = Some (x, h, w, b) /\ (live s1 x = false \/ text_after h before None = None \/ text_after w before None = None)));
    [intros []|]. intros ls s es l s' e R IH X J.
  apply in_app_or in J. destruct J as [J|J].
  - destruct (IH J) as (l1 & o & l2 & s1 & e1 & x & h & w & b & -> & A). exists l1, o, (l2 ++ [l]), s1, e1, x, h, w, b. rewrite <- app_assoc. auto.
  - pose proof (good_run W _ _ _ R) as G. unfold exec in X. destruct (up s) eqn:U; [|discriminate]. cbn [negb] in X.
    destruct l; repeat match goal with
      | H : Some _ = Some _ |- _ => injection H as <- <-
      | H : None = Some _ |- _ => discriminate H
      | H : (if ?b then _ else _) = Some _ |- _ => destruct b eqn:?
      | H : match ?x with _ => _ end = Some _ |- _ => destruct x eqn:?
      end; cbn in J; try tauto; try (destruct J as [J|J]; [try discriminate J|try tauto]).
    all: try (injection J as <-; exists ls, o, [], s, es, (o_res o0), (o_host o0), (o_serv o0), (o_own o0);
      rewrite <- !(g_text _ _ _ G), <- (g_ops _ _ _ G), Heqo0; auto 10).
    + destruct J as [J|[]]. discriminate J.
    + apply in_app_or in J. exfalso. destruct J as [J|J]; revert J; apply in_gone; discriminate.
Qed.
Print Assumptions C86_defined.

(** ** Concrete histories *)
Definition obs (W : nat) (ls : list label) : option (list event * (list nat * list nat)) :=
  match run W ls init with Some (s, es) => Some (es, (map j_id (queue s), map j_id (active s))) | None => None end.
Lemma obs_run : forall W ls es q a, obs W ls = Some (es, (q, a)) ->
  exists s, run W ls init = Some (s, es) /\ map j_id (queue s) = q /\ map j_id (active s) = a.
Proof.
  intros W ls es q a H. unfold obs in H. destruct (run W ls init) as [[s e]|]; [|discriminate]. injection H as <- <- <-. eauto.
Qed.

(** strings 0 and 1 are "boost.org" (7) and "https" (8); a resolver, an operation and a lookup *)
Definition setup : list label := [LText 0 7; LText 1 8; LMake 0; LOp 0 0 0 1; LLookup 1 1 0 1].
Definition reply : answer := AOk [I AF_INET6 1 60; I AF_UNIX 1 99; I AF_INET 1 40].

(** two resolves and a lookup; the string changes in between; the second one is cancelled in the queue; a new one succeeds *)
Definition story : list label :=
  setup ++ [LAwait 0 0; LText 0 17; LAwait 1 0; LAwait 2 1; LBegin; LCancel 0; LAwait 3 0; LReply 0 reply; LBegin; LBegin; LRun false;
            LReply 0 (AErr 5); LBegin; LReply 0 (AOk []); LRun false; LRun false; LRun false; LReturn].
Definition story_events : list event :=
  [EBegun 0 0 7 8; EBegun 1 0 17 8; EBegun 2 1 17 8; EAsk 0 7 8; EBegun 3 0 17 8; EReply 0 reply; EAsk 2 17 8;
   EGot 0 (ROk [E (P AF_INET6 0 0) 60; E (P AF_INET 0 0) 40]); EReply 2 (AErr 5); EAsk 3 17 8; EReply 3 (AOk []);
   EGot 1 RAborted; EGot 2 (RErr 5); EGot 3 (ROk []); EReturn].
Example C86_nonvacuous : exists s, run 1 story init = Some (s, story_events).
Proof. destruct (obs_run 1 story story_events [] [] ltac:(vm_compute; reflexivity)) as (s & H & _). eauto. Qed.

(** a moment at which the hypotheses of C86_cancel and C86_uninterruptible hold *)
Example C86_moment : exists s es, run 1 (setup ++ [LAwait 0 0; LAwait 1 0; LBegin]) init = Some (s, es) /\
  looking 0 s /\ queued 1 0 s /\ length (active s) = 1 /\
  exists s' es', run 1 [LCancel 0; LSignal 0; LDestroy 0; LDrop 0] s = Some (s', es').
Proof.
  eexists _, _. split; [vm_compute; reflexivity|]. split; [left; reflexivity|].
  split; [eexists; split; [left; reflexivity|split; reflexivity]|]. split; [reflexivity|].
  eexists _, _. reflexivity.
Qed.

(** ** What is false of the code *)

(** "Cancelling a coroutine that waits for a lookup ends the wait": a lookup that lost against a timeout ends only when the system
    has answered, whatever else happens. *)
Theorem C86_timeout_refuted : exists ls s es, run 1 ls init = Some (s, es) /\ In (LSignal 0) ls /\ In (LCancel 0) ls /\ In (LDestroy 0) ls /\
  In 0 (begun_in es) /\
  forall ls' s' es', run 1 ls' s = Some (s', es') -> Forall (fun l => ~ is_reply l) ls' -> ~ In 0 (ended_in es').
Proof.
  destruct (obs_run 1 (setup ++ [LAwait 0 0; LBegin; LSignal 0; LCancel 0; LDestroy 0]) [EBegun 0 0 7 8; EAsk 0 7 8] [] [0] ltac:(vm_compute; reflexivity))
    as (s & H & _ & A).
  eexists _, s, _. split; [exact H|]. repeat split; try (cbn; tauto).
  intros ls' s' es' R F. destruct (C86_uninterruptible 1 _ _ _ 0 ls' s' es' H) as [K _]; [unfold looking; rewrite A; now left|exact R|exact F|exact K].
Qed.
Print Assumptions C86_timeout_refuted.

(** "A cancelled query ends at once": it waits in the queue behind a slow one of somebody else. *)
Theorem C86_behind_refuted : exists ls s es, run 1 ls init = Some (s, es) /\ In (LDrop 1) ls /\ In 1 (begun_in es) /\ In (EBegun 1 1 7 8) es /\
  forall ls' s' es', run 1 ls' s = Some (s', es') -> Forall (fun l => ~ is_reply l) ls' -> ~ In 1 (ended_in es').
Proof.
  destruct (obs_run 1 (setup ++ [LAwait 0 0; LAwait 1 1; LBegin; LDrop 1]) [EBegun 0 0 7 8; EBegun 1 1 7 8; EAsk 0 7 8] [1] [0] ltac:(vm_compute; reflexivity))
    as (s & H & Q & A).
  eexists _, s, _. split; [exact H|]. repeat split; try (cbn; tauto).
  intros ls' s' es' R F. destruct (C86_uninterruptible 1 _ _ _ 0 ls' s' es' H) as [_ K]; [unfold looking; rewrite A; now left|exact R|exact F|].
  apply K; [rewrite <- (map_length j_id), A; reflexivity|rewrite Q; now left].
Qed.
Print Assumptions C86_behind_refuted.

(** "No endpoint is given twice": the system is asked for all socket types and answers for each; the type is then dropped. *)
Theorem C86_duplicates_refuted : exists ls s es i l d, run 1 ls init = Some (s, es) /\
  In (EReply i (AOk l)) es /\ NoDup l /\ In (EGot i (ROk d)) es /\ ~ NoDup d.
Proof.
  destruct (obs_run 1 (setup ++ [LAwait 0 1; LBegin; LReply 0 (AOk [I AF_INET 1 40; I AF_INET 2 40; I AF_INET 3 40]); LRun false])
    [EBegun 0 1 7 8; EAsk 0 7 8; EReply 0 (AOk [I AF_INET 1 40; I AF_INET 2 40; I AF_INET 3 40]);
     EGot 0 (ROk [E (P AF_INET 0 0) 40; E (P AF_INET 0 0) 40; E (P AF_INET 0 0) 40])] [] [] ltac:(vm_compute; reflexivity)) as (s & H & _).
  eexists _, s, _, 0, _, _. split; [exact H|]. split; [right; right; left; reflexivity|]. split.
  - repeat constructor; cbn; intuition discriminate.
  - split; [right; right; right; left; reflexivity|]. intro N. inversion N; subst. apply H2. now left.
Qed.
Print Assumptions C86_duplicates_refuted.

(** "The operation keeps what it needs": it refers to the strings, which may be temporary objects, until it is awaited. *)
Theorem C86_dangling_refuted : exists ls s es, run 1 ls init = Some (s, es) /\ In (EUb 0) es.
Proof.
  destruct (obs_run 1 (setup ++ [LFree 0; LAwait 0 0]) [EUb 0] [] [] ltac:(vm_compute; reflexivity)) as (s & H & _).
  eexists _, s, _. split; [exact H|]. now left.
Qed.
Print Assumptions C86_dangling_refuted.

(** "Every await ends in its coroutine": without memory for the results the coroutine is destroyed, and the exception leaves run(). *)
Theorem C86_memory_refuted : exists ls s es, run 1 ls init = Some (s, es) /\ In (EReply 0 reply) es /\ In (EGone 0) es /\ In EThrow es /\ up s = true.
Proof.
  exists (setup ++ [LAwait 0 0; LBegin; LReply 0 reply; LRun true]). eexists _, _. split; [vm_compute; reflexivity|].
  repeat split; cbn; tauto.
Qed.
Print Assumptions C86_memory_refuted.

(** Except for these two ways a coroutine is always told: it is destroyed only with the context, or without memory for results. *)
Theorem C86_told : forall W ls s es i, run W ls init = Some (s, es) -> In (EGone i) es -> In EThrow es \/ In LClose ls.
Proof.
  intros W ls s es i H. revert ls s es H. apply (hist_ind W (fun ls _ es => In (EGone i) es -> In EThrow es \/ In LClose ls)); [intros []|]. intros ls s es l s' e R IH X J.
  apply in_app_or in J. destruct J as [J|J]; [destruct (IH J); [left|right]; apply in_or_app; auto|].
  unfold exec in X. destruct (up s) eqn:U; [|discriminate]. cbn [negb] in X.
  destruct l; repeat match goal with
      | H : Some _ = Some _ |- _ => injection H as <- <-
      | H : None = Some _ |- _ => discriminate H
      | H : (if ?b then _ else _) = Some _ |- _ => destruct b eqn:?
      | H : match ?x with _ => _ end = Some _ |- _ => destruct x eqn:?
      end; cbn in J; try tauto; try (destruct J as [J|J]; [try discriminate J|try tauto]).
  - left. apply in_or_app. right. cbn. auto.
  - destruct J as [J|[]]. discriminate J.
  - right. apply in_or_app. right. now left.
Qed.
Print Assumptions C86_told.
