(** * C74, C75: io::acceptor *)
From Coq Require Import List Bool Arith Lia Permutation.
From Verif Require Import Acc_Model Acc_Spec Acc_Proofs.
Import ListNotations.

(** ** C74: every connection goes to one accept, in order, and cancelling takes none *)

(** The connections that were handed out, are on their way or wait are those that arrived, in this order. *)
Theorem C74_conserved : forall ep ls s es, run (init ep) ls = Some (s, es) ->
  arrived ls = flat_map conn_of es ++ on_the_way (posted s) ++ backlog s.
Proof. intros ep ls s es R. apply (i_conn _ _ _ (run_inv _ _ _ _ R)). Qed.
Print Assumptions C74_conserved.

(** Every accept and every wait ends at most once, and is waiting or completing as long as it has not. *)
Theorem C74_once : forall ep ls s es, run (init ep) ls = Some (s, es) ->
  NoDup (flat_map ended es) /\ Permutation (asked ls) (flat_map ended es ++ completing s ++ waiting s).
Proof.
  intros ep ls s es R. pose proof (run_inv _ _ _ _ R) as I. split; [|apply (i_perm _ _ _ I)].
  pose proof (Permutation_NoDup (i_perm _ _ _ I) (i_nodup _ _ _ I)) as N.
  clear - N. induction (flat_map ended es) as [|x l IH]; cbn in *; [constructor|].
  inversion N; subst. constructor; auto. rewrite in_app_iff in H1. tauto.
Qed.
Print Assumptions C74_once.

(** Coroutines get connections in the order in which they asked. *)
Theorem C74_order : forall ep ls s es, run (init ep) ls = Some (s, es) -> subseq (flat_map served es) (asked ls).
Proof.
  intros ep ls s es R. eapply ss_trans; [apply (i_order _ _ _ (run_inv _ _ _ _ R))|].
  rewrite <- (app_nil_r (flat_map served es)) at 1. apply ss_app; [apply ss_refl|apply ss_nil].
Qed.
Print Assumptions C74_order.

(** As long as something waits and a connection is there, it is served next; what is posted runs. *)
Theorem C74_progress : forall s, (queue s <> [] -> backlog s <> [] ->
    exists s' i k, step s LReact = Some (s', []) /\ head (queue s) = Some (i, k) /\ In i (completing s') /\ waiting s = i :: waiting s') /\
  (forall i k r p, posted s = (i, k, r) :: p -> exists s' e, step s LDeliver = Some (s', e) /\ flat_map ended e = [i] /\ posted s' = p).
Proof.
  intros s. split.
  - intros Q B. cbn [step]. destruct (queue s) as [|[i k] q] eqn:E; [congruence|]. destruct (backlog s) as [|c b]; [congruence|].
    unfold waiting, completing. rewrite E. destruct k as [x| |];
      (eexists _, i, _; split; [reflexivity|]; split; [reflexivity|]; split; [cbn; rewrite map_app, in_app_iff; right; now left|reflexivity]).
  - intros i k r p P. cbn [step]. rewrite P.
    destruct (deliver_eq i k r (mk (dsc s) (alive s) (backlog s) (queue s) p (socks s) (used s) (lost s))) as (sk & E).
    destruct (deliver_ev i k r (mk (dsc s) (alive s) (backlog s) (queue s) p (socks s) (used s) (lost s))) as (E1 & _).
    destruct (deliver i k r _) as [s' e]. cbn [fst snd] in *. subst s'. eexists _, e. split; [reflexivity|]. auto.
Qed.
Print Assumptions C74_progress.

(** The full statement on cancellation: a coroutine that is cancelled while it waits ends with operation_aborted, whatever
    happens, and no connection is taken. *)
Definition cancel_ends (ok : kind -> Prop) : Prop := forall ep ls s es i k, run (init ep) ls = Some (s, es) -> In (i, k) (queue s) -> ok k ->
  forall s1 e, step s (LCancel i) = Some (s1, e) ->
    In (i, k, RErr aborted) (posted s1) /\ backlog s1 = backlog s /\
    forall ls' s2 es', run s1 ls' = Some (s2, es') -> forall o, In (EResult i o) es' -> o = OErr aborted.

(** True of accept(sock) and wait() *)
Theorem C74_cancel_partial : cancel_ends (fun k => k <> KNew).
Proof.
  intros ep ls s es i k R Q K s1 e S. pose proof (run_inv _ _ _ _ R) as I. pose proof (nodup_waiting _ _ _ I) as (Nw & _ & Dj & Us).
  cbn [step] in S. injection S as <- <-.
  assert (F : find i (queue s) = Some k).
  { unfold find. destruct (List.find _ _) as [[j k']|] eqn:F.
    - apply find_some in F as (X & Y). apply Nat.eqb_eq in Y. cbn in Y |- *. subst j. f_equal.
      pose proof (without_perm2 _ _ _ Nw Q) as P. pose proof (Permutation_in _ P X) as [Z|Z]; [congruence|].
      apply without_In in Z as (_ & Z). now contradiction Z.
    - eapply find_none in F; [|exact Q]. cbn in F. rewrite Nat.eqb_refl in F. discriminate. }
  assert (Ck : cancellable k = true) by (destruct k; auto; now contradiction K).
  unfold cancel. rewrite F, Ck. cbn. repeat split; [rewrite in_app_iff; right; now left|].
  intros ls' s2 es' R2 o X. eapply settled_run; [|exact R2|exact X].
  assert (Wi : In i (waiting s)) by (unfold waiting; apply in_map_iff; exists (i, k); auto).
  unfold settled, waiting. cbn. repeat split.
  - now apply Us; left.
  - intros Y. apply in_map_iff in Y as (y & <- & Y). apply without_In in Y as (_ & Y). now apply Y.
  - intros k' r Y. apply in_app_iff in Y as [Y|[Y|[]]]; [|congruence]. exfalso. apply (Dj i Wi). unfold completing. apply in_map_iff. exists (i, k', r). auto.
Qed.
Print Assumptions C74_cancel_partial.

(** A waiting accept() that makes the socket does not notice: nothing changes, *)
Theorem C74_cancel_ignored : forall ep ls s es i, run (init ep) ls = Some (s, es) -> In (i, KNew) (queue s) -> step s (LCancel i) = Some (s, []).
Proof.
  intros ep ls s es i R Q. destruct (nodup_waiting _ _ _ (run_inv _ _ _ _ R)) as (N & _). cbn [step]. unfold cancel. destruct (find i (queue s)) as [k|] eqn:F; [|auto].
  apply find_In in F. pose proof (without_perm2 _ _ _ N Q) as P. pose proof (Permutation_in _ P F) as [Z|Z].
  - injection Z as <-. reflexivity.
  - apply without_In in Z as (_ & Z). now contradiction Z.
Qed.
Print Assumptions C74_cancel_ignored.

Definition ran ep ls := match run (init ep) ls with Some x => x | None => (init ep, []) end.
Ltac comp := vm_compute; reflexivity.

(** and it takes a connection afterwards. *)
Theorem C74_cancel_refuted : ~ cancel_ends (fun _ => True).
Proof.
  intros H. destruct (H true [LAccept 1 KNew] (fst (ran true [LAccept 1 KNew])) [] 1 KNew ltac:(comp) ltac:(vm_compute; auto) Logic.I _ _ eq_refl) as (X & _).
  vm_compute in X. exact X.
Qed.
Print Assumptions C74_cancel_refuted.

(** No connection is closed unseen if each socket is the target of one accept at a time and accept() is not raced. *)
Theorem C74_none_lost_partial : forall ep ls s es, run (init ep) ls = Some (s, es) -> careful (init ep) ls -> forall c, ~ In (EClosed c) es.
Proof. intros ep ls s es R C. eapply careful_run; eauto using inv_init, tidy_init. Qed.
Print Assumptions C74_none_lost_partial.

(** A race that something else wins keeps waiting for its accept(), which takes the next connection and closes it. *)
Definition raced : list label := [LAccept 1 KNew; LLose 1; LArrive 7; LReact; LDeliver].
Theorem C74_race_refuted :
  (exists s es, run (init true) [LAccept 1 KNew; LLose 1] = Some (s, es) /\ waiting s = [1] /\ completing s = []) /\
  ~ (forall ep ls s es, run (init ep) ls = Some (s, es) -> forall c, ~ In (EClosed c) es).
Proof.
  split.
  - exists (fst (ran true [LAccept 1 KNew; LLose 1])), []. repeat split; comp.
  - intros H. apply (H true raced (fst (ran true raced)) (snd (ran true raced)) ltac:(comp) 7). vm_compute. auto.
Qed.
Print Assumptions C74_race_refuted.

(** Two accepts into the same socket: the second connection is closed. *)
Definition twice : list label := [LAccept 1 (KInto 1); LAccept 2 (KInto 1); LArrive 7; LArrive 8; LReact; LReact; LDeliver; LDeliver].
Theorem C74_same_socket_refuted : exists s es, run (init true) twice = Some (s, es) /\
  es = [EResult 1 (OSock 7); EResult 2 (OErr already_open); EClosed 8] /\ (forall i, ~ In (LLose i) twice).
Proof.
  exists (fst (ran true twice)), (snd (ran true twice)). repeat split; try comp. intros i X. cbn in X. intuition discriminate.
Qed.
Print Assumptions C74_same_socket_refuted.

(** ** C75: an acceptor can be set up *)

(** Constructed with an endpoint: it is ready, listen succeeds, and an accept fails only when the acceptor is destroyed. *)
Theorem C75_endpoint : forall ls s es, run (init true) ls = Some (s, es) ->
  (alive s = true -> forall c, exists s', step s (LArrive c) = Some (s', [])) /\
  (alive s = true -> exists s', step s LListen = Some (s', [EListen None])) /\
  (forall i, ~ In (EResult i (OErr bad_descriptor)) es /\ ~ In (EResult i (OErr invalid_argument)) es).
Proof.
  intros ls s es R. repeat split.
  - intros A c. pose proof (init_desc _ _ _ _ R A) as D. cbn [step]. rewrite A, D. cbn. eexists. reflexivity.
  - intros A. pose proof (init_desc _ _ _ _ R A) as D. cbn [step]. rewrite A, D. cbn. eexists. reflexivity.
  - apply (errors_true _ _ _ R).
  - apply (errors_true _ _ _ R).
Qed.
Print Assumptions C75_endpoint.

(** The full statement: default constructed, bind and listen make it ready *)
Definition setup : Prop := forall s es, run (init false) [LBind; LListen] = Some (s, es) ->
  es = [EBind None; EListen None] /\ exists s', step s (LArrive 0) = Some (s', []).

Theorem C75_setup_refuted : ~ setup.
Proof. intros H. destruct (H _ _ eq_refl) as (X & _). discriminate. Qed.
Print Assumptions C75_setup_refuted.

(** In no history does bind ever succeed, *)
Theorem C75_bind_never : forall ep ls s es, run (init ep) ls = Some (s, es) -> ~ In (EBind None) es.
Proof.
  intros ep ls. induction ls as [|l ls IH] using rev_ind; intros s es R X.
  - injection R as <- <-. destruct X.
  - apply run_snoc in R as (s1 & e1 & e2 & R & S & ->). apply in_app_iff in X as [X|X]; [eapply IH; eauto|].
    eapply no_bind; eauto. intros A. rewrite (init_desc _ _ _ _ R A). now destruct ep.
Qed.
Print Assumptions C75_bind_never.

(** and a default constructed acceptor never gets a connection, nor does any accept of it succeed. *)
Theorem C75_default_dead : forall ls s es, run (init false) ls = Some (s, es) ->
  arrived ls = [] /\ (forall i c, ~ In (EResult i (OSock c)) es) /\ forall c, step s (LArrive c) = None.
Proof.
  intros ls s es R.
  assert (A : forall ls s es, run (init false) ls = Some (s, es) -> forall c, step s (LArrive c) = None).
  { intros ls0 s0 es0 R0 c. cbn [step]. destruct (alive s0) eqn:Al; [|reflexivity]. rewrite (init_desc _ _ _ _ R0 Al). reflexivity. }
  assert (B : forall ls s es, run (init false) ls = Some (s, es) -> arrived ls = []).
  { clear - A. intros ls. induction ls as [|l ls IH] using rev_ind; intros s es R; [reflexivity|].
    apply run_snoc in R as (s1 & e1 & e2 & R & S & ->). rewrite arrived_app, (IH _ _ R). cbn.
    destruct l; try reflexivity. rewrite (A _ _ _ R) in S. discriminate. }
  split; [eauto|]. split; [|eauto]. intros i c X.
  pose proof (i_conn _ _ _ (run_inv _ _ _ _ R)) as E. rewrite (B _ _ _ R) in E.
  assert (Y : In c (flat_map conn_of es)) by (apply in_flat_map; eexists; split; [exact X|now left]).
  destruct (flat_map conn_of es); [destruct Y|discriminate].
Qed.
Print Assumptions C75_default_dead.

(** ** The hypotheses are met *)
Definition ex : list label :=
  [LListen; LAccept 1 (KInto 1); LAccept 2 KNew; LAccept 3 KWait; LAccept 4 (KInto 2); LCancel 4; LArrive 7; LReact; LArrive 8; LReact; LDeliver; LDeliver; LDeliver;
   LAccept 5 (KInto 1); LAccept 6 (KInto 3); LArrive 9; LArrive 10; LReact; LReact; LLose 6; LDeliver; LDeliver; LDeliver; LCancel 2; LBind; LAccept 7 KNew].

Ltac none := intros; let X := fresh in intro X; vm_compute in X; repeat (destruct X as [X|X]; [discriminate|]); contradiction.
Ltac walk :=
  match goal with
  | |- careful ?s [] => exact Logic.I
  | |- careful ?s (?l :: ?r) =>
      let x := eval vm_compute in (match step s l with Some y => fst y | None => s end) in
      change (careful_at s l /\ careful x r); split;
      [match l with
       | LAccept _ (KInto _) => split; none
       | LLose _ => split; [intros; let X := fresh in intro X; subst; revert X; none|none] || (split; [|none]; let k := fresh in let X := fresh in intros k X; vm_compute in X; repeat (destruct X as [X|X]; [discriminate|]); contradiction)
       | _ => exact Logic.I
       end|]
  end.

Example C74_nonvacuous : exists s es, run (init true) ex = Some (s, es) /\ careful (init true) ex /\
  es = [EListen None; EResult 4 (OErr aborted); EResult 1 (OSock 7); EResult 2 (OSock 8); EResult 5 (OErr already_open);
        EResult 3 OReady; EDiscard 6; EHeld 3 9; EBind (Some invalid_argument)] /\
  backlog s = [10] /\ waiting s = [7] /\ arrived ex = [7; 8; 9; 10].
Proof.
  exists (fst (ran true ex)), (snd (ran true ex)). split; [comp|]. split; [|repeat split; comp].
  unfold ex. repeat walk.
Qed.

Example C75_nonvacuous : exists s es, run (init false) [LBind; LListen; LAccept 1 KNew; LDeliver; LCloseSock 1] = Some (s, es) /\
  es = [EBind (Some bad_descriptor); EListen (Some bad_descriptor); EResult 1 (OErr bad_descriptor)] /\ alive s = true.
Proof. eexists _, _. repeat split; comp. Qed.
