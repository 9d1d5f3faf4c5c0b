(** Proofs about [run]. *)
From Coq Require Import List Bool Arith Lia.
From Verif Require Import Run_Model Run_Spec.
Import ListNotations.

Section Final.
Context {V E : Type}.

Lemma mem_In k l : mem k l = true <-> In k l.
Proof.
  unfold mem. rewrite existsb_exists. split; [intros (x & H & Q); apply Nat.eqb_eq in Q; now subst|].
  intros H. exists k. split; auto. apply Nat.eqb_refl.
Qed.
Lemma del_In k j l : In j (del k l) <-> In j l /\ j <> k.
Proof. unfold del. rewrite filter_In, negb_true_iff, Nat.eqb_neq. tauto. Qed.

Lemma set_executor_sane k t t' : sane t -> set_executor k t = Some t' ->
  sane t' /\ exec t' = Some k /\ resource t' = resource t /\ alive t' = alive t /\ mine t' = mine t /\ next t' = next t.
Proof.
  unfold set_executor. intros (S1 & S2 & S3) H. destruct (mem k (alive t)) eqn:M; [|discriminate]. injection H as <-. cbn.
  apply mem_In in M. split; auto. split; cbn; auto. intros j [= <-]. auto.
Qed.
Lemma new_sane t : sane t -> sane (fst (new_context t)).
Proof.
  intros (S1 & S2 & S3). split; cbn; [|split].
  - intros k H. apply S1 in H. tauto.
  - intros k [<-|H]; [lia|]. apply S2 in H. lia.
  - auto.
Qed.
Lemma own_sane t r : sane t -> sane (mkT r (exec t) (svc t) (next t :: alive t) (next t :: mine t) (S (next t))).
Proof.
  intros (S1 & S2 & S3). split; cbn; [|split].
  - intros k H. apply S1 in H. tauto.
  - intros k [<-|H]; [lia|]. apply S2 in H. lia.
  - intros k [<-|H]; auto.
Qed.
Lemma destroy_sane k t : sane t -> sane (destroy_context k t).
Proof.
  intros (S1 & S2 & S3). split; cbn; [|split].
  - intros j H. destruct (exec t) as [i|] eqn:Ei; [|discriminate]. destruct (S1 i eq_refl) as [A B].
    destruct ((i =? k) && mem k (svc t)) eqn:G; [discriminate|]. injection H as <-. split; auto. apply del_In. split; auto.
    intros ->. rewrite Nat.eqb_refl in G. cbn in G. apply mem_In in B. congruence.
  - intros j H. apply del_In in H as [H _]. auto.
  - intros j H. apply del_In in H as [H N]. apply del_In. auto.
Qed.
Lemma res_sane r t : sane t -> sane (set_default_resource r t).
Proof. intros S. exact S. Qed.

(** [enclose] unfolded. *)
Lemma enclose_inv (p : thread -> option (thread * finish V E)) t t' f : sane t -> enclose p t = Some (t', f) ->
  exists t3 t4 t5, p t3 = Some (t4, f) /\ sane t3 /\ resource t3 = next t /\ exec t3 = Some (S (next t)) /\
    alive t3 = S (next t) :: alive t /\ mine t3 = mine t /\ next t3 = S (S (next t)) /\
    match exec t with Some k => set_executor k t4 = Some t5 | None => t5 = t4 end /\
    t' = set_default_resource (resource t) (destroy_context (S (next t)) t5).
Proof.
  intros S H. unfold enclose in H. cbn [new_context] in H.
  assert (S2 : sane (fst (new_context (mkT (next t) (exec t) (svc t) (alive t) (mine t) (Datatypes.S (next t)))))).
  { apply new_sane. destruct S as (A & B & D). split; cbn; auto. split; auto. intros k Hk. apply B in Hk. lia. }
  cbn in S2. cbn [exec resource svc alive mine next] in H.
  destruct (set_executor _ _) as [t3|] eqn:E3 in H; [|discriminate].
  destruct (set_executor_sane _ _ _ S2 E3) as (S3 & X3 & R3 & A3 & M3 & N3). cbn in R3, A3, M3, N3.
  destruct (p t3) as [[t4 f4]|] eqn:E4; [|discriminate].
  destruct (exec t) as [k|].
  - destruct (set_executor k t4) as [t5|] eqn:E5; [|discriminate]. injection H as <- <-.
    exists t3, t4, t5. auto 10.
  - injection H as <- <-. exists t3, t4, t4. auto 10.
Qed.

Definition good (t t' : thread) : Prop := sane t' /\ next t <= next t'.
Lemma enclose_good (p : thread -> option (thread * finish V E)) t t' f : sane t -> enclose p t = Some (t', f) ->
  (forall u u' f', sane u -> p u = Some (u', f') -> good u u') -> good t t'.
Proof.
  intros S H P. destruct (enclose_inv _ _ _ _ S H) as (t3 & t4 & t5 & E4 & S3 & _ & _ & _ & _ & N3 & M & ->).
  destruct (P _ _ _ S3 E4) as [S4 N4].
  assert (S5 : sane t5 /\ next t5 = next t4).
  { destruct (exec t); [destruct (set_executor_sane _ _ _ S4 M); tauto|subst; auto]. }
  destruct S5 as [S5 N5]. split; [apply res_sane, destroy_sane, S5|]. cbn. lia.
Qed.
Lemma perform_good (b : body V E) : forall t t' f, sane t -> perform b t = Some (t', f) -> good t t'.
Proof.
  induction b as [f0|k b IH|r b IH|b IH|k b IH|i IHi b IH]; intros t t' f S H; cbn [perform] in H.
  - injection H as <- <-. split; auto.
  - destruct (set_executor k t) as [t1|] eqn:E1; [|discriminate]. destruct (set_executor_sane _ _ _ S E1) as (S1 & _ & _ & _ & _ & N).
    unfold good. rewrite <- N. eapply IH; eauto.
  - apply (IH (set_default_resource r t)) in H; auto.
  - cbn [new_context resource exec svc alive mine next] in H. apply IH in H; [|now apply own_sane]. unfold good in *. cbn in H. intuition lia.
  - destruct (mem k (mine t)); [|discriminate]. apply IH in H; [|now apply destroy_sane]. exact H.
  - destruct (enclose (perform i) t) as [[t1 f1]|] eqn:E1; [|discriminate].
    pose proof (enclose_good _ _ _ _ S E1 IHi) as [S1 N]. apply IH in H; auto. unfold good in *. intuition lia.
Qed.
(** run keeps the executor that was there. *)
Lemma enclose_exec (p : thread -> option (thread * finish V E)) t t' f k : sane t -> enclose p t = Some (t', f) ->
  (forall u u' f', sane u -> p u = Some (u', f') -> good u u') -> exec t = Some k -> exec t' = Some k.
Proof.
  intros S H P Ek. destruct (enclose_inv _ _ _ _ S H) as (t3 & t4 & t5 & E4 & S3 & _ & _ & _ & _ & N3 & M & ->).
  destruct (P _ _ _ S3 E4) as [S4 N4]. rewrite Ek in M. destruct (set_executor_sane _ _ _ S4 M) as (_ & X5 & _).
  cbn. rewrite X5. destruct S as (A & B & _). destruct (A k Ek) as [Ak _]. apply B in Ak.
  destruct (Nat.eqb_spec k (Datatypes.S (next t))); [lia|]. reflexivity.
Qed.
Definition foreign k (t : thread) := ~ In k (mine t) /\ k < next t.
Lemma perform_keeps (b : body V E) : forall t t' f k, sane t -> keeps_executor b -> foreign k t -> exec t = Some k ->
  perform b t = Some (t', f) -> exec t' = Some k.
Proof.
  assert (MINE : forall (b : body V E) t t' f k, sane t -> foreign k t -> perform b t = Some (t', f) -> foreign k t').
  { clear. induction b as [f0|j b IH|r b IH|b IH|j b IH|i IHi b IH]; intros t t' f k S F H; cbn [perform] in H.
    - injection H as <- <-. auto.
    - destruct (set_executor j t) as [t1|] eqn:E1; [|discriminate]. destruct (set_executor_sane _ _ _ S E1) as (S1 & _ & _ & _ & M & N).
      eapply IH; eauto. unfold foreign. now rewrite M, N.
    - eapply (IH (set_default_resource r t)); eauto.
    - cbn [new_context resource exec svc alive mine next] in H. eapply IH; [apply own_sane, S| |exact H].
      destruct F. unfold foreign. cbn. split; [intros [Q|Q]; [lia|auto]|lia].
    - destruct (mem j (mine t)); [|discriminate]. eapply IH; [apply destroy_sane, S| |exact H].
      destruct F. unfold foreign. cbn. split; auto. intros Q. apply del_In in Q as [Q _]. auto.
    - destruct (enclose (perform i) t) as [[t1 f1]|] eqn:E1; [|discriminate].
      pose proof (enclose_good _ _ _ _ S E1 (perform_good i)) as [S1 N1].
      eapply IH; [exact S1| |exact H].
      destruct (enclose_inv _ _ _ _ S E1) as (t3 & t4 & t5 & E4 & S3 & _ & _ & _ & M3 & N3 & M & ->).
      assert (F4 : foreign k t4).
      { eapply IHi; [exact S3| |exact E4]. destruct F. unfold foreign. rewrite M3, N3. split; auto; lia. }
      assert (F5 : foreign k t5).
      { destruct (exec t); [|now subst]. destruct (set_executor_sane _ _ _ (proj1 (perform_good i _ _ _ S3 E4)) M) as (_ & _ & _ & _ & X & Y).
        unfold foreign. now rewrite X, Y. }
      destruct F5. unfold foreign. cbn. split; auto. intros Q. apply del_In in Q as [Q _]. auto. }
  induction b as [f0|j b IH|r b IH|b IH|j b IH|i IHi b IH]; intros t t' f k S K F Ek H; cbn [perform keeps_executor] in *.
  - injection H as <- <-. auto.
  - contradiction.
  - eapply (IH (set_default_resource r t)); eauto.
  - cbn [new_context resource exec svc alive mine next] in H. eapply IH; [apply own_sane, S|exact K| | |exact H]; auto.
    destruct F. unfold foreign. cbn. split; [intros [Q|Q]; [lia|auto]|lia].
  - destruct (mem j (mine t)) eqn:Mj; [|discriminate]. apply mem_In in Mj. eapply IH; [apply destroy_sane, S|exact K| | |exact H].
    + destruct F. unfold foreign. cbn. split; auto. intros Q. apply del_In in Q as [Q _]. auto.
    + cbn. rewrite Ek. destruct (Nat.eqb_spec k j); auto. subst. destruct F. contradiction.
  - destruct (enclose (perform i) t) as [[t1 f1]|] eqn:E1; [|discriminate].
    pose proof (enclose_good _ _ _ _ S E1 (perform_good i)) as [S1 N1].
    eapply IH; [exact S1|exact K| | |exact H].
    + eapply (MINE (BRun i (BEnd f1))); [exact S|exact F|]. cbn [perform]. rewrite E1. reflexivity.
    + exact (enclose_exec _ _ _ _ _ S E1 (perform_good i) Ek).
Qed.
Lemma perform_ends (b : body V E) : forall t t' f, perform b t = Some (t', f) -> f = ends b.
Proof.
  induction b as [f0|j b IH|r b IH|b IH|j b IH|i IHi b IH]; intros t t' f H; cbn [perform ends] in *; eauto.
  - congruence.
  - destruct (set_executor j t); [eauto|discriminate].
  - cbn [new_context] in H. eauto.
  - destruct (mem j (mine t)); [eauto|discriminate].
  - destruct (enclose (perform i) t) as [[t1 f1]|]; [eauto|discriminate].
Qed.

Theorem run_restores (b : body V E) t t' r : sane t -> run_task b t = Some (t', r) ->
  sane t' /\ resource t' = resource t /\ (exec t <> None \/ keeps_executor b -> exec t' = exec t).
Proof.
  intros S H. unfold run_task in H. destruct (enclose (perform b) t) as [[t1 f]|] eqn:E1; [|discriminate]. injection H as <- <-.
  pose proof (enclose_good _ _ _ _ S E1 (perform_good b)) as [S1 _]. split; auto.
  destruct (enclose_inv _ _ _ _ S E1) as (t3 & t4 & t5 & E4 & S3 & R3 & X3 & A3 & M3 & N3 & M & T). split; [subst; reflexivity|].
  intros K. destruct (exec t) as [k|] eqn:Ek.
  - exact (enclose_exec _ _ _ _ _ S E1 (perform_good b) Ek).
  - destruct K as [K|K]; [congruence|]. subst t5 t1. cbn.
    rewrite (perform_keeps b t3 t4 f (Datatypes.S (next t)) S3 K); auto.
    + rewrite Nat.eqb_refl. destruct (perform_good b _ _ _ S3 E4) as [(Q & _) _].
      assert (X4 : exec t4 = Some (Datatypes.S (next t))).
      { eapply (perform_keeps b t3 t4 f); eauto. split; [|lia]. rewrite M3. intros Z. apply S in Z. apply S in Z. lia. }
      destruct (Q _ X4) as [_ Z]. apply mem_In in Z. now rewrite Z.
    + split; [|lia]. rewrite M3. intros Z. apply S in Z. apply S in Z. lia.
Qed.
Theorem run_delivers (b : body V E) t t' r : run_task b t = Some (t', r) -> r = deliver (ends b).
Proof.
  intros H. unfold run_task, enclose in H. cbn [new_context] in H. destruct (set_executor _ _) as [t3|]; [|discriminate].
  destruct (perform b t3) as [[t4 f]|] eqn:E4; [|discriminate]. apply perform_ends in E4. subst f.
  destruct (exec _); [destruct (set_executor _ t4); [|discriminate]|]; now injection H as _ <-.
Qed.
(** What the code inside sees at its start. *)
Theorem run_inside (b : body V E) t t' r : sane t -> run_task b t = Some (t', r) ->
  exists t3 t4 f, perform b t3 = Some (t4, f) /\ exec t3 = Some (S (next t)) /\ resource t3 = next t /\
    ~ In (S (next t)) (alive t) /\ ~ In (S (next t)) (alive t').
Proof.
  intros S H. unfold run_task in H. destruct (enclose (perform b) t) as [[t1 f]|] eqn:E1; [|discriminate]. injection H as <- <-.
  destruct (enclose_inv _ _ _ _ S E1) as (t3 & t4 & t5 & E4 & S3 & R3 & X3 & A3 & M3 & N3 & M & ->).
  exists t3, t4, f. repeat split; auto.
  - intros Z. apply S in Z. lia.
  - cbn. rewrite del_In. tauto.
Qed.
Definition keeps_alive (t t' : thread) : Prop := forall k, In k (alive t) -> In k (alive t').
Lemma enclose_ok (p : thread -> option (thread * finish V E)) t : sane t ->
  (forall u, sane u -> exists u' f', p u = Some (u', f') /\ good u u' /\ keeps_alive u u') ->
  exists t' f, enclose p t = Some (t', f) /\ good t t' /\ keeps_alive t t'.
Proof.
  intros S P. unfold enclose. cbn [new_context].
  set (t2 := mkT (next t) (exec t) (svc t) (Datatypes.S (next t) :: alive t) (mine t) (Datatypes.S (Datatypes.S (next t)))).
  assert (S2 : sane t2).
  { destruct S as (A & B & D). split; cbn; [|split]; auto. { intros k Hk. apply A in Hk. tauto. } intros k [<-|Hk]; [lia|]. apply B in Hk. lia. }
  cbn [resource exec svc alive mine next]. fold t2.
  assert (E3 : set_executor (Datatypes.S (next t)) t2 = Some (mkT (next t) (Some (Datatypes.S (next t))) (Datatypes.S (next t) :: svc t) (alive t2) (mine t) (next t2))).
  { unfold set_executor. cbn. now rewrite Nat.eqb_refl. }
  rewrite E3. destruct (set_executor_sane _ _ _ S2 E3) as (S3 & _).
  destruct (P _ S3) as (t4 & f & E4 & [S4 N4] & A4). rewrite E4. cbn in N4.
  assert (KA : forall k, In k (alive t) -> In k (alive t4) /\ k <> Datatypes.S (next t)).
  { intros k Hk. split; [apply A4; cbn; auto|]. apply S in Hk. lia. }
  destruct (exec t) as [k|] eqn:Ek.
  - assert (M : mem k (alive t4) = true). { apply mem_In, KA. destruct S as (A & _). now apply A. }
    assert (E5 : set_executor k t4 = Some (mkT (resource t4) (Some k) (k :: svc t4) (alive t4) (mine t4) (next t4))).
    { unfold set_executor. now rewrite M. }
    rewrite E5. destruct (set_executor_sane _ _ _ S4 E5) as (S5 & _).
    eexists. exists f. split; [reflexivity|]. split; [split; [apply res_sane, destroy_sane, S5|cbn; lia]|].
    intros j Hj. cbn. apply del_In. now apply KA.
  - eexists. exists f. split; [reflexivity|]. split; [split; [apply res_sane, destroy_sane, S4|cbn; lia]|].
    intros j Hj. cbn. apply del_In. now apply KA.
Qed.
Lemma perform_ok (b : body V E) : plain b -> forall u, sane u -> exists u' f', perform b u = Some (u', f') /\ good u u' /\ keeps_alive u u'.
Proof.
  induction b as [f0|j b IH|r b IH|b IH|j b IH|i IHi b IH]; intros K u S; cbn [perform plain] in *; try contradiction.
  - eexists; eexists; split; [reflexivity|]. split; [split; auto|intros k; auto].
  - destruct (IH K (set_default_resource r u) S) as (u' & f' & H & G & A). exists u', f'. auto.
  - cbn [new_context resource exec svc alive mine next].
    destruct (IH K _ (own_sane u (resource u) S)) as (u' & f' & H & [G1 G2] & A). exists u', f'. cbn in G2. split; auto. split; [split; auto; lia|].
    intros k Hk. apply A. cbn. auto.
  - destruct K as [K1 K2]. destruct (enclose_ok (perform i) u S (IHi K1)) as (t1 & f1 & E1 & [S1 N1] & A1). rewrite E1.
    destruct (IH K2 t1 S1) as (u' & f' & H & [G1 G2] & A). exists u', f'. split; auto. split; [split; auto; lia|]. intros k Hk. auto.
Qed.
Theorem run_defined (b : body V E) t : sane t -> plain b -> exists t' r, run_task b t = Some (t', r).
Proof.
  intros S K. destruct (enclose_ok (perform b) t S (perform_ok b K)) as (t' & f & H & _). unfold run_task. rewrite H. eauto.
Qed.
End Final.
