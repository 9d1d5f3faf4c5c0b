(** Invariants for C85: who owns what, and the rule for users. *)
From Coq Require Import List Bool Arith Lia.
From Verif Require Import Mrs_Model Mrs_Spec Mrs_Inv.
Import ListNotations.

Definition made (p : phase) : bool := match p with Looping | Left | Dropped | Ended => true | _ => false end.
Definition b2n (b : bool) : nat := if b then 1 else 0.
Definition inloop (p : phase) : bool := match p with Looping | Left => true | _ => false end.

Record WQ (s : state) : Prop := {
  q_live : forall c o, In o (queued s c) -> o_live (obj s o) = true;
  q_nd : forall c, NoDup (queued s c);
  q_dis : forall c c' o, In o (queued s c) -> In o (queued s c') -> c = c';
  q_lt : forall c o, In o (queued s c) -> c < nres s;
  q_boot : forall c o, boot s c = Some o -> o_live (obj s o) = true /\ o_res (obj s o) = 0 /\ c < nres s /\ (forall c', ~ In o (queued s c'));
  q_bdis : forall c c' o, boot s c = Some o -> boot s c' = Some o -> c = c';
  q_used : forall o, o_live (obj s o) = true -> o_used (obj s o) = true;
  c_th : forall t, made (ph s t) = true -> refs s (tres s t) = b2n (held s t) + b2n (inloop (ph s t)) + b2n (negb (is_none (boot s (tres s t))));
  c_run : forall t x, In x (scopes s t) -> refs s (s_res x) = 1;
  c_held : forall t, held s t = true -> made (ph s t) = true }.

Lemma WQ_init : WQ init.
Proof. constructor; cbn; intros; try contradiction; try discriminate; auto; try constructor. destruct t; discriminate. Qed.

(** Freeing. *)
Lemma frees_spec : forall t os s, NoDup os ->
  (forall o, obj (fst (frees t os s)) o = if mem o os then mkObj (o_res (obj s o)) false true else obj s o) /\
  queued (fst (frees t os s)) = queued s /\ boot (fst (frees t os s)) = boot s /\ refs (fst (frees t os s)) = refs s /\
  held (fst (frees t os s)) = held s /\ stopped (fst (frees t os s)) = stopped s /\ snd (frees t os s) = map (EFree t) os.
Proof.
  induction os as [|a os IH]; intros s ND; cbn [frees].
  - cbn. repeat split; reflexivity.
  - inversion ND as [|? ? NI ND']; subst. destruct (free t a s) as [s1 e1] eqn:E.
    assert (Q : obj s1 = upd (obj s) a (mkObj (o_res (obj s a)) false true) /\ queued s1 = queued s /\ boot s1 = boot s /\ refs s1 = refs s /\ held s1 = held s /\ stopped s1 = stopped s /\ e1 = [EFree t a])
      by (unfold free in E; injection E as <- <-; repeat split; reflexivity).
    destruct Q as (Q1 & Q2 & Q3 & Q4 & Q5 & Q6 & Q7). specialize (IH s1 ND'). destruct (frees t os s1) as [s2 e2]. cbn in IH |- *.
    destruct IH as (I1 & I2 & I3 & I4 & I5 & I6 & I7). rewrite I2, I3, I4, I5, I6, I7, Q7. repeat split; auto.
    intros o. rewrite I1, Q1. unfold mem. cbn. destruct (Nat.eqb_spec o a) as [->|n]; cbn.
    + rewrite upd_same. cbn. destruct (existsb (Nat.eqb a) os) eqn:X; [|reflexivity]. exfalso. apply NI. apply existsb_exists in X. destruct X as (y & Y1 & Y2). apply Nat.eqb_eq in Y2. now subst.
    + rewrite upd_other by auto. reflexivity.
Qed.

Lemma mem_In : forall o l, mem o l = true <-> In o l.
Proof.
  intros. unfold mem. rewrite existsb_exists. split.
  - intros (y & A & B). apply Nat.eqb_eq in B. now subst.
  - intro H. exists o. split; [exact H|apply Nat.eqb_refl].
Qed.

Lemma not_queued : forall s o, WQ s -> is_queued s o = false -> (forall c, ~ In o (queued s c)) /\ (forall c, boot s c <> Some o).
Proof.
  intros s o Q H. unfold is_queued in H.
  assert (K : forall c, c < nres s -> mem o (queued s c) || is_some o (boot s c) = false).
  { intros c L. destruct (mem o (queued s c) || is_some o (boot s c)) eqn:E; [|reflexivity].
    rewrite <- H. symmetry. apply existsb_exists. exists c. split; [apply in_seq; lia|exact E]. }
  split; intros c I.
  - specialize (K c (q_lt s Q c o I)). apply orb_false_iff in K. destruct K as (K & _). apply mem_In in I. congruence.
  - destruct (q_boot s Q c o I) as (_ & _ & L & _). specialize (K c L). apply orb_false_iff in K. destruct K as (_ & K). rewrite I in K. cbn in K. now rewrite Nat.eqb_refl in K.
Qed.

(** Destroying a context. *)
Lemma destroy_spec : forall t c s, WQ s ->
  let s' := fst (destroy_ctx t c s) in
  (forall o, obj s' o = if mem o (queued s c) then mkObj (o_res (obj s o)) false true else obj s o) /\
  queued s' = upd (queued s) c [] /\ boot s' = boot s /\ refs s' = refs s /\ held s' = held s /\ snd (destroy_ctx t c s) = map (EFree t) (queued s c).
Proof.
  intros t c s Q. unfold destroy_ctx. pose proof (frees_spec t (queued s c) s (q_nd s Q c)) as H. destruct (frees t (queued s c) s) as [s1 e].
  cbn in *. destruct H as (A & B & C & D & E & F & G). rewrite B, C, D, E, G. repeat split; auto.
Qed.

(** The parts of WQ about objects only. *)
Lemma WQ_destroy : forall t c s, WQ s -> WQ (fst (destroy_ctx t c s)).
Proof.
  intros t c s Q. pose proof (destroy_spec t c s Q) as H. pose proof (same_destroy_ctx t c s) as SM. cbv zeta in H.
  destruct (destroy_ctx t c s) as [s' e]. cbn in H, SM |- *. destruct H as (A & B & C & D & E & _). destruct SM as [R1 R2 R3 R4 R5 R6].
  assert (IN : forall c1 o, In o (queued s' c1) -> c1 <> c /\ In o (queued s c1)).
  { intros c1 o I. rewrite B in I. destruct (Nat.eq_dec c1 c) as [->|n]; [rewrite upd_same in I; contradiction|]. rewrite upd_other in I by auto. auto. }
  assert (NM : forall c1 o, c1 <> c -> In o (queued s c1) -> mem o (queued s c) = false).
  { intros c1 o n I. destruct (mem o (queued s c)) eqn:M; [|reflexivity]. apply mem_In in M. exfalso. apply n. eapply (q_dis s Q); eauto. }
  constructor.
  - intros c1 o I. apply IN in I as (n & I). rewrite A, (NM c1 o n I). eapply (q_live s Q); eauto.
  - intros c1. rewrite B. destruct (Nat.eq_dec c1 c) as [->|n]; [rewrite upd_same; constructor|rewrite upd_other by auto; apply (q_nd s Q)].
  - intros c1 c2 o I1 I2. apply IN in I1 as (_ & I1), I2 as (_ & I2). eapply (q_dis s Q); eauto.
  - intros c1 o I. rewrite R2. apply IN in I as (_ & I). eapply (q_lt s Q); eauto.
  - intros c1 o Bo. rewrite C in Bo. destruct (q_boot s Q c1 o Bo) as (X1 & X2 & X3 & X4). rewrite A, R2.
    assert (M : mem o (queued s c) = false) by (destruct (mem o (queued s c)) eqn:M; [apply mem_In in M; exfalso; eapply X4; eauto|reflexivity]).
    rewrite M. repeat split; auto. intros c' I. apply IN in I as (_ & I). eapply X4; eauto.
  - intros c1 c2 o. rewrite C. apply (q_bdis s Q).
  - intros o. rewrite A. destruct (mem o (queued s c)); [discriminate|apply (q_used s Q)].
  - intros t1. rewrite R5, R6, D, C, E. apply (c_th s Q).
  - intros t1 x. rewrite R4, D. apply (c_run s Q).
  - intros t1. rewrite E, R5. apply (c_held s Q).
Qed.

Lemma remove1_In : forall o x l, In x (remove1 o l) <-> In x l /\ x <> o.
Proof.
  intros. unfold remove1. rewrite filter_In. destruct (Nat.eqb_spec x o); cbn; intuition congruence.
Qed.

(** Different pools. *)
Lemma stk_gt : forall s t, WR s -> forall l d, stk s t l d -> forall x, In x l -> forall y, In y (base s t) -> y < s_res x.
Proof.
  intros s t W. induction l as [|a l IH]; cbn; intros d S x I y Y; [contradiction|]. destruct S as (A & B & C & D & E). destruct I as [<-|I]; [|eauto].
  destruct (stk_in s t W l (s_prev a) y E ltac:(apply in_or_app; now right)) as (_ & Q & _). lia.
Qed.

Lemma tres_owner : forall s t, WR s -> made (ph s t) = true -> r_owner (res s (tres s t)) = Some t /\ 0 < tres s t < nres s.
Proof.
  intros s t W M. destruct (lib (ph s t)) eqn:L.
  - destruct (wth s W t L) as (A & B). rewrite B. auto.
  - destruct (ph s t) eqn:P; try discriminate. destruct (wend s W t P). auto.
Qed.

Lemma scope_res : forall s t x, WR s -> In x (scopes s t) -> In (s_res x) (pools s t).
Proof. intros. unfold pools. apply in_or_app. left. now apply in_map. Qed.

Lemma scope_tres : forall s t x t', WR s -> In x (scopes s t) -> made (ph s t') = true -> s_res x <> tres s t'.
Proof.
  intros s t x t' W I M E. destruct (tres_owner s t' W M) as (O & _). destruct (pools_in s t _ W (scope_res s t x W I)) as (_ & _ & _ & _ & O').
  rewrite E in O'. assert (t = t') as -> by congruence.
  assert (R : running s t' = true). { destruct (running s t') eqn:R; [reflexivity|]. rewrite (wnil s W t' R) in I. contradiction. }
  assert (Y : In (tres s t') (base s t')) by (unfold base, running in *; destruct (ph s t'); try discriminate; now left).
  pose proof (stk_gt s t' W _ _ (wstk s W t') x I _ Y). lia.
Qed.

Lemma tres_inj : forall s t t', WR s -> made (ph s t) = true -> made (ph s t') = true -> tres s t = tres s t' -> t = t'.
Proof. intros s t t' W A B E. destruct (tres_owner s t W A), (tres_owner s t' W B). congruence. Qed.

Lemma stk_nodup : forall s t, WR s -> forall l d, stk s t l d -> forall x y l', l = x :: l' -> In y l' -> s_res y < s_res x.
Proof.
  intros s t W l d S x y l' -> I. cbn in S. destruct S as (A & B & C & D & E).
  destruct (stk_in s t W l' (s_prev x) (s_res y) E ltac:(apply in_or_app; left; now apply in_map)) as (_ & Q & _). lia.
Qed.

(** Counting down the references of a thread's context. *)
Lemma WQ_drop : forall t t' s s0, WR s0 -> WQ s0 -> made (ph s0 t') = true ->
  res s = res s0 -> nres s = nres s0 -> obj s = obj s0 -> queued s = queued s0 -> def s = def s0 -> scopes s = scopes s0 -> refs s = refs s0 -> tres s = tres s0 ->
  (forall c, c <> tres s0 t' -> boot s c = boot s0 c) -> (boot s (tres s0 t') = boot s0 (tres s0 t') \/ boot s (tres s0 t') = None) ->
  (forall u, u <> t' -> ph s u = ph s0 u /\ held s u = held s0 u) -> made (ph s t') = true ->
  refs s0 (tres s0 t') = S (b2n (held s t') + b2n (inloop (ph s t')) + b2n (negb (is_none (boot s (tres s0 t'))))) ->
  WQ (fst (drop_ref t (tres s0 t') s)).
Proof.
  intros t t' s s0 W Q M E1 E2 E3 E4 E5 E6 E7 E8 Bo Bt OT Mt RF.
  set (c := tres s0 t') in *.
  set (s1 := set_refs (upd (refs s) c (refs s c - 1)) s).
  assert (Q1 : WQ s1).
  { assert (BB : forall c1 o, boot s c1 = Some o -> boot s0 c1 = Some o).
    { intros c1 o H. destruct (Nat.eq_dec c1 c) as [->|n]; [|now rewrite <- Bo]. destruct Bt as [Bt|Bt]; congruence. }
    constructor; cbn; rewrite ?E2, ?E3, ?E4, ?E6, ?E8 in *.
    - apply (q_live s0 Q).
    - apply (q_nd s0 Q).
    - apply (q_dis s0 Q).
    - apply (q_lt s0 Q).
    - intros c1 o H. apply (q_boot s0 Q c1 o). auto.
    - intros c1 c2 o H1 H2. apply (q_bdis s0 Q c1 c2 o); auto.
    - apply (q_used s0 Q).
    - intros u Mu. destruct (Nat.eq_dec u t') as [->|n].
      + fold c. rewrite upd_same, E7, RF. lia.
      + destruct (OT u n) as (P1 & P2). rewrite P1 in Mu. assert (D : tres s0 u <> c) by (intro; apply n; eapply (tres_inj s0); eauto).
        rewrite upd_other by auto. rewrite E7, P1, P2, Bo by auto. apply (c_th s0 Q u Mu).
    - intros u x I. rewrite upd_other; [rewrite E7; eapply (c_run s0 Q); eauto|]. eapply (scope_tres s0); eauto.
    - intros u H. destruct (Nat.eq_dec u t') as [->|n]; [exact Mt|]. destruct (OT u n) as (P1 & P2). rewrite P1. rewrite P2 in H. apply (c_held s0 Q u H). }
  unfold drop_ref. fold s1. cbv zeta. destruct (refs s1 c =? 0); [apply WQ_destroy; exact Q1|exact Q1].
Qed.

(** A context of run: one reference. *)
Lemma drop_run : forall t x s, WQ s -> In x (scopes s t) -> 
  drop_ref t (s_res x) s = destroy_ctx t (s_res x) (set_refs (upd (refs s) (s_res x) 0) s).
Proof.
  intros t x s Q I. unfold drop_ref. cbv zeta. rewrite (c_run s Q t x I). cbn [refs set_refs]. rewrite upd_same. reflexivity.
Qed.

(** Same objects, different bookkeeping that WQ does not see. *)
Lemma WQ_obj : forall s s', WQ s -> same s s' -> boot s' = boot s -> refs s' = refs s -> held s' = held s ->
  (forall c o, In o (queued s' c) -> o_live (obj s' o) = true) -> (forall c, NoDup (queued s' c)) ->
  (forall c c' o, In o (queued s' c) -> In o (queued s' c') -> c = c') -> (forall c o, In o (queued s' c) -> c < nres s) ->
  (forall c o, boot s c = Some o -> o_live (obj s' o) = true /\ o_res (obj s' o) = 0 /\ (forall c', ~ In o (queued s' c'))) ->
  (forall o, o_live (obj s' o) = true -> o_used (obj s' o) = true) -> WQ s'.
Proof.
  intros s s' Q [R1 R2 R3 R4 R5 R6] B C D H1 H2 H3 H4 H5 H6. constructor; auto; try rewrite R2; auto.
  - intros c o Bo. rewrite B in Bo. destruct (H5 c o Bo) as (X & Y & Z). destruct (q_boot s Q c o Bo) as (_ & _ & L & _). auto.
  - intros c c' o. rewrite B. apply (q_bdis s Q).
  - intros t. rewrite R5, R6, C, B, D. apply (c_th s Q).
  - intros t x. rewrite R4, C. apply (c_run s Q).
  - intros t. rewrite R5, D. apply (c_held s Q).
Qed.

Lemma WQ_alloc : forall t o r s, WQ s -> o_used (obj s o) = false -> WQ (fst (alloc t o r s)).
Proof.
  intros t o r s Q U. 
  assert (NL : forall x, o_live (obj s x) = true -> x <> o) by (intros x L ->; rewrite (q_used s Q o L) in U; discriminate).
  apply (WQ_obj s); cbn; auto.
  - constructor; reflexivity.
  - intros c x I. rewrite upd_other; [eapply (q_live s Q); eauto|apply NL; eapply (q_live s Q); eauto].
  - apply (q_nd s Q).
  - apply (q_dis s Q).
  - apply (q_lt s Q).
  - intros c x B. destruct (q_boot s Q c x B) as (X & Y & _ & Z). rewrite upd_other by (apply NL; exact X). auto.
  - intros x. destruct (Nat.eq_dec x o) as [->|n]; [now rewrite upd_same|rewrite upd_other by auto; apply (q_used s Q)].
Qed.

Lemma WQ_free : forall t o s, WQ s -> is_queued s o = false -> WQ (fst (free t o s)).
Proof.
  intros t o s Q U. destruct (not_queued s o Q U) as (N1 & N2).
  apply (WQ_obj s); cbn; auto.
  - constructor; reflexivity.
  - intros c x I. rewrite upd_other; [eapply (q_live s Q); eauto|intros ->; eapply N1; eauto].
  - apply (q_nd s Q).
  - apply (q_dis s Q).
  - apply (q_lt s Q).
  - intros c x B. destruct (q_boot s Q c x B) as (X & Y & _ & Z). rewrite upd_other by (intros ->; eapply N2; eauto). auto.
  - intros x. destruct (Nat.eq_dec x o) as [->|n]; [now rewrite upd_same|rewrite upd_other by auto; apply (q_used s Q)].
Qed.

Lemma WQ_flag : forall u f s, WQ s -> WQ (flag u f s).
Proof. intros u f s []; constructor; assumption. Qed.

(** New pools and contexts. *)
Lemma WQ_enter : forall s t, WR s -> WQ s -> WQ (run_enter t s).
Proof.
  intros s t W Q.
  assert (NF : forall c o, In o (upd (queued s) (nres s) [] c) -> In o (queued s c) /\ c <> nres s).
  { intros c o I. destruct (Nat.eq_dec c (nres s)) as [->|n]; [rewrite upd_same in I; contradiction|rewrite upd_other in I by auto; auto]. }
  assert (BF : forall c o, upd (boot s) (nres s) None c = Some o -> boot s c = Some o).
  { intros c o I. destruct (Nat.eq_dec c (nres s)) as [->|n]; [rewrite upd_same in I; discriminate|rewrite upd_other in I by auto; auto]. }
  constructor; cbn.
  - intros c o I. apply NF in I as (I & _). eapply (q_live s Q); eauto.
  - intros c. destruct (Nat.eq_dec c (nres s)) as [->|n]; [rewrite upd_same; constructor|rewrite upd_other by auto; apply (q_nd s Q)].
  - intros c c' o I I'. apply NF in I as (I & _), I' as (I' & _). eapply (q_dis s Q); eauto.
  - intros c o I. apply NF in I as (I & _). pose proof (q_lt s Q c o I). lia.
  - intros c o B. apply BF in B. destruct (q_boot s Q c o B) as (X & Y & L & Z). repeat split; auto. intros c' I. apply NF in I as (I & _). eapply Z; eauto.
  - intros c c' o B B'. apply BF in B, B'. eapply (q_bdis s Q); eauto.
  - apply (q_used s Q).
  - intros u M. destruct (tres_owner s u W M) as (_ & L). rewrite !upd_other by lia. apply (c_th s Q u M).
  - intros u x I. destruct (Nat.eq_dec u t) as [->|n].
    + rewrite upd_same in I. destruct I as [<-|I]; [cbn; now rewrite upd_same|]. destruct (pools_in s t _ W (scope_res s t x W I)) as (_ & _ & L & _). rewrite upd_other by lia. eapply (c_run s Q); eauto.
    + rewrite upd_other in I by auto. destruct (pools_in s u _ W (scope_res s u x W I)) as (_ & _ & L & _). rewrite upd_other by lia. eapply (c_run s Q); eauto.
  - apply (c_held s Q).
Qed.

Lemma WQ_start : forall s t' o, WR s -> WQ s -> ph s t' = Absent -> o_live (obj s o) = true -> o_res (obj s o) = 0 ->
  (forall c, ~ In o (queued s c)) -> (forall c, boot s c <> Some o) -> WQ (start t' o s).
Proof.
  intros s t' o W Q P OL OR NQ NB.
  assert (SC : scopes s t' = []) by (apply (wnil s W); unfold running; now rewrite P).
  assert (NF : forall c o, In o (upd (queued s) (nres s) [] c) -> In o (queued s c) /\ c <> nres s).
  { intros c o0 I. destruct (Nat.eq_dec c (nres s)) as [->|n]; [rewrite upd_same in I; contradiction|rewrite upd_other in I by auto; auto]. }
  assert (BF : forall c o1, upd (boot s) (nres s) (Some o) c = Some o1 -> (c = nres s /\ o1 = o) \/ (c <> nres s /\ boot s c = Some o1)).
  { intros c o0 I. destruct (Nat.eq_dec c (nres s)) as [->|n]; [rewrite upd_same in I; left; split; congruence|rewrite upd_other in I by auto; auto]. }
  constructor; cbn.
  - intros c x I. apply NF in I as (I & _). eapply (q_live s Q); eauto.
  - intros c. destruct (Nat.eq_dec c (nres s)) as [->|n]; [rewrite upd_same; constructor|rewrite upd_other by auto; apply (q_nd s Q)].
  - intros c c' x I I'. apply NF in I as (I & _), I' as (I' & _). eapply (q_dis s Q); eauto.
  - intros c x I. apply NF in I as (I & _). pose proof (q_lt s Q c x I). lia.
  - intros c x B. apply BF in B as [(-> & ->)|(n & B)].
    + repeat split; auto. intros c' I. apply NF in I as (I & _). eapply NQ; eauto.
    + destruct (q_boot s Q c x B) as (X & Y & L & Z). repeat split; auto. intros c' I. apply NF in I as (I & _). eapply Z; eauto.
  - intros c c' x B B'. apply BF in B as [(-> & ->)|(n & B)], B' as [(-> & E)|(n' & B')]; auto; try (subst; exfalso; eapply NB; eauto; fail).
    eapply (q_bdis s Q); eauto.
  - apply (q_used s Q).
  - intros u M. destruct (Nat.eq_dec u t') as [->|n].
    + rewrite !upd_same. reflexivity.
    + rewrite (upd_other _ (ph s)) in M by auto. rewrite (upd_other _ (tres s)), (upd_other _ (held s)), (upd_other _ (ph s)) by auto. destruct (tres_owner s u W M) as (_ & L). rewrite !upd_other by lia. apply (c_th s Q u M).
  - intros u x I. destruct (pools_in s u _ W (scope_res s u x W I)) as (_ & _ & L & _). rewrite upd_other by lia. eapply (c_run s Q); eauto.
  - intros u H. destruct (Nat.eq_dec u t') as [->|n]; [now rewrite upd_same|]. rewrite upd_other in * by auto. now apply (c_held s Q).
Qed.

Lemma WQ_leave : forall s t x l, WR s -> WQ s -> scopes s t = x :: l -> WQ (fst (run_leave t x l s)).
Proof.
  intros s t x l W Q E. unfold run_leave. rewrite drop_run by (auto; rewrite E; now left).
  set (s0 := set_refs (upd (refs s) (s_res x) 0) s).
  (* WQ but for the references of this context *)
  pose proof (same_destroy_ctx t (s_res x) s0) as SM.
  assert (FS := frees_spec t (queued s (s_res x)) s0 (q_nd s Q _)). unfold destroy_ctx in SM |- *. change (queued s0) with (queued s) in SM |- *.
  destruct (frees t (queued s (s_res x)) s0) as [s1 e]. cbn in FS, SM. destruct FS as (A & B & C & D & F & _ & G).
  unfold seq2, destroy_res. cbn.
  destruct SM as [R1 R2 R3 R4 R5 R6]. cbn in *.
  set (c := s_res x) in *.
  assert (IN : forall c1 o, In o (upd (queued s1) c [] c1) -> c1 <> c /\ In o (queued s c1)).
  { intros c1 o I. rewrite B in I. destruct (Nat.eq_dec c1 c) as [->|n]; [rewrite upd_same in I; contradiction|]. rewrite upd_other in I by auto. auto. }
  assert (NM : forall c1 o, c1 <> c -> In o (queued s c1) -> mem o (queued s c) = false).
  { intros c1 o n I. destruct (mem o (queued s c)) eqn:M; [|reflexivity]. apply mem_In in M. exfalso. apply n. eapply (q_dis s Q); eauto. }
  constructor; cbn.
  - intros c1 o I. apply IN in I as (n & I). rewrite A, (NM c1 o n I). eapply (q_live s Q); eauto.
  - intros c1. rewrite B. destruct (Nat.eq_dec c1 c) as [->|n]; [rewrite upd_same; constructor|rewrite upd_other by auto; apply (q_nd s Q)].
  - intros c1 c2 o I1 I2. apply IN in I1 as (_ & I1), I2 as (_ & I2). eapply (q_dis s Q); eauto.
  - intros c1 o I. rewrite R2. apply IN in I as (_ & I). eapply (q_lt s Q); eauto.
  - intros c1 o Bo. rewrite C in Bo. destruct (q_boot s Q c1 o Bo) as (X1 & X2 & X3 & X4). rewrite A, R2.
    assert (M : mem o (queued s c) = false) by (destruct (mem o (queued s c)) eqn:M; [apply mem_In in M; exfalso; eapply X4; eauto|reflexivity]).
    rewrite M. repeat split; auto. intros c' I. apply IN in I as (_ & I). eapply X4; eauto.
  - intros c1 c2 o. rewrite C. apply (q_bdis s Q).
  - intros o. rewrite A. destruct (mem o (queued s c)); [discriminate|apply (q_used s Q)].
  - intros u M. rewrite R5, R6, D, C, F in *. rewrite upd_other; [apply (c_th s Q u M)|]. intro X. symmetry in X. revert X. apply (scope_tres s t); auto. rewrite E. now left.
  - intros u y I. rewrite R4, D in *.
    assert (CX : In x (scopes s t)) by (rewrite E; now left).
    destruct (Nat.eq_dec u t) as [->|n].
    + rewrite upd_same in I. assert (LT := stk_nodup s t W _ _ (wstk s W t) x y l E I). rewrite upd_other by (fold c; unfold c; lia). apply (c_run s Q t). rewrite E. now right.
    + rewrite upd_other in I by auto. rewrite upd_other; [eapply (c_run s Q); eauto|].
      intro X. destruct (pools_in s u _ W (scope_res s u y W I)) as (_ & _ & _ & _ & O1). destruct (pools_in s t _ W (scope_res s t x W CX)) as (_ & _ & _ & _ & O2).
      rewrite X in O1. unfold c in O1. congruence.
  - intros u. rewrite F, R5. apply (c_held s Q).
Qed.

Lemma WQ_step : forall s l s' es, WR s -> WQ s -> step s l = Some (s', es) -> WQ s'.
Proof.
  intros s l s' es W Q H. destruct l; cbn -[Nat.ltb Nat.eqb] in H.
  - destruct (running s t) eqn:R; [|discriminate]. injection H as <- <-. now apply WQ_enter.
  - destruct (running s t) eqn:R; [|discriminate]. destruct (scopes s t) as [|x l] eqn:E; [discriminate|].
    assert (X := WQ_leave s t x l W Q E). injection H as H. now rewrite H in X.
  - destruct (running s t && negb (o_used (obj s o))) eqn:R; [|discriminate]. destruct (ph s t') eqn:P; try discriminate. injection H as <- <-.
    apply andb_true_iff in R as (_ & U). apply negb_true_iff in U.
    assert (NL : forall x, o_live (obj s x) = true -> x <> o) by (intros x L ->; rewrite (q_used s Q o L) in U; discriminate).
    match goal with |- WQ (start t' o ?S) => assert (Q1 : WQ S) by (exact (WQ_alloc t o 0 s Q U)); assert (W1 : WR S) by (eapply WR_same; [|exact W]; constructor; reflexivity) end.
    apply WQ_start; auto; cbn.
    + now rewrite upd_same.
    + now rewrite upd_same.
    + intros c I. eapply NL; [|reflexivity]. eapply (q_live s Q); eauto.
    + intros c I. eapply NL; [|reflexivity]. eapply (q_boot s Q); eauto.
  - destruct (ph s t') eqn:P; try discriminate. destruct (boot s (tres s t')) eqn:B; [|discriminate]. destruct (stopped s t'); [discriminate|]. injection H as H.
    assert (M : made (ph s t') = true) by now rewrite P.
    assert (X := WQ_drop t' t' (set_boot (upd (boot s) (tres s t') None) s) s W Q M). rewrite H in X. apply X; cbn; auto.
    + intros c1 n1. now rewrite upd_other.
    + right. now rewrite upd_same.
    + rewrite upd_same. rewrite (c_th s Q t' M), B. cbn. lia.
  - destruct (running s t && held s t'); [|discriminate]. injection H as <- <-. destruct Q; constructor; assumption.
  - destruct (running s t && held s t') eqn:R; [|discriminate]. injection H as H. apply andb_true_iff in R as (_ & HH).
    assert (M := c_held s Q t' HH).
    assert (X := WQ_drop t t' (set_held t' false s) s W Q M). rewrite H in X. apply X; cbn; auto.
    + intros u n. now rewrite upd_other.
    + rewrite upd_same. rewrite (c_th s Q t' M), HH. cbn. lia.
  - destruct (ph s t') eqn:P; try discriminate. destruct (is_nil (scopes s t') && may_leave s t' w); [|discriminate]. injection H as <- <-.
    destruct Q as [a b c d e f g h i j]. constructor; auto.
    + intros u M. cbn in *. destruct (Nat.eq_dec u t') as [->|n]; [|rewrite upd_other in * by auto; now apply h]. rewrite upd_same in *. rewrite (h t') by (now rewrite P). now rewrite P.
    + intros u M. cbn in *. destruct (Nat.eq_dec u t') as [->|n]; [now rewrite upd_same|rewrite upd_other by auto; now apply j].
  - destruct (ph s t') eqn:P; try discriminate. injection H as H.
    assert (M : made (ph s t') = true) by now rewrite P.
    assert (X := WQ_drop t' t' (set_ph t' Dropped s) s W Q M). rewrite H in X. apply X; cbn; auto.
    + intros u n. now rewrite upd_other.
    + now rewrite upd_same.
    + rewrite upd_same. rewrite (c_th s Q t' M), P. cbn. lia.
  - destruct (ph s t') eqn:P; try discriminate. injection H as <- <-.
    destruct Q as [a b c d e f g h i j]. constructor; auto.
    + intros u M. cbn in *. destruct (Nat.eq_dec u t') as [->|n]; [|rewrite upd_other in * by auto; now apply h]. rewrite upd_same in *. rewrite (h t') by (now rewrite P). now rewrite P.
    + intros u M. cbn in *. destruct (Nat.eq_dec u t') as [->|n]; [now rewrite upd_same|rewrite upd_other by auto; now apply j].
  - destruct (running s t && negb (o_used (obj s o))) eqn:R; [|discriminate]. injection H as <- <-. apply andb_true_iff in R as (_ & U). apply negb_true_iff in U. exact (WQ_alloc t o (def s t) s Q U).
  - destruct (running s t && negb (o_used (obj s o)) && (r <? nres s)) eqn:R; [|discriminate]. injection H as <- <-. apply andb_true_iff in R as (R & _). apply andb_true_iff in R as (_ & U). apply negb_true_iff in U. exact (WQ_alloc t o r s Q U).
  - destruct (running s t && negb (o_used (obj s o')) && o_used (obj s o) && negb (is_queued s o)) eqn:R; [|discriminate]. injection H as <- <-.
    apply andb_true_iff in R as (R & NQ). apply andb_true_iff in R as (R & U'). apply andb_true_iff in R as (_ & U). apply negb_true_iff in U, NQ.
    change (WQ (fst (free t o (fst (use t o (fst (alloc t o' 0 s))))))). apply WQ_free; [exact (WQ_flag _ _ _ (WQ_alloc t o' 0 s Q U))|exact NQ].
  - destruct (running s t && o_live (obj s o) && negb (is_queued s o) && (0 <? c) && (c <? nres s) && negb (refs s c =? 0)) eqn:R; [|discriminate]. injection H as <- <-.
    apply andb_true_iff in R as (R & _). apply andb_true_iff in R as (R & L). apply andb_true_iff in R as (R & _). apply andb_true_iff in R as (R & NQ). apply andb_true_iff in R as (_ & OL). apply negb_true_iff in NQ. apply Nat.ltb_lt in L.
    destruct (not_queued s o Q NQ) as (N1 & N2).
    assert (IN : forall c1 x, In x (upd (queued s) c (o :: queued s c) c1) -> (c1 = c /\ x = o) \/ (x <> o /\ In x (queued s c1))).
    { intros c1 x I. destruct (Nat.eq_dec c1 c) as [->|n]; [rewrite upd_same in I; destruct I as [<-|I]|rewrite upd_other in I by auto]; auto; right; (split; [intros ->; eapply N1; eauto|exact I]). }
    apply (WQ_obj s); cbn; auto.
    + constructor; reflexivity.
    + intros c1 x I. apply IN in I as [(-> & ->)|(_ & I)]; [exact OL|eapply (q_live s Q); eauto].
    + intros c1. destruct (Nat.eq_dec c1 c) as [->|n]; [rewrite upd_same; constructor; [apply N1|apply (q_nd s Q)]|rewrite upd_other by auto; apply (q_nd s Q)].
    + intros c1 c2 x I1 I2. apply IN in I1 as [(-> & ->)|(n1 & I1)], I2 as [(-> & E2)|(n2 & I2)]; auto; try congruence. eapply (q_dis s Q); eauto.
    + intros c1 x I. apply IN in I as [(-> & ->)|(_ & I)]; [exact L|eapply (q_lt s Q); eauto].
    + intros c1 x B. destruct (q_boot s Q c1 x B) as (X & Y & _ & Z). repeat split; auto. intros c' I. apply IN in I as [(-> & ->)|(_ & I)]; [eapply N2; eauto|eapply Z; eauto].
    + apply (q_used s Q).
  - destruct (running s t && mem o (queued s c)) eqn:R; [|discriminate]. injection H as <- <-.
    assert (IN : forall c1 x, In x (upd (queued s) c (remove1 o (queued s c)) c1) -> In x (queued s c1)).
    { intros c1 x I. destruct (Nat.eq_dec c1 c) as [->|n]; [rewrite upd_same in I; now apply remove1_In in I as (I & _)|now rewrite upd_other in I by auto]. }
    apply (WQ_obj s); cbn; auto.
    + constructor; reflexivity.
    + intros c1 x I. apply IN in I. eapply (q_live s Q); eauto.
    + intros c1. destruct (Nat.eq_dec c1 c) as [->|n]; [rewrite upd_same; apply NoDup_filter, (q_nd s Q)|rewrite upd_other by auto; apply (q_nd s Q)].
    + intros c1 c2 x I1 I2. apply IN in I1, I2. eapply (q_dis s Q); eauto.
    + intros c1 x I. apply IN in I. eapply (q_lt s Q); eauto.
    + intros c1 x B. destruct (q_boot s Q c1 x B) as (X & Y & _ & Z). repeat split; auto. intros c' I. apply IN in I. eapply Z; eauto.
    + apply (q_used s Q).
  - destruct (running s t && o_used (obj s o) && negb (is_queued s o)) eqn:R; [|discriminate]. injection H as <- <-. apply andb_true_iff in R as (_ & NQ). apply negb_true_iff in NQ. exact (WQ_free t o s Q NQ).
  - destruct (running s t && o_used (obj s o)); [|discriminate]. injection H as <- <-. now apply WQ_flag.
Qed.
