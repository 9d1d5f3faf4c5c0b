(** * Proofs about wait_group *)
From Coq Require Import List Bool Arith Lia.
From Verif Require Import Wg_Model Wg_Spec.
Import ListNotations.

Ltac inv H := inversion H; subst; clear H.

Lemma group_snoc : forall tr e, group (tr ++ [e]) = gstep (group tr) e.
Proof. intros. unfold group. rewrite fold_left_app. reflexivity. Qed.

Lemma watch_group : forall tr g w, fst (fold_left wstep tr (g, w)) = fold_left gstep tr g.
Proof. induction tr as [|e tr IH]; intros; cbn; auto. destruct (wstep (g, w) e) as [g1 w1] eqn:E.
  unfold wstep in E. cbn in E. inv E. apply IH. Qed.

Lemma open_snoc : forall tr e, open_wait (tr ++ [e]) =
  match e with
  | EOneBegin => WOne (group tr)
  | EAllBegin _ => WAll (group tr)
  | EOne _ _ | EAll _ => NoWait
  | _ => open_wait tr
  end.
Proof.
  intros. unfold open_wait. rewrite fold_left_app. cbn.
  rewrite watch_group. fold (group tr). destruct e; reflexivity.
Qed.

Lemma finished_snoc : forall tr e p, finished (tr ++ [e]) p =
  finished tr p || match e with EFinish q _ => q =? p | _ => false end.
Proof. intros. unfold finished. rewrite existsb_app. cbn. rewrite orb_false_r. reflexivity. Qed.

Lemma consumed_snoc : forall tr e p, consumed (tr ++ [e]) p =
  consumed tr p || match e with EOne (Some (q, _)) _ => q =? p | EAllBegin ps => mem p ps | _ => false end.
Proof. intros. unfold consumed. rewrite existsb_app. cbn. rewrite orb_false_r. reflexivity. Qed.

Lemma mem_in : forall p l, mem p l = true <-> In p l.
Proof.
  intros. unfold mem. rewrite existsb_exists. split.
  - intros (q & I & E). apply Nat.eqb_eq in E as ->. auto.
  - intros I. exists p. split; auto. apply Nat.eqb_refl.
Qed.

Lemma mem_not : forall p l, mem p l = false <-> ~ In p l.
Proof. intros. rewrite <- mem_in. destruct (mem p l); intuition congruence. Qed.

Lemma without_nil : forall l, without [] l = l.
Proof. unfold without, mem. induction l as [|a l IH]; cbn in *; congruence. Qed.

Lemma without_all : forall l, without l l = [].
Proof.
  intros l. unfold without. destruct (filter (fun p => negb (mem p l)) l) as [|x r] eqn:E; auto.
  assert (I : In x (filter (fun p => negb (mem p l)) l)) by (rewrite E; left; auto).
  apply filter_In in I as [I N]. apply mem_in in I. rewrite I in N. discriminate.
Qed.

Lemma without_filter : forall f l, NoDup l -> without (filter f l) l = filter (fun p => negb (f p)) l.
Proof.
  intros f l _. unfold without. apply filter_ext_in. intros p I. f_equal.
  destruct (f p) eqn:F; [apply mem_in; apply filter_In; auto|].
  apply mem_not. intros J. apply filter_In in J as [_ J]. congruence.
Qed.

Lemma without_cons : forall p q l, without [p] (q :: l) = if q =? p then without [p] l else q :: without [p] l.
Proof. intros. unfold without, mem. cbn. rewrite orb_false_r, Nat.eqb_sym. destruct (q =? p); auto. Qed.

Lemma without_absent : forall p l, ~ In p l -> without [p] l = l.
Proof.
  induction l as [|q l IH]; intros N; auto. rewrite without_cons.
  destruct (q =? p) eqn:E; [apply Nat.eqb_eq in E as ->; exfalso; apply N; left; auto|].
  rewrite IH; auto. intros I. apply N. right; auto.
Qed.

Lemma erase_index : forall l p, In p l -> NoDup l ->
  erase_nth (index_of p l) l = without [p] l /\ nth_error l (index_of p l) = Some p.
Proof.
  induction l as [|q l IH]; intros p I N; [destruct I|]. inversion N as [|? ? N1 N2]; subst.
  rewrite without_cons. cbn. destruct (q =? p) eqn:E; cbn.
  - apply Nat.eqb_eq in E as ->. rewrite without_absent; auto.
  - destruct I as [->|I]; [rewrite Nat.eqb_refl in E; discriminate|].
    destruct (IH p I N2) as [A B]. rewrite A, B. auto.
Qed.

Lemma index_prefix : forall l r p, In p l -> index_of p (l ++ r) = index_of p l.
Proof.
  induction l as [|q l IH]; intros r p I; [destruct I|]. cbn. destruct (q =? p) eqn:E; auto.
  destruct I as [->|I]; [rewrite Nat.eqb_refl in E; discriminate|]. rewrite IH; auto.
Qed.

(** cancellation signals change nothing *)
Definition silent (es : list event) : Prop := forall e, In e es -> exists p ct, e = ECancel p ct.

Lemma silent_facts : forall es tr, silent es ->
  group (tr ++ es) = group tr /\ open_wait (tr ++ es) = open_wait tr /\
  (forall p, finished (tr ++ es) p = finished tr p) /\ (forall p, consumed (tr ++ es) p = consumed tr p) /\
  (forall p ok, In (EFinish p ok) (tr ++ es) <-> In (EFinish p ok) tr) /\
  (forall p, In (EPush p) (tr ++ es) <-> In (EPush p) tr).
Proof.
  intros es. induction es as [|e es IH]; intros tr S.
  - rewrite app_nil_r. intuition.
  - replace (tr ++ e :: es) with ((tr ++ [e]) ++ es) by (rewrite <- app_assoc; auto).
    destruct (IH (tr ++ [e])) as (A & B & C & D & E & F). { intros x X. apply S. right; auto. }
    destruct (S e (or_introl eq_refl)) as (p & ct & ->).
    rewrite A, B, group_snoc, open_snoc. cbn. unfold gstep, removed. rewrite without_nil.
    repeat split; auto.
    + intros q. rewrite C, finished_snoc. apply orb_false_r.
    + intros q. rewrite D, consumed_snoc. apply orb_false_r.
    + intros I. apply E in I. apply in_app_or in I as [I|[I|[]]]; auto; discriminate.
    + intros I. apply E. apply in_or_app; auto.
    + intros I. apply F in I. apply in_app_or in I as [I|[I|[]]]; auto; discriminate.
    + intros I. apply F. apply in_or_app; auto.
Qed.

Lemma cancel_silent : forall s ct, silent (cancel_all s ct).
Proof. intros s ct e I. unfold cancel_all in I. apply in_map_iff in I as (p & <- & _). eauto. Qed.

(** ** What holds at every event *)
Definition GOOD (pre : list event) (e : event) : Prop :=
  match e with
  | EOne (Some (p, true)) rm => rm = [p] /\ In p (group pre) /\ In (EFinish p true) pre
  | EOne (Some (p, false)) rm => rm = [] /\ In p (group pre) /\ In (EFinish p false) pre
  | EOne None rm => rm = [] /\ group pre = []
  | EAllBegin ps => ps = group pre
  | EAll rm => rm = group pre /\ exists snap later, open_wait pre = WAll snap /\ group pre = snap ++ later /\
                 forall p, In p snap -> finished pre p = true
  | EReap rm => rm = filter (fun p => finished pre p && negb (consumed pre p)) (group pre)
  | ECancel p _ => In (EPush p) pre /\ finished pre p = false
  | EPush p => ~ In p (group pre) /\ ~ In (EPush p) pre
  | _ => True
  end.

Fixpoint goods (tr es : list event) : Prop :=
  match es with
  | [] => True
  | e :: r => GOOD tr e /\ goods (tr ++ [e]) r
  end.

Lemma goods_app : forall a b tr, goods tr (a ++ b) <-> goods tr a /\ goods (tr ++ a) b.
Proof.
  induction a as [|e a IH]; intros b tr; cbn.
  - rewrite app_nil_r. tauto.
  - rewrite IH, <- app_assoc. cbn. tauto.
Qed.

Lemma goods_at : forall es tr pre e post, goods tr es -> es = pre ++ e :: post -> GOOD (tr ++ pre) e.
Proof. intros es tr pre e post G ->. apply goods_app in G as [_ [G _]]. auto. Qed.

Record INV (s : state) (tr : list event) : Prop := mkI
  { I_mem : members s = group tr;
    I_nd : NoDup (members s);
    I_live : forall p, In p (members s) -> In (EPush p) tr;
    I_pushed : forall p, In (EPush p) tr -> st s p <> Fresh;
    I_fin : forall p, finished tr p = isdone (st s p);
    I_ok : forall p ok t, st s p = Done ok t -> In (EFinish p ok) tr /\ t = consumed tr p;
    I_cons : forall p, isdone (st s p) = false -> consumed tr p = true ->
             exists snap, pend s = WAll snap /\ In p snap;
    I_open : open_wait tr = pend s;
    I_one : forall snap, pend s = WOne snap -> (exists later, members s = snap ++ later) /\
            forall p, In p snap -> st s p = Running;
    I_all : forall snap, pend s = WAll snap -> (exists later, members s = snap ++ later) /\
            (exists p, In p snap /\ st s p = Running) /\
            forall p, In p snap -> st s p = Running \/ exists ok, st s p = Done ok true;
    I_allc : forall snap p, pend s = WAll snap -> In p snap -> consumed tr p = true }.

Lemma init_INV : INV init [].
Proof.
  constructor; cbn; auto; try discriminate; try tauto. constructor.
Qed.

Lemma running_pushed : forall s tr p, INV s tr -> In p (members s) -> st s p <> Fresh.
Proof. intros s tr p [] I. apply I_pushed0. auto. Qed.

Lemma cancel_goods : forall s tr ct, INV s tr -> goods tr (cancel_all s ct).
Proof.
  intros s tr ct H. pose proof (cancel_silent s ct) as S. unfold cancel_all in *.
  assert (G : forall ps tr0, (forall p, In p ps -> In (EPush p) tr0 /\ finished tr0 p = false) ->
     goods tr0 (map (fun p => ECancel p ct) ps)).
  { induction ps as [|p ps IH]; intros tr0 A; cbn; auto. split; [apply A; left; auto|].
    apply IH. intros q Q. destruct (A q (or_intror Q)) as [A1 A2].
    rewrite finished_snoc, A2. split; auto. apply in_or_app; auto. }
  apply G. intros p I. apply filter_In in I as [I R]. destruct H. split; auto.
  rewrite I_fin0. destruct (st s p); auto; discriminate.
Qed.

(** all_done: every promise of the wait is done *)
Lemma all_done_INV : forall s tr s' es snap, all_done s = (s', es) ->
  members s = group tr -> NoDup (members s) ->
  (forall p, In p (members s) -> In (EPush p) tr) ->
  (forall p, In (EPush p) tr -> st s p <> Fresh) ->
  (forall p, finished tr p = isdone (st s p)) ->
  (forall p ok t, st s p = Done ok t -> In (EFinish p ok) tr /\ t = consumed tr p) ->
  open_wait tr = WAll snap ->
  (exists later, members s = snap ++ later) ->
  (forall p, In p snap -> isdone (st s p) = true) ->
  (forall p, isdone (st s p) = false -> consumed tr p = true -> In p snap) ->
  INV s' (tr ++ es) /\ goods tr es.
Proof.
  intros s tr s' es snap AD M ND LV PU FI OK OP (later & PX) DN CO.
  unfold all_done in AD. inv AD.
  set (e := EAll (members s)) in *.
  assert (G1 : group (tr ++ [e]) = []).
  { rewrite group_snoc. unfold gstep, e. cbn. rewrite <- M. apply without_all. }
  assert (O1 : open_wait (tr ++ [e]) = NoWait) by (rewrite open_snoc; auto).
  assert (F1 : forall p, finished (tr ++ [e]) p = finished tr p) by (intros; rewrite finished_snoc; apply orb_false_r).
  assert (C1 : forall p, consumed (tr ++ [e]) p = consumed tr p) by (intros; rewrite consumed_snoc; apply orb_false_r).
  destruct (silent_facts _ (tr ++ [e]) (cancel_silent s ct_all)) as (S1 & S2 & S3 & S4 & S5 & S6).
  replace (tr ++ e :: cancel_all s ct_all) with ((tr ++ [e]) ++ cancel_all s ct_all) by (rewrite <- app_assoc; auto).
  split.
  - constructor; cbn.
    + rewrite S1. auto.
    + constructor.
    + tauto.
    + intros p I. apply S6 in I. apply in_app_or in I as [I|[I|[]]]; auto; discriminate.
    + intros p. rewrite S3, F1. auto.
    + intros p ok t D. destruct (OK p ok t D) as [A B]. rewrite S4, C1. split; auto. apply S5. apply in_or_app; auto.
    + intros p D C. rewrite S4, C1 in C. pose proof (CO p D C) as I. rewrite (DN p I) in D. discriminate.
    + rewrite S2. auto.
    + discriminate.
    + discriminate.
    + discriminate.
  - split.
    + cbn. split; [auto|]. exists snap, later. split; auto. split; [congruence|]. intros p I. rewrite FI. auto.
    + unfold cancel_all.
      assert (G : forall ps tr0, (forall p, In p ps -> In (EPush p) tr0 /\ finished tr0 p = false) ->
         goods tr0 (map (fun p => ECancel p ct_all) ps)).
      { induction ps as [|p ps IH]; intros tr0 A; cbn; auto. split; [apply A; left; auto|].
        apply IH. intros q Q. destruct (A q (or_intror Q)) as [A1 A2].
        rewrite finished_snoc, A2. split; auto. apply in_or_app; auto. }
      apply G. intros p I. apply filter_In in I as [I R]. rewrite F1, FI. split; [apply in_or_app; auto|].
      destruct (st s p); auto; discriminate.
Qed.

Lemma begin_INV : forall s tr s' es, INV s tr -> idle s = true -> begin_wait s = (s', es) ->
  INV s' (tr ++ es) /\ goods tr es.
Proof.
  intros s tr s' es H ID BW. pose proof H as [M ND LV PU FI OK CO OP ON AL AC].
  assert (PN : pend s = NoWait) by (unfold idle in ID; destruct (pend s); auto; discriminate).
  unfold begin_wait in BW. destruct (members s) as [|m ms] eqn:MS.
  - inv BW. split.
    + constructor; rewrite ?MS; cbn.
      * change [EAllBegin []; EAll []] with ([EAllBegin []] ++ [EAll []]). rewrite app_assoc, !group_snoc. cbn.
        rewrite <- M. reflexivity.
      * constructor.
      * tauto.
      * intros p I. apply in_app_or in I as [I|[I|[I|[]]]]; auto; discriminate.
      * intros p. change [EAllBegin []; EAll []] with ([EAllBegin []] ++ [EAll []]). rewrite app_assoc, !finished_snoc, !orb_false_r. auto.
      * intros p ok t D. change [EAllBegin []; EAll []] with ([EAllBegin []] ++ [EAll []]). rewrite app_assoc, !consumed_snoc. cbn. rewrite !orb_false_r.
        destruct (OK _ _ _ D). split; auto. apply in_or_app; left. apply in_or_app; auto.
      * intros p D. change [EAllBegin []; EAll []] with ([EAllBegin []] ++ [EAll []]). rewrite app_assoc, !consumed_snoc. cbn. rewrite !orb_false_r. auto.
      * change [EAllBegin []; EAll []] with ([EAllBegin []] ++ [EAll []]). rewrite app_assoc, open_snoc. auto.
      * rewrite PN. discriminate.
      * rewrite PN. discriminate.
      * rewrite PN. discriminate.
    + cbn. split; [auto|]. split; auto. rewrite group_snoc. cbn. rewrite <- M. cbn. split; auto.
      exists [], []. rewrite open_snoc, <- M. split; [reflexivity|]. split; [reflexivity|]. intros p [].
  - rewrite <- MS in *. set (e := EAllBegin (members s)) in *.
    assert (G1 : group (tr ++ [e]) = members s).
    { rewrite group_snoc. unfold gstep, e. cbn. rewrite without_nil. auto. }
    assert (O1 : open_wait (tr ++ [e]) = WAll (members s)) by (rewrite open_snoc; cbn; congruence).
    assert (F1 : forall p, finished (tr ++ [e]) p = finished tr p) by (intros; rewrite finished_snoc; apply orb_false_r).
    assert (C1 : forall p, consumed (tr ++ [e]) p = consumed tr p || mem p (members s)) by (intros; rewrite consumed_snoc; auto).
    assert (TA : forall p, isdone (take_all (members s) (st s) p) = isdone (st s p)).
    { intros p. unfold take_all. destruct existsb; auto. destruct (st s p); auto. }
    assert (TB : forall p, take_all (members s) (st s) p = Running <-> st s p = Running).
    { intros p. unfold take_all. destruct existsb; [|tauto]. destruct (st s p); cbn; intuition discriminate. }
    assert (TF : forall p, st s p <> Fresh -> take_all (members s) (st s) p <> Fresh).
    { intros p. unfold take_all. destruct existsb; [|tauto]. destruct (st s p); cbn; intuition discriminate. }
    assert (TD : forall p ok t, take_all (members s) (st s) p = Done ok t ->
        exists t', st s p = Done ok t' /\ t = (t' || mem p (members s))).
    { intros p ok t. unfold take_all, mem. destruct existsb eqn:E.
      - destruct (st s p) as [| |ok' t']; cbn; intros X; inv X. exists t'. rewrite orb_true_r. auto.
      - intros ->. exists t. rewrite orb_false_r. auto. }
    destruct (forallb (fun p => isdone (st s p)) (members s)) eqn:FB.
    + destruct (all_done (mk (members s) (take_all (members s) (st s)) (WAll (members s)))) as [s2 es2] eqn:AD.
      inv BW. replace (tr ++ e :: es2) with ((tr ++ [e]) ++ es2) by (rewrite <- app_assoc; auto).
      rewrite forallb_forall in FB.
      destruct (all_done_INV _ (tr ++ [e]) _ _ (members s) AD) as [A B]; cbn; auto.
      * intros p I. apply in_or_app; auto.
      * intros p I. apply TF. apply PU. apply in_app_or in I as [I|[I|[]]]; auto; discriminate.
      * intros p. rewrite F1, TA. auto.
      * intros p ok t D. destruct (TD _ _ _ D) as (t' & D' & ->). destruct (OK _ _ _ D') as [A ->].
        rewrite C1. split; auto. apply in_or_app; auto.
      * exists []. rewrite app_nil_r; auto.
      * intros p I. rewrite TA. auto.
      * intros p D C. rewrite TA in D. rewrite C1 in C. apply orb_prop in C as [C|C].
        -- destruct (CO p D C) as (sn & X & _). congruence.
        -- apply mem_in; auto.
    + inv BW. split.
      * constructor; cbn.
        -- auto.
        -- auto.
        -- intros p I. apply in_or_app; auto.
        -- intros p I. apply TF. apply PU. apply in_app_or in I as [I|[I|[]]]; auto; discriminate.
        -- intros p. rewrite F1, TA. auto.
        -- intros p ok t D. destruct (TD _ _ _ D) as (t' & D' & ->). destruct (OK _ _ _ D') as [A ->].
           rewrite C1. split; auto. apply in_or_app; auto.
        -- intros p D C. rewrite TA in D. rewrite C1 in C. apply orb_prop in C as [C|C].
           ++ destruct (CO p D C) as (sn & X & _). congruence.
           ++ exists (members s). split; auto. apply mem_in; auto.
        -- auto.
        -- discriminate.
        -- intros snap X. inv X. split; [exists []; rewrite app_nil_r; auto|].
           assert (NF : forall p, In p (members s) -> st s p = Running \/ isdone (st s p) = true).
           { intros p I. pose proof (running_pushed _ _ _ H I). destruct (st s p); auto; congruence. }
           split.
           ++ assert (EX : exists p, In p (members s) /\ isdone (st s p) = false).
              { clear - FB. induction (members s) as [|x l IH]; cbn in FB; [discriminate|].
                apply andb_false_iff in FB as [F|F]; [exists x; split; [left|]; auto|].
                destruct (IH F) as (p & I & D). exists p; split; [right|]; auto. }
              destruct EX as (p & I & D). exists p. split; auto. apply TB. destruct (NF p I); congruence.
           ++ intros p I. destruct (NF p I) as [R|R]; [left; apply TB; auto|right].
              unfold take_all. fold (mem p (members s)).
              change (existsb (fun p0 => p0 =? p) (members s)) with (mem p (members s)).
              apply mem_in in I. rewrite I. destruct (st s p) as [| |ok t]; try discriminate. exists ok. auto.
        -- intros sn p X I. inv X. rewrite C1. apply mem_in in I. rewrite I. apply orb_true_r.
      * cbn. auto.
Qed.

Lemma one_INV : forall s tr s' es snap later p ok t,
  one_done s (index_of p snap) p = (s', es) ->
  members s = group tr -> NoDup (members s) -> members s = snap ++ later -> In p snap ->
  (forall q, In q (members s) -> In (EPush q) tr) ->
  (forall q, In (EPush q) tr -> st s q <> Fresh) ->
  (forall q, finished tr q = isdone (st s q)) ->
  (forall q ok t, st s q = Done ok t -> In (EFinish q ok) tr /\ t = consumed tr q) ->
  (forall q, isdone (st s q) = false -> consumed tr q = true -> False) ->
  st s p = Done ok t ->
  INV s' (tr ++ es) /\ goods tr es.
Proof.
  intros s tr s' es snap later p ok t OD M ND PX IP LV PU FI OK CO SP.
  unfold one_done in OD. rewrite SP in OD. cbn in OD.
  assert (IM : In p (members s)) by (rewrite PX; apply in_or_app; auto).
  assert (IX : index_of p snap = index_of p (members s)) by (rewrite PX, index_prefix; auto).
  destruct (erase_index _ _ IM ND) as [E1 E2]. rewrite IX in OD. rewrite E1, E2 in OD. cbn in OD.
  destruct (OK p ok t SP) as [FP _].
  assert (UD : forall q, upd (st s) p (Done ok true) q = if q =? p then Done ok true else st s q) by reflexivity.
  assert (F1 : forall r rm q, finished (tr ++ [EOne r rm]) q = finished tr q) by (intros; rewrite finished_snoc; apply orb_false_r).
  assert (C1 : forall b rm q, consumed (tr ++ [EOne (Some (p, b)) rm]) q = consumed tr q || (p =? q)) by (intros; rewrite consumed_snoc; auto).
  assert (UI : forall q, isdone (upd (st s) p (Done ok true) q) = isdone (st s q)).
  { intros q. rewrite UD. destruct (q =? p) eqn:Q; auto. apply Nat.eqb_eq in Q as ->. rewrite SP. auto. }
  assert (UF : forall q, st s q <> Fresh -> upd (st s) p (Done ok true) q <> Fresh).
  { intros q. rewrite UD. destruct (q =? p); auto. discriminate. }
  assert (UO : forall b rm q ok0 t0, upd (st s) p (Done ok true) q = Done ok0 t0 ->
     In (EFinish q ok0) (tr ++ [EOne (Some (p, b)) rm]) /\ t0 = consumed (tr ++ [EOne (Some (p, b)) rm]) q).
  { intros b rm q ok0 t0. rewrite UD, C1. destruct (q =? p) eqn:Q.
    - intros X. inv X. apply Nat.eqb_eq in Q as ->. rewrite Nat.eqb_refl, orb_true_r. split; auto. apply in_or_app; auto.
    - intros X. destruct (OK _ _ _ X) as [A ->]. rewrite Nat.eqb_sym, Q, orb_false_r. split; auto. apply in_or_app; auto. }
  assert (UC : forall b rm q, isdone (upd (st s) p (Done ok true) q) = false -> consumed (tr ++ [EOne (Some (p, b)) rm]) q = true -> False).
  { intros b rm q. rewrite UI, C1. intros A B. apply orb_prop in B as [B|B]; [eapply CO; eauto|].
    apply Nat.eqb_eq in B as <-. rewrite SP in A. discriminate. }
  destruct ok; inv OD.
  - split.
    + constructor; cbn; auto.
      * rewrite group_snoc. cbn. rewrite <- M. auto.
      * apply NoDup_filter. auto.
      * intros q I. apply filter_In in I as [I _]. apply in_or_app; auto.
      * intros q I. apply UF, PU. apply in_app_or in I as [I|[I|[]]]; auto; discriminate.
      * intros q. rewrite F1, UI. auto.
      * intros q A B. destruct (UC _ _ _ A B).
      * rewrite open_snoc. auto.
      * discriminate.
      * discriminate.
      * discriminate.
    + cbn. rewrite <- M. auto.
  - split.
    + constructor; cbn; auto.
      * rewrite group_snoc. cbn. rewrite <- M. symmetry. apply without_nil.
      * intros q I. apply in_or_app; auto.
      * intros q I. apply UF, PU. apply in_app_or in I as [I|[I|[]]]; auto; discriminate.
      * intros q. rewrite F1, UI. auto.
      * intros q A B. destruct (UC _ _ _ A B).
      * rewrite open_snoc. auto.
      * discriminate.
      * discriminate.
      * discriminate.
    + cbn. rewrite <- M. auto.
Qed.

Lemma exit_cancels : forall s tr ct, INV s tr ->
  cancel_all s ct = map (fun p => ECancel p ct) (filter (fun p => negb (finished tr p)) (group tr)).
Proof.
  intros s tr ct H. unfold cancel_all. destruct H as [M ND LV PU FI OK CO OP ON AL AC].
  rewrite <- M. f_equal. apply filter_ext_in. intros p I. rewrite FI.
  pose proof (PU p (LV p I)). destruct (st s p); auto; congruence.
Qed.

Lemma silent_INV : forall s tr es, INV s tr -> silent es -> INV s (tr ++ es).
Proof.
  intros s tr es [M ND LV PU FI OK CO OP ON AL AC] S.
  destruct (silent_facts es tr S) as (S1 & S2 & S3 & S4 & S5 & S6).
  constructor; auto.
  - congruence.
  - intros p I. apply S6. auto.
  - intros p I. apply PU, S6. auto.
  - intros p. rewrite S3. auto.
  - intros p ok t D. rewrite S4, S5. auto.
  - intros p D C. rewrite S4 in C. auto.
  - congruence.
  - intros sn p X I. rewrite S4. eauto.
Qed.

Lemma neutral_INV : forall s tr e, INV s tr ->
  match e with EExit _ => True | _ => False end -> INV s (tr ++ [e]).
Proof.
  intros s tr e [M ND LV PU FI OK CO OP ON AL AC] E. destruct e as [| | | | | | | |ep]; try tauto.
  constructor; auto.
  - rewrite group_snoc. cbn. rewrite without_nil. auto.
  - intros p I. apply in_or_app; auto.
  - intros p I. apply PU. apply in_app_or in I as [I|[I|[]]]; auto; discriminate.
  - intros p. rewrite finished_snoc, orb_false_r. auto.
  - intros p ok t D. rewrite consumed_snoc, orb_false_r. destruct (OK _ _ _ D). split; auto. apply in_or_app; auto.
  - intros p D. rewrite consumed_snoc, orb_false_r. auto.
  - rewrite open_snoc. auto.
  - intros sn p X I. rewrite consumed_snoc, orb_false_r. eauto.
Qed.

Lemma step_INV : forall c s tr l s' es, INV s tr -> step c s l = Some (s', es) ->
  INV s' (tr ++ es) /\ goods tr es.
Proof.
  intros c s tr l s' es H S. pose proof H as [M ND LV PU FI OK CO OP ON AL AC].
  destruct l as [p al|p ok|ct|ch| | |ep]; unfold step in S.
  - (* push *)
    destruct (st s p) eqn:SP; try discriminate. inv S.
    assert (NP : ~ In (EPush p) tr) by (intros I; exact (PU p I SP)).
    assert (NM : ~ In p (members s)) by (intros I; exact (NP (LV p I))).
    set (v := match al with Some ok => Done ok false | None => Running end).
    set (tr1 := tr ++ match al with Some ok => [EFinish p ok] | None => [] end).
    assert (G1 : group tr1 = group tr).
    { unfold tr1. destruct al; [|rewrite app_nil_r; auto]. rewrite group_snoc. cbn. apply without_nil. }
    assert (O1 : open_wait tr1 = open_wait tr).
    { unfold tr1. destruct al; [|rewrite app_nil_r; auto]. rewrite open_snoc. auto. }
    assert (F1 : forall q, finished tr1 q = if q =? p then isdone v else finished tr q).
    { intros q. unfold tr1, v. pose proof (FI p) as FP. rewrite SP in FP. cbn in FP.
      destruct al; [rewrite finished_snoc, (Nat.eqb_sym p q)|rewrite app_nil_r];
        destruct (q =? p) eqn:Q; try (apply Nat.eqb_eq in Q as ->); rewrite ?FP, ?orb_false_r; auto. }
    assert (C1 : forall q, consumed tr1 q = consumed tr q).
    { intros q. unfold tr1. destruct al; [rewrite consumed_snoc; apply orb_false_r|rewrite app_nil_r; auto]. }
    assert (E1 : forall q o, In (EFinish q o) tr -> In (EFinish q o) tr1) by (intros; unfold tr1; apply in_or_app; auto).
    assert (P1 : forall q, In (EPush q) tr1 -> In (EPush q) tr).
    { intros q I. unfold tr1 in I. apply in_app_or in I as [I|I]; auto. destruct al; cbn in I; intuition discriminate. }
    assert (CF : consumed tr p = false).
    { destruct (consumed tr p) eqn:C; auto. destruct (CO p) as (sn & A & B); [rewrite SP; auto|auto|].
      destruct (AL sn A) as [(lt & E) _]. exfalso. apply NM. rewrite E. apply in_or_app; auto. }
    assert (UV : forall q, upd (st s) p v q = if q =? p then v else st s q) by reflexivity.
    assert (UN : forall q, In q (members s) -> upd (st s) p v q = st s q).
    { intros q I. rewrite UV. destruct (q =? p) eqn:Q; auto. apply Nat.eqb_eq in Q as ->. tauto. }
    rewrite app_assoc. fold tr1. split.
    + constructor; cbn.
      * rewrite group_snoc, G1. cbn. congruence.
      * apply NoDup_app_comm_cons || (rewrite <- (rev_involutive (members s ++ [p])); apply NoDup_rev; rewrite rev_app_distr; cbn; constructor; [rewrite <- in_rev; auto|apply NoDup_rev; auto]).
      * intros q I. apply in_or_app. apply in_app_or in I as [I|[->|[]]]; [left; unfold tr1; apply in_or_app; auto|right; left; auto].
      * intros q I. rewrite UV. destruct (q =? p) eqn:Q; [unfold v; destruct al; discriminate|].
        apply PU. apply in_app_or in I as [I|[I|[]]]; auto. inv I. rewrite Nat.eqb_refl in Q. discriminate.
      * intros q. rewrite finished_snoc, orb_false_r, F1, UV, FI. destruct (q =? p); auto.
      * intros q o t. rewrite consumed_snoc, orb_false_r, C1, UV. destruct (q =? p) eqn:Q.
        -- apply Nat.eqb_eq in Q as ->. unfold v. destruct al; intros X; inv X. split; auto.
           apply in_or_app; left. unfold tr1. apply in_or_app; right. left; auto.
        -- intros X. destruct (OK _ _ _ X). split; auto. apply in_or_app; auto.
      * intros q. rewrite consumed_snoc, orb_false_r, C1, UV. destruct (q =? p) eqn:Q; auto.
        apply Nat.eqb_eq in Q as ->. congruence.
      * rewrite open_snoc, O1. auto.
      * intros sn X. destruct (ON sn X) as [(lt & E) R]. split; [exists (lt ++ [p]); rewrite E, <- app_assoc; auto|].
        intros q I. rewrite UN; auto. rewrite E. apply in_or_app; auto.
      * intros sn X. destruct (AL sn X) as [(lt & E) [(q & I1 & I2) R]].
        assert (SUB : forall q, In q sn -> In q (members s)) by (intros; rewrite E; apply in_or_app; auto).
        split; [exists (lt ++ [p]); rewrite E, <- app_assoc; auto|]. split.
        -- exists q. rewrite UN; auto.
        -- intros q' I. rewrite UN; auto.
      * intros sn q X I. rewrite consumed_snoc, orb_false_r, C1. eauto.
    + apply goods_app. split; [destruct al; cbn; auto|]. cbn. fold tr1. rewrite G1, <- M. split; auto.
  - (* finish *)
    destruct (st s p) eqn:SP; try discriminate.
    assert (FP : finished tr p = false) by (rewrite FI, SP; auto).
    set (tr1 := tr ++ [EFinish p ok]).
    assert (G1 : group tr1 = group tr) by (unfold tr1; rewrite group_snoc; apply without_nil).
    assert (O1 : open_wait tr1 = open_wait tr) by (unfold tr1; rewrite open_snoc; auto).
    assert (F1 : forall q t, finished tr1 q = isdone (upd (st s) p (Done ok t) q)).
    { intros q t. unfold tr1, upd. rewrite finished_snoc, FI, (Nat.eqb_sym p q). destruct (q =? p) eqn:Q; [apply orb_true_r|apply orb_false_r]. }
    assert (C1 : forall q, consumed tr1 q = consumed tr q) by (intros q; unfold tr1; rewrite consumed_snoc; apply orb_false_r).
    assert (P1 : forall q, In (EPush q) tr1 <-> In (EPush q) tr).
    { intros q. unfold tr1. rewrite in_app_iff. cbn. intuition discriminate. }
    assert (UF : forall q t, In (EPush q) tr1 -> upd (st s) p (Done ok t) q <> Fresh).
    { intros q t I. unfold upd. destruct (q =? p); [discriminate|]. apply PU, P1; auto. }
    assert (UO : forall t, (t = consumed tr p) -> forall q o t', upd (st s) p (Done ok t) q = Done o t' ->
       In (EFinish q o) tr1 /\ t' = consumed tr1 q).
    { intros t T q o t'. unfold upd. rewrite C1. destruct (q =? p) eqn:Q.
      - intros X. inv X. apply Nat.eqb_eq in Q as ->. split; auto. unfold tr1. apply in_or_app; right; left; auto.
      - intros X. destruct (OK _ _ _ X). split; auto. unfold tr1. apply in_or_app; auto. }
    assert (UD : forall q t, isdone (upd (st s) p (Done ok t) q) = false -> isdone (st s q) = false).
    { intros q t. unfold upd. destruct (q =? p); auto. discriminate. }
    assert (PLAIN : consumed tr p = false -> (forall sn, pend s = WOne sn -> ~ In p sn) -> (forall sn, pend s = WAll sn -> ~ In p sn) ->
       INV (mk (members s) (upd (st s) p (Done ok false)) (pend s)) tr1).
    { intros CF N1 N2. constructor; cbn; auto.
      - congruence.
      - intros q I. apply P1. auto.
      - apply UO. auto.
      - intros q D C. rewrite C1 in C. eauto.
      - congruence.
      - intros sn X. destruct (ON sn X) as [A B]. split; auto. intros q I. unfold upd.
        destruct (q =? p) eqn:Q; auto. apply Nat.eqb_eq in Q as ->. destruct (N1 _ X I).
      - intros sn X. destruct (AL sn X) as [A [(q & I1 & I2) R]]. split; auto. split.
        + exists q. split; auto. unfold upd. destruct (q =? p) eqn:Q; auto. apply Nat.eqb_eq in Q as ->. destruct (N2 _ X I1).
        + intros q' I. unfold upd. destruct (q' =? p) eqn:Q; auto. apply Nat.eqb_eq in Q as ->. destruct (N2 _ X I).
      - intros sn q X I. rewrite C1. eauto. }
    assert (GF : goods tr [EFinish p ok]) by (cbn; auto).
    destruct (pend s) as [|snap|snap] eqn:PE.
    + inv S. split; auto. apply PLAIN; try discriminate.
      destruct (consumed tr p) eqn:C; auto. destruct (CO p) as (sn & A & B); [rewrite SP; auto|auto|congruence].
    + assert (CF : consumed tr p = false).
      { destruct (consumed tr p) eqn:C; auto. destruct (CO p) as (sn & A & B); [rewrite SP; auto|auto|congruence]. }
      destruct (existsb (fun q => q =? p) snap) eqn:EX.
      * change (mem p snap = true) in EX. apply mem_in in EX.
        destruct (ON snap eq_refl) as [(lt & E) R].
        destruct (one_done (mk (members s) (upd (st s) p (Done ok false)) (WOne snap)) (index_of p snap) p) as [s2 es2] eqn:OD.
        inv S. assert (SPD : upd (st s) p (Done ok false) p = Done ok false) by (unfold upd; rewrite Nat.eqb_refl; auto).
        destruct (one_INV _ tr1 _ _ snap lt p ok false OD) as [A B]; cbn; auto; try congruence.
        -- intros q I. apply P1. auto.
        -- apply UO. auto.
        -- intros q D C. rewrite C1 in C. destruct (CO q (UD _ _ D) C) as (sn & A & B). congruence.
        -- replace (tr ++ EFinish p ok :: es2) with (tr1 ++ es2) by (unfold tr1; rewrite <- app_assoc; auto).
           split; auto. 
      * inv S. split; auto. apply PLAIN; auto; try discriminate.
        intros sn X I. inv X. apply mem_in in I. unfold mem in I. congruence.
    + destruct (AL snap eq_refl) as [(lt & E) [(r & R1 & R2) R]].
      destruct (existsb (fun q => q =? p) snap) eqn:EX.
      * change (mem p snap = true) in EX. apply mem_in in EX. cbn in S.
        assert (CT : consumed tr p = true) by eauto.
        set (s2 := mk (members s) (upd (st s) p (Done ok true)) (WAll snap)) in *.
        destruct (forallb (fun q => isdone (upd (st s) p (Done ok true) q)) snap) eqn:FB.
        -- destruct (all_done s2) as [s3 es3] eqn:AD. inv S. rewrite forallb_forall in FB.
           destruct (all_done_INV _ tr1 _ _ snap AD) as [A B]; cbn; auto; try congruence.
           ++ intros q I. apply P1. auto.
           ++ apply UO. auto.
           ++ eauto.
           ++ intros q D C. rewrite C1 in C. destruct (CO q (UD _ _ D) C) as (sn & A & B). inv A. auto.
           ++ assert (Q : forall l, tr ++ EFinish p ok :: l = tr1 ++ l) by (intros; unfold tr1; rewrite <- app_assoc; auto).
              unfold all_done in AD. inv AD. rewrite Q. split; [exact A|exact (conj Logic.I B)].
        -- inv S. split; auto. subst s2. fold tr1. constructor; cbn [members st pend]; auto.
           ++ congruence.
           ++ intros q I. apply P1. auto.
           ++ apply UO. auto.
           ++ intros q D C. rewrite C1 in C. destruct (CO q (UD _ _ D) C) as (sn & A & B). inv A. eauto.
           ++ congruence.
           ++ discriminate.
           ++ intros sn X. inv X. split; eauto. split.
              ** assert (EX2 : exists q, In q sn /\ isdone (upd (st s) p (Done ok true) q) = false).
                 { clear - FB. induction sn as [|x l IH]; cbn in FB; [discriminate|].
                   apply andb_false_iff in FB as [F|F]; [exists x; split; [left|]; auto|].
                   destruct (IH F) as (q & I & D). exists q; split; [right|]; auto. }
                 destruct EX2 as (q & I & D). exists q. split; auto. unfold upd in *. destruct (q =? p); [discriminate|].
                 destruct (R q I) as [Q|(o & Q)]; auto. rewrite Q in D. discriminate.
              ** intros q I. unfold upd. destruct (q =? p); eauto.
           ++ intros sn q X I. inv X. rewrite C1. eauto.
      * assert (CF : consumed tr p = false).
        { destruct (consumed tr p) eqn:C; auto. destruct (CO p) as (sn & A & B); [rewrite SP; auto|auto|].
          inv A. apply mem_in in B. unfold mem in B. congruence. }
        inv S. split; auto. apply PLAIN; auto; try discriminate.
        intros sn X I. inv X. apply mem_in in I. unfold mem in I. congruence.
  - (* cancel *)
    inv S. split; [apply silent_INV; auto; apply cancel_silent|apply cancel_goods; auto].
  - (* wait_one *)
    destruct (idle s) eqn:ID; [|discriminate].
    assert (PN : pend s = NoWait) by (unfold idle in ID; destruct (pend s); auto; discriminate).
    set (tr1 := tr ++ [EOneBegin]).
    assert (G1 : group tr1 = group tr) by (unfold tr1; rewrite group_snoc; apply without_nil).
    assert (O1 : open_wait tr1 = WOne (group tr)) by (unfold tr1; rewrite open_snoc; auto).
    assert (F1 : forall q, finished tr1 q = finished tr q) by (intros q; unfold tr1; rewrite finished_snoc; apply orb_false_r).
    assert (C1 : forall q, consumed tr1 q = consumed tr q) by (intros q; unfold tr1; rewrite consumed_snoc; apply orb_false_r).
    assert (P1 : forall q, In (EPush q) tr1 <-> In (EPush q) tr).
    { intros q. unfold tr1. rewrite in_app_iff. cbn. intuition discriminate. }
    assert (E1 : forall q o, In (EFinish q o) tr -> In (EFinish q o) tr1) by (intros; unfold tr1; apply in_or_app; auto).
    assert (NC : forall q, isdone (st s q) = false -> consumed tr1 q = true -> False).
    { intros q D C. rewrite C1 in C. destruct (CO q D C) as (sn & A & _). congruence. }
    destruct (members s) as [|m ms] eqn:MS.
    + inv S. replace (tr ++ [EOneBegin; EOne None []]) with (tr1 ++ [EOne None []]) by (unfold tr1; rewrite <- app_assoc; auto).
      split.
      * constructor; rewrite ?MS, ?PN; cbn; try discriminate.
        -- rewrite group_snoc, G1. cbn. rewrite without_nil. auto.
        -- constructor.
        -- tauto.
        -- intros q I. apply PU, P1. apply in_app_or in I as [I|[I|[]]]; auto; discriminate.
        -- intros q. rewrite finished_snoc, orb_false_r, F1. auto.
        -- intros q o t D. rewrite consumed_snoc, orb_false_r, C1. destruct (OK _ _ _ D). split; auto. apply in_or_app; auto.
        -- intros q D C. rewrite consumed_snoc, orb_false_r in C. destruct (NC q D C).
        -- rewrite open_snoc. auto.
      * cbn. fold tr1. rewrite G1, <- M. auto.
    + rewrite <- MS in *. destruct (filter (fun p => isdone (st s p)) (members s)) as [|d ds] eqn:FD.
      * inv S. fold tr1. split; [|cbn; auto]. constructor; cbn; try discriminate; auto.
        -- congruence.
        -- intros q I. apply P1; auto.
        -- intros q I. apply PU, P1; auto.
        -- intros q. rewrite F1. auto.
        -- intros q o t D. rewrite C1. destruct (OK _ _ _ D). auto.
        -- intros q D C. destruct (NC q D C).
        -- congruence.
        -- intros sn X. inv X. split; [exists []; rewrite app_nil_r; auto|]. intros q I.
           pose proof (PU q (LV q I)). destruct (st s q) eqn:SQ; auto; [congruence|].
           assert (J : In q (filter (fun p => isdone (st s p)) (members s))) by (apply filter_In; rewrite SQ; auto).
           rewrite FD in J. destruct J.
      * rewrite <- FD in S. destruct (nth_error (filter (fun p => isdone (st s p)) (members s)) ch) as [p|] eqn:NE; [|discriminate].
        apply nth_error_In in NE. apply filter_In in NE as [IP DP].
        destruct (st s p) as [| |ok t] eqn:SP; try discriminate.
        destruct (one_done s (index_of p (members s)) p) as [s2 es2] eqn:OD. inv S.
        destruct (one_INV _ tr1 _ _ (members s) [] p ok t OD) as [A B]; auto.
        -- congruence.
        -- rewrite app_nil_r; auto.
        -- intros q I. apply P1; auto.
        -- intros q I. apply PU, P1; auto.
        -- intros q. rewrite F1. auto.
        -- intros q o t' D. rewrite C1. destruct (OK _ _ _ D). auto.
        -- replace (tr ++ EOneBegin :: es2) with (tr1 ++ es2) by (unfold tr1; rewrite <- app_assoc; auto).
           split; auto. split; cbn; auto.
  - (* wait *)
    destruct (idle s) eqn:ID; [|discriminate]. destruct (begin_wait s) as [s2 es2] eqn:BW. inv S. eapply begin_INV; eauto.
  - (* reap *)
    inv S. set (gone := fun p => match st s p with Done _ false => true | _ => false end).
    assert (SNAP : forall f sn lt, members s = sn ++ lt -> (forall q, In q sn -> f q = true) ->
       exists lt', filter f (members s) = sn ++ lt').
    { intros f sn lt E A. exists (filter f lt). rewrite E, filter_app. f_equal.
      clear - A. induction sn as [|x sn IH]; cbn; auto. rewrite (A x (or_introl eq_refl)). f_equal. apply IH. intros q I. apply A. right; auto. }
    split.
    + constructor; cbn; auto.
      * rewrite group_snoc. cbn. rewrite <- M. symmetry. apply (without_filter gone); auto.
      * apply NoDup_filter; auto.
      * intros q I. apply filter_In in I as [I _]. apply in_or_app; auto.
      * intros q I. apply PU. apply in_app_or in I as [I|[I|[]]]; auto; discriminate.
      * intros q. rewrite finished_snoc, orb_false_r. auto.
      * intros q o t D. rewrite consumed_snoc, orb_false_r. destruct (OK _ _ _ D). split; auto. apply in_or_app; auto.
      * intros q. rewrite consumed_snoc, orb_false_r. auto.
      * rewrite open_snoc. auto.
      * intros sn X. destruct (ON sn X) as [(lt & E) R]. split; auto. eapply SNAP; eauto.
        intros q I. cbn. rewrite (R q I). auto.
      * intros sn X. destruct (AL sn X) as [(lt & E) [A R]]. split; auto. eapply SNAP; eauto.
        intros q I. cbn. destruct (R q I) as [->|(o & ->)]; auto.
      * intros sn q X I. rewrite consumed_snoc, orb_false_r. eauto.
    + cbn. split; auto. rewrite <- M. apply filter_ext_in. intros q I. unfold gone. rewrite FI.
      destruct (st s q) as [| |o t] eqn:SQ; auto. destruct (OK _ _ _ SQ) as [_ <-]. destruct t; auto.
  - (* exit *)
    destruct (idle s) eqn:ID; [|discriminate]. destruct (begin_wait s) as [s2 es2] eqn:BW. inv S.
    set (ct := if ep then ct_except c else ct_normal c).
    set (cs := if ct =? ct_none then [] else cancel_all s ct).
    assert (H1 : INV s (tr ++ [EExit ep])) by (apply neutral_INV; cbn; auto).
    assert (SC : silent cs) by (unfold cs; destruct (ct =? ct_none); [intros e []|apply cancel_silent]).
    assert (GC : goods (tr ++ [EExit ep]) cs) by (unfold cs; destruct (ct =? ct_none); [cbn; auto|apply cancel_goods; auto]).
    pose proof (silent_INV _ _ _ H1 SC) as H2.
    destruct (begin_INV _ _ _ _ H2 ID BW) as [A B].
    replace (tr ++ EExit ep :: cs ++ es2) with (((tr ++ [EExit ep]) ++ cs) ++ es2) by (rewrite <- !app_assoc; auto).
    split; auto. cbn. split; auto. apply goods_app. auto.
Qed.

Lemma run_INV : forall c ls s tr s' es, INV s tr -> run c s ls = Some (s', es) ->
  INV s' (tr ++ es) /\ goods tr es.
Proof.
  induction ls as [|l ls IH]; intros s tr s' es H R; cbn in R.
  - inv R. rewrite app_nil_r. cbn. auto.
  - destruct (step c s l) as [[s1 e1]|] eqn:S; [|discriminate].
    destruct (run c s1 ls) as [[s2 e2]|] eqn:R2; [|discriminate]. inv R.
    destruct (step_INV _ _ _ _ _ _ H S) as [A B]. destruct (IH _ _ _ _ A R2) as [C D].
    rewrite app_assoc. split; auto. apply goods_app. auto.
Qed.
