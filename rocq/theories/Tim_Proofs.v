(** * Invariant of the timer model *)
From Coq Require Import List Bool Arith ZArith Lia.
From Verif Require Import Tim_Model Tim_Spec.
Import ListNotations.
Open Scope Z_scope.

Lemma key_eqb_eq k k' : key_eqb k k' = true <-> k = k'.
Proof.
  destruct k, k'; cbn; rewrite ?Nat.eqb_eq; split; intro H; try discriminate; congruence.
Qed.
Lemma key_eqb_refl k : key_eqb k k = true.
Proof. apply key_eqb_eq; reflexivity. Qed.

Lemma now_app c0 a b : now c0 (a ++ b) = now (now c0 a) b.
Proof. revert c0; induction a as [|x a IH]; intro c0; cbn; auto. destruct x; apply IH. Qed.

Lemma expiry_app c0 k acc a b :
  expiry c0 k acc (a ++ b) = expiry (now c0 a) k (expiry c0 k acc a) b.
Proof. revert c0 acc; induction a as [|x a IH]; intros; cbn; auto. destruct x; cbn; apply IH. Qed.

Fixpoint waits (tr : list event) : list nat :=
  match tr with
  | [] => []
  | EWait w _ :: tr' => w :: waits tr'
  | _ :: tr' => waits tr'
  end.

Lemma waits_app a b : waits (a ++ b) = waits a ++ waits b.
Proof. induction a as [|x a IH]; cbn; auto. destruct x; cbn; congruence. Qed.

Lemma waits_in w tr : In w (waits tr) <-> exists k, In (EWait w k) tr.
Proof.
  induction tr as [|x tr IH]; cbn.
  - split; [tauto|intros (k & [])].
  - destruct x; cbn; rewrite ?IH; split; intros H.
    all: try (destruct H as (k' & [H|H]); [discriminate|eauto]; fail).
    all: try (destruct H as (k' & H); eauto; fail).
    + destruct H as [->|(k' & H)]; eauto.
    + destruct H as (k' & [H|H]); [injection H; auto|eauto].
Qed.

Lemma wait_unique tr : NoDup (waits tr) -> forall w a k b a' k' b',
  tr = a ++ EWait w k :: b -> tr = a' ++ EWait w k' :: b' -> a = a' /\ k = k' /\ b = b'.
Proof.
  intros ND w a. revert tr ND. induction a as [|x a IH]; intros tr ND k b a' k' b' E E'.
  - destruct a' as [|y a']; cbn in E, E'; subst tr; [injection E'; auto|].
    injection E' as <- E'. exfalso. cbn in ND. inversion ND; subst.
    apply H1. rewrite waits_app. apply in_or_app. right. left. reflexivity.
  - destruct a' as [|y a']; cbn in E, E'; subst tr.
    + injection E' as -> E'. exfalso. cbn in ND. inversion ND; subst.
      apply H1. rewrite waits_app. apply in_or_app. right. left. reflexivity.
    + injection E' as -> E'. destruct (IH (a ++ EWait w k :: b)) with (k:=k) (b:=b) (a':=a') (k':=k') (b':=b') as (-> & -> & ->); auto.
      cbn in ND. destruct y; auto. inversion ND; auto.
Qed.

(** Why a wait may have ended with a result. *)
Definition justified (c0 : Z) (w : nat) (r : res) (tr : list event) : Prop :=
  match r with
  | Ok => exists a k e b1 b2, tr = a ++ EWait w k :: b1 ++ b2 /\ expires c0 a k e /\
            (forall ev, In ev b1 -> ~ ends w k ev) /\ e <= now c0 (a ++ EWait w k :: b1)
  | Aborted => exists a k b ev, tr = a ++ EWait w k :: b /\ In ev b /\ ends w k ev
  end.

Lemma justified_app c0 w r tr x : justified c0 w r tr -> justified c0 w r (tr ++ x).
Proof.
  destruct r; cbn.
  - intros (a & k & e & b1 & b2 & -> & H). exists a, k, e, b1, (b2 ++ x).
    split; [rewrite <- app_assoc; cbn; rewrite <- app_assoc; reflexivity|exact H].
  - intros (a & k & b & ev & -> & I & H). exists a, k, (b ++ x), ev.
    split; [rewrite <- app_assoc; reflexivity|split; [apply in_or_app; auto|exact H]].
Qed.

Definition waiting (c0 : Z) (p : pending) (tr : list event) : Prop :=
  exists a b, tr = a ++ EWait (p_w p) (p_k p) :: b /\ expires c0 a (p_k p) (p_e p) /\
    (forall ev, In ev b -> ~ ends (p_w p) (p_k p) ev).

Lemma waiting_app c0 p tr x : waiting c0 p tr ->
  (forall ev, In ev x -> ~ ends (p_w p) (p_k p) ev) -> waiting c0 p (tr ++ x).
Proof.
  intros (a & b & -> & E & N) H. exists a, (b ++ x). split; [rewrite <- app_assoc; reflexivity|].
  split; [exact E|]. intros ev I. apply in_app_or in I as [I|I]; auto.
Qed.

Lemma waiting_due c0 p tr : waiting c0 p tr -> p_e p <= now c0 tr -> justified c0 (p_w p) Ok tr.
Proof.
  intros (a & b & -> & E & N) H. exists a, (p_k p), (p_e p), b, []. rewrite app_nil_r. auto.
Qed.

Lemma waiting_ends c0 p tr x ev : waiting c0 p tr -> In ev x -> ends (p_w p) (p_k p) ev ->
  justified c0 (p_w p) Aborted (tr ++ x).
Proof.
  intros (a & b & -> & _) I H. exists a, (p_k p), (b ++ x), ev.
  split; [rewrite <- app_assoc; reflexivity|]. split; [apply in_or_app; auto|exact H].
Qed.

Definition cnt (w : nat) (l : list nat) : nat := count_occ Nat.eq_dec l w.

Lemma cnt_app w l l' : cnt w (l ++ l') = (cnt w l + cnt w l')%nat.
Proof. apply count_occ_app. Qed.

Lemma cnt_filter w (f : pending -> bool) l :
  (cnt w (map p_w (filter (fun p => negb (f p)) l)) + cnt w (map p_w (filter f l)) = cnt w (map p_w l))%nat.
Proof.
  unfold cnt. induction l as [|p l IH]; cbn; [reflexivity|].
  destruct (f p); cbn; destruct (Nat.eq_dec (p_w p) w); lia.
Qed.

Lemma ndone_app w a b : ndone w (a ++ b) = (ndone w a + ndone w b)%nat.
Proof.
  induction a as [|x a IH]; cbn; auto. destruct x; auto. destruct (Nat.eqb w0 w); cbn; lia.
Qed.

Lemma ndone1 w w' r : ndone w' [EDone w r] = cnt w' [w].
Proof.
  unfold cnt. cbn [ndone count_occ]. destruct (Nat.eq_dec w w') as [->|N]; [rewrite Nat.eqb_refl; reflexivity|].
  apply Nat.eqb_neq in N. rewrite N. reflexivity.
Qed.

Record Inv (c0 : Z) (tr : list event) (s : st) : Prop := {
  iv_clk : clk s = now c0 tr;
  iv_live : forall k e, obj s k = Live e -> expires c0 tr k e;
  iv_pend : forall p, In p (pend s) -> obj s (p_k p) = Live (p_e p) /\ waiting c0 p tr;
  iv_queue : forall w r, In (w, r) (queue s) -> justified c0 w r tr;
  iv_used : used s = rev (waits tr);
  iv_nodup : NoDup (waits tr);
  iv_cnt : forall w, (ndone w tr + cnt w (map p_w (pend s)) + cnt w (map fst (queue s)) = cnt w (waits tr))%nat;
  iv_done : forall a w r b, tr = a ++ EDone w r :: b -> justified c0 w r a;
  iv_ub : In EUB tr -> ub s = true
}.

(** Nothing in an event list is of interest to waits, expiries and completions. *)
Definition quiet (x : list event) : Prop :=
  waits x = [] /\ (forall w, ndone w x = O).

Lemma done_split (tr x a b : list event) w r :
  tr ++ x = a ++ EDone w r :: b ->
  (exists b', tr = a ++ EDone w r :: b') \/ (exists a' , a = tr ++ a' /\ x = a' ++ EDone w r :: b).
Proof.
  revert a. induction tr as [|y tr IH]; intros a E; cbn in E.
  - right. exists a. auto.
  - destruct a as [|z a]; cbn in E.
    + injection E as -> E. left. exists tr. reflexivity.
    + injection E as -> E. apply IH in E as [(b' & ->)|(a' & -> & ->)]; [left; exists b'|right; exists a'; split]; reflexivity.
Qed.

Lemma ndone_none w x : ndone w x = O -> forall r, ~ In (EDone w r) x.
Proof.
  induction x as [|y x IH]; cbn; intros E r; [tauto|].
  intros [->|I]; [rewrite Nat.eqb_refl in E; discriminate|].
  destruct y; try (eapply IH; eauto; fail). destruct (Nat.eqb w0 w); [discriminate|eapply IH; eauto].
Qed.

Lemma done_quiet c0 tr x : quiet x ->
  (forall a w r b, tr = a ++ EDone w r :: b -> justified c0 w r a) ->
  forall a w r b, tr ++ x = a ++ EDone w r :: b -> justified c0 w r a.
Proof.
  intros (_ & Q) H a w r b E. apply done_split in E as [(b' & E)|(a' & -> & ->)]; [eauto|].
  exfalso. apply (ndone_none w (a' ++ EDone w r :: b) (Q w) r). apply in_elt.
Qed.


Lemma inv_quiet c0 tr s s' ev : Inv c0 tr s -> ub s = false -> quiet ev ->
  clk s' = now (clk s) ev ->
  (forall k e, obj s' k = Live e -> expiry (clk s) k (expiry c0 k None tr) ev = Some e) ->
  (forall p, In p (pend s') -> In p (pend s) /\ (obj s (p_k p) = Live (p_e p) -> obj s' (p_k p) = Live (p_e p)) /\
             (forall x, In x ev -> ~ ends (p_w p) (p_k p) x)) ->
  (forall w r, In (w, r) (queue s') -> In (w, r) (queue s) \/
     exists p, In p (pend s) /\ p_w p = w /\
       (match r with Ok => obj s (p_k p) = Live (p_e p) -> p_e p <= clk s
                   | Aborted => exists x, In x ev /\ ends (p_w p) (p_k p) x end)) ->
  used s' = used s ->
  (forall w, (cnt w (map p_w (pend s')) + cnt w (map fst (queue s')) = cnt w (map p_w (pend s)) + cnt w (map fst (queue s)))%nat) ->
  (In EUB ev -> ub s' = true) ->
  Inv c0 (tr ++ ev) s'.
Proof.
  intros I U Q H1 H2 H3 H4 H5 H6 H7. pose proof Q as (Q1 & Q2). destruct I as [Ic Il Ip Iq Iu Id It Ie Ib].
  constructor.
  - rewrite now_app, H1, Ic. reflexivity.
  - intros k e E. unfold expires. rewrite expiry_app, <- Ic. apply H2; exact E.
  - intros p H. apply H3 in H as (H & A & B). destruct (Ip p H) as (P1 & P2).
    split; [auto|]. apply waiting_app; assumption.
  - intros w r H. apply H4 in H as [H|(p & Hp & <- & H)].
    + apply justified_app. eauto.
    + destruct (Ip p Hp) as (P1 & P2). destruct r.
      * apply justified_app. apply waiting_due; [exact P2|]. rewrite <- Ic. auto.
      * destruct H as (x & X1 & X2). eapply waiting_ends; eauto.
  - rewrite waits_app, Q1, app_nil_r, H5. exact Iu.
  - rewrite waits_app, Q1, app_nil_r. exact Id.
  - intro w. rewrite waits_app, Q1, app_nil_r, ndone_app, Q2. specialize (It w). specialize (H6 w). lia.
  - apply done_quiet; assumption.
  - intro H. apply in_app_or in H as [H|H]; [apply Ib in H; congruence|auto].
Qed.

Lemma map_fst_pair (r : res) (l : list pending) : map fst (map (fun p => (p_w p, r)) l) = map p_w l.
Proof. rewrite map_map. reflexivity. Qed.

Lemma finish_cnt f r s w :
  (cnt w (map p_w (pend (finish f r s))) + cnt w (map fst (queue (finish f r s)))
   = cnt w (map p_w (pend s)) + cnt w (map fst (queue s)))%nat.
Proof.
  cbn [pend queue finish]. rewrite map_app, map_fst_pair, cnt_app. pose proof (cnt_filter w f (pend s)). lia.
Qed.

Lemma finish_pend f r s p : In p (pend (finish f r s)) -> In p (pend s) /\ f p = false.
Proof. cbn. intro H. apply filter_In in H as (H & E). split; [exact H|]. apply negb_true_iff in E. exact E. Qed.

Lemma finish_queue f r s w r' : In (w, r') (queue (finish f r s)) ->
  In (w, r') (queue s) \/ exists p, In p (pend s) /\ p_w p = w /\ r' = r /\ f p = true.
Proof.
  cbn. intro H. apply in_app_or in H as [H|H]; [auto|right].
  apply in_map_iff in H as (p & E & H). injection E as <- <-. apply filter_In in H as (H & F). eauto.
Qed.

Lemma expires_key c0 tr s k e : Inv c0 tr s -> obj s k = Live e -> expiry c0 k None tr = Some e.
Proof. intros I E. apply (iv_live _ _ _ I); exact E. Qed.

Lemma key_neqb k k' : key_eqb k k' = false -> k <> k'.
Proof. intros H ->. rewrite key_eqb_refl in H. discriminate. Qed.
Lemma key_eqb_sym k k' : key_eqb k k' = key_eqb k' k.
Proof. destruct k, k'; cbn; auto using Nat.eqb_sym. Qed.

Ltac quiet := split; reflexivity.

Lemma step_inv c0 tr s l s' ev : Inv c0 tr s -> step s l = Some (s', ev) -> Inv c0 (tr ++ ev) s'.
Proof.
  intros I St. unfold step in St. destruct (ub s) eqn:U; [discriminate|].
  pose proof (iv_live _ _ _ I) as Il.
  destruct l.
  - (* LTick *)
    destruct (in64 t); [|discriminate]. injection St as <- <-.
    apply (inv_quiet c0 tr s); auto; cbn.
    + quiet.
    + intros p H. split; [exact H|]. split; [auto|]. intros x [<-|[]]; cbn; tauto.
    + intros [H|[]]; discriminate.
  - (* LNew *)
    destruct (obj s k) eqn:Ek; try discriminate.
    assert (Ex : forall e, fresh_expiry k (clk s) a = Some e ->
              expiry (clk s) k (expiry c0 k None tr) [ENew k a] = Some e).
    { intros e E. cbn. rewrite key_eqb_refl. destruct k; cbn in E |- *.
      - destruct a; exact E.
      - destruct a; cbn in *; [exact E|]. destruct (in64 (clk s + du)); [exact E|discriminate]. }
    assert (Ne : forall k' e, obj s k' = Live e -> key_eqb k k' = false).
    { intros k' e E. destruct (key_eqb k k') eqn:Q; [|reflexivity]. apply key_eqb_eq in Q. congruence. }
    destruct (fresh_expiry k (clk s) a) as [e|] eqn:F; injection St as <- <-;
      apply (inv_quiet c0 tr s); auto.
    + quiet.
    + intros k' e'. cbn [obj set_obj]. unfold upd. destruct (key_eqb k' k) eqn:Q.
      * apply key_eqb_eq in Q as ->. intro E; injection E as <-. apply Ex; reflexivity.
      * intro E. cbn. rewrite (Ne _ _ E). apply Il; exact E.
    + cbn. intros p H. split; [exact H|]. split.
      * intro E. unfold upd. rewrite key_eqb_sym, (Ne _ _ E). exact E.
      * intros x [<-|[]]; cbn; tauto.
    + intros [H|[]]; discriminate.
    + quiet.
    + cbn. intros k' e' E. rewrite (Ne _ _ E). apply Il; exact E.
    + cbn. intros p H. split; [exact H|]. split; [auto|]. intros x [<-|[<-|[]]]; cbn; tauto.
  - (* LReset *)
    destruct (obj s (Tm i)) eqn:Ek; try discriminate. injection St as <- <-.
    apply (inv_quiet c0 tr s); auto.
    + quiet.
    + intros k' e'. cbn [obj set_obj finish]. unfold upd. rewrite key_eqb_sym. destruct (key_eqb (Tm i) k') eqn:Q.
      * apply key_eqb_eq in Q as <-. intro E; injection E as <-. cbn. rewrite Nat.eqb_refl. destruct a; reflexivity.
      * intro E. cbn [expiry]. rewrite Q. apply Il; exact E.
    + intros p H. apply (finish_pend (of_key (Tm i)) Aborted s) in H as (H & F). split; [exact H|].
      unfold of_key in F. split.
      * intro E. cbn [obj set_obj finish]. unfold upd. rewrite F. exact E.
      * intros x [<-|[]]; cbn. apply key_neqb; exact F.
    + intros w r H. apply (finish_queue (of_key (Tm i)) Aborted s) in H as [H|(p & H & Ew & -> & F)]; [auto|right].
      exists p. split; [exact H|]. split; [exact Ew|]. eexists. split; [left; reflexivity|]. apply key_eqb_eq; exact F.
    + intro w. apply finish_cnt.
    + intros [H|[]]; discriminate.
  - (* LCancel *)
    destruct (obj s (Tm i)) eqn:Ek; try discriminate. injection St as <- <-.
    apply (inv_quiet c0 tr s); auto.
    + quiet.
    + intros p H. apply finish_pend in H as (H & F). split; [exact H|].
      unfold of_key in F. split; [auto|]. intros x [<-|[]]; cbn. apply key_neqb; exact F.
    + intros w r H. apply finish_queue in H as [H|(p & H & Ew & -> & F)]; [auto|right].
      exists p. split; [exact H|]. split; [exact Ew|]. eexists. split; [left; reflexivity|]. apply key_eqb_eq; exact F.
    + intro w. apply finish_cnt.
    + intros [H|[]]; discriminate.
  - (* LDestroy *)
    destruct (obj s k) eqn:Ek; try discriminate. injection St as <- <-.
    apply (inv_quiet c0 tr s); auto.
    + quiet.
    + intros k' e'. cbn [obj set_obj finish]. unfold upd. destruct (key_eqb k' k); [discriminate|]. cbn. apply Il.
    + intros p H. apply (finish_pend (of_key k) Aborted s) in H as (H & F). split; [exact H|].
      unfold of_key in F. split.
      * intro E. cbn [obj set_obj finish]. unfold upd. rewrite F. exact E.
      * intros x [<-|[]]; cbn. apply key_neqb; exact F.
    + intros w r H. apply (finish_queue (of_key k) Aborted s) in H as [H|(p & H & Ew & -> & F)]; [auto|right].
      exists p. split; [exact H|]. split; [exact Ew|]. eexists. split; [left; reflexivity|]. apply key_eqb_eq; exact F.
    + intro w. apply finish_cnt.
    + intros [H|[]]; discriminate.
  - (* LExpired *)
    destruct (obj s (Tm i)) eqn:Ek; try discriminate. injection St as <- <-.
    apply (inv_quiet c0 tr s); auto.
    + quiet.
    + intros p H. split; [exact H|]. split; [auto|]. intros x [<-|[]]; cbn; tauto.
    + intros [H|[]]; discriminate.
  - (* LExpiry *)
    destruct (obj s (Tm i)) eqn:Ek; try discriminate. injection St as <- <-.
    apply (inv_quiet c0 tr s); auto.
    + quiet.
    + intros p H. split; [exact H|]. split; [auto|]. intros x [<-|[]]; cbn; tauto.
    + intros [H|[]]; discriminate.
  - (* LWait *)
    destruct (existsb (Nat.eqb w) (used s)) eqn:Ew; [discriminate|].
    destruct (obj s k) as [|e|] eqn:Ek; try discriminate.
    destruct I as [Ic _ Ip Iq Iu Id It Ie Ib].
    assert (Nw : ~ In w (waits tr)).
    { intro H. apply in_rev in H. rewrite <- Iu in H.
      assert (existsb (Nat.eqb w) (used s) = true) by (apply existsb_exists; exists w; split; [exact H|apply Nat.eqb_refl]).
      congruence. }
    assert (Cw : cnt w (waits tr) = O) by (apply count_occ_not_In; exact Nw).
    assert (Nd : NoDup (waits tr ++ [w])).
    { apply NoDup_rev in Id. rewrite <- (rev_involutive (waits tr ++ [w])), rev_app_distr. apply NoDup_rev.
      cbn. constructor; [rewrite <- in_rev; exact Nw|exact Id]. }
    destruct (is_ready e (clk s)) eqn:Rd; injection St as <- <-.
    + unfold is_ready in Rd. apply Z.ltb_lt in Rd. constructor; cbn [clk obj pend queue used ub use].
      * rewrite now_app; exact Ic.
      * intros k' e' E. unfold expires. rewrite expiry_app. cbn. apply Il; exact E.
      * intros p H. destruct (Ip p H) as (P1 & P2). split; [exact P1|].
        apply waiting_app; [exact P2|]. intros x [<-|[<-|[]]]; cbn; tauto.
      * intros w' r H. apply justified_app. eauto.
      * rewrite waits_app. cbn. rewrite rev_app_distr. cbn. congruence.
      * rewrite waits_app. exact Nd.
      * intro w'. rewrite waits_app, ndone_app, cnt_app. specialize (It w').
        change (ndone w' [EWait w k; EDone w Ok]) with (ndone w' [EDone w Ok]). rewrite ndone1. cbn [waits]. lia.
      * intros a w' r b E. apply done_split in E as [(b' & E)|(a' & -> & E)]; [eauto|].
        destruct a' as [|y a']; [discriminate|]. injection E as <- E.
        destruct a' as [|y a']; [|injection E as <- E; destruct a'; discriminate].
        injection E as <- <- <-. exists tr, k, e, [], []. split; [reflexivity|]. split; [apply Il; exact Ek|].
        split; [intros ev []|]. rewrite now_app. cbn. rewrite <- Ic. lia.
      * intro H. apply in_app_or in H as [H|[H|[H|[]]]]; try discriminate. apply Ib in H; congruence.
    + assert (H0 : forall s1, clk s1 = clk s -> obj s1 = obj s -> used s1 = used s -> ub s1 = ub s ->
         (forall p, In p (pend s1) -> In p (pend s) /\ (match k with Tm _ => True | Sl _ => p_k p <> k end)) ->
         (forall w' r, In (w', r) (queue s1) -> In (w', r) (queue s) \/
            exists p, In p (pend s) /\ p_w p = w' /\ r = Aborted /\ p_k p = k /\ exists i, k = Sl i) ->
         (forall w', (cnt w' (map p_w (pend s1)) + cnt w' (map fst (queue s1)) = cnt w' (map p_w (pend s)) + cnt w' (map fst (queue s)))%nat) ->
         Inv c0 (tr ++ [EWait w k; ESuspend w k]) (add_pend (mkP w k e) (use w s1))).
      { intros s1 S1 S2 S3 S4 S5 S6 S7. constructor; cbn [clk obj pend queue used ub use add_pend].
        - rewrite now_app, S1; exact Ic.
        - rewrite S2. intros k' e' E. unfold expires. rewrite expiry_app. cbn. apply Il; exact E.
        - intros p H. apply in_app_or in H as [H|[<-|[]]].
          + apply S5 in H as (H & Nk). destruct (Ip p H) as (P1 & P2). split; [rewrite S2; exact P1|].
            apply waiting_app; [exact P2|]. intros x [<-|[<-|[]]]; cbn; [tauto|]. destruct k; [tauto|]. intros (A & _). auto.
          + cbn. rewrite S2. split; [exact Ek|]. exists tr, [ESuspend w k]. split; [reflexivity|].
            split; [apply Il; exact Ek|]. intros ev [<-|[]]. cbn. destruct k; tauto.
        - intros w' r H. apply S6 in H as [H|(p & H & <- & -> & Hk & i & ->)]; [apply justified_app; eauto|].
          destruct (Ip p H) as (P1 & P2). eapply waiting_ends; [exact P2|right; left; reflexivity|].
          cbn. split; [auto|]. intros E. apply Nw. rewrite <- E. apply waits_in.
          destruct P2 as (a & b & -> & _). exists (p_k p). apply in_elt.
        - rewrite waits_app. cbn. rewrite rev_app_distr. cbn. congruence.
        - rewrite waits_app. exact Nd.
        - intro w'. rewrite waits_app, ndone_app, map_app, !cnt_app. specialize (It w'). specialize (S7 w').
          cbn [map p_w waits ndone]. lia.
        - intros a w' r b E. apply done_split in E as [(b' & E)|(a' & -> & E)]; [eauto|].
          exfalso. destruct a' as [|y a']; [discriminate|]. injection E as _ E.
          destruct a' as [|y2 a']; [discriminate|]. injection E as _ E. destruct a'; discriminate.
        - intro H. rewrite S4. apply in_app_or in H as [H|[H|[H|[]]]]; try discriminate. auto. }
      destruct k as [i|i].
      * cbn. apply H0; auto.
      * cbn [initiate]. change (finish (of_key (Sl i)) Aborted (use w s)) with (use w (finish (of_key (Sl i)) Aborted s)).
        apply H0; auto.
        -- intros p H. apply finish_pend in H as (H & F). split; [exact H|]. apply key_neqb; exact F.
        -- intros w' r H. apply finish_queue in H as [H|(p & H & E & -> & F)]; [auto|right].
           exists p. repeat split; auto; [apply key_eqb_eq; exact F|eauto].
        -- intro w'. apply finish_cnt.
  - (* LSignal *)
    injection St as <- <-. apply (inv_quiet c0 tr s); auto.
    + quiet.
    + intros p H. apply finish_pend in H as (H & F). split; [exact H|]. split; [auto|].
      unfold of_wait in F. apply Nat.eqb_neq in F. intros x [<-|[]]; cbn. exact F.
    + intros w' r H. apply finish_queue in H as [H|(p & H & E & -> & F)]; [auto|right].
      exists p. split; [exact H|]. split; [exact E|]. eexists. split; [left; reflexivity|].
      apply Nat.eqb_eq; exact F.
    + intro w'. apply finish_cnt.
    + intros [H|[]]; discriminate.
  - (* LFire *)
    destruct (obj s k) as [|e|] eqn:Ek; try discriminate.
    destruct (e <=? clk s) eqn:Le; [|discriminate]. injection St as <- <-. apply Z.leb_le in Le.
    apply (inv_quiet c0 tr s); auto.
    + quiet.
    + intros p H. apply finish_pend in H as (H & F). split; [exact H|]. split; [auto|]. intros x [].
    + intros w' r H. apply finish_queue in H as [H|(p & H & E & -> & F)]; [auto|right].
      exists p. split; [exact H|]. split; [exact E|]. apply key_eqb_eq in F. intro E'. rewrite F in E'. congruence.
    + intro w'. apply finish_cnt.
  - (* LRun *)
    destruct (queue s) as [|[w r] q] eqn:Eq; [discriminate|]. injection St as <- <-.
    destruct I as [Ic _ Ip Iq Iu Id It Ie Ib]. rewrite Eq in Iq, It.
    constructor; cbn [clk obj pend queue used ub].
    + rewrite now_app; exact Ic.
    + intros k e E. unfold expires. rewrite expiry_app. cbn. apply Il; exact E.
    + intros p H. destruct (Ip p H) as (P1 & P2). split; [exact P1|].
      apply waiting_app; [exact P2|]. intros x [<-|[]]; cbn; tauto.
    + intros w' r' H. apply justified_app. apply Iq. right; exact H.
    + rewrite waits_app. cbn. rewrite app_nil_r. exact Iu.
    + rewrite waits_app. cbn. rewrite app_nil_r. exact Id.
    + intro w'. rewrite waits_app, ndone_app, ndone1. specialize (It w').
      change (map fst ((w, r) :: q)) with ([w] ++ map fst q) in It. rewrite cnt_app in It.
      cbn [waits]. rewrite app_nil_r. lia.
    + intros a w' r' b E. apply done_split in E as [(b' & E)|(a' & -> & E)]; [eauto|].
      destruct a' as [|y a']; [|injection E as _ E; destruct a'; discriminate].
      injection E as <- <- <-. rewrite app_nil_r. apply Iq. left; reflexivity.
    + intro H. apply in_app_or in H as [H|[H|[]]]; try discriminate. apply Ib in H; congruence.
Qed.

Lemma init_inv c0 : Inv c0 [] (init c0).
Proof.
  constructor; cbn; try tauto; try discriminate; auto.
  - constructor.
  - intros a w r b E. destruct a; discriminate.
Qed.

Lemma run_inv c0 ls : forall tr s s' ev, Inv c0 tr s -> run s ls = Some (s', ev) -> Inv c0 (tr ++ ev) s'.
Proof.
  induction ls as [|l ls IH]; intros tr s s' ev I H; cbn in H.
  - injection H as <- <-. rewrite app_nil_r. exact I.
  - destruct (step s l) as [[s1 e1]|] eqn:St; [|discriminate].
    destruct (run s1 ls) as [[s2 e2]|] eqn:R; [|discriminate]. injection H as <- <-.
    rewrite app_assoc. eapply IH; [eapply step_inv; eauto|exact R].
Qed.

Lemma reach_inv c0 ls s tr : run (init c0) ls = Some (s, tr) -> Inv c0 tr s.
Proof. intro R. apply (run_inv c0 ls [] (init c0) s tr (init_inv c0) R). Qed.

Lemma run_app ls1 : forall ls2 s, run s (ls1 ++ ls2) =
  match run s ls1 with
  | Some (s1, e1) => match run s1 ls2 with Some (s2, e2) => Some (s2, e1 ++ e2) | None => None end
  | None => None
  end.
Proof.
  induction ls1 as [|l ls1 IH]; intros ls2 s; cbn.
  - destruct (run s ls2) as [[s2 e2]|]; reflexivity.
  - destruct (step s l) as [[s1 e1]|]; [|reflexivity]. rewrite IH.
    destruct (run s1 ls1) as [[s2 e2]|]; [|reflexivity].
    destruct (run s2 ls2) as [[s3 e3]|]; [rewrite app_assoc|]; reflexivity.
Qed.

(** Scheduler steps. *)
Definition due (s : st) (p : pending) : bool := p_e p <=? clk s.

Lemma not_due_idle s : queue s = [] -> existsb (due s) (pend s) = false ->
  (forall p, In p (pend s) -> obj s (p_k p) = Live (p_e p)) -> idle s.
Proof.
  intros Q D L ls. revert s Q D L. induction ls as [|l ls IH]; intros s Q D L s' ev F R; cbn in R.
  - injection R as _ <-. reflexivity.
  - inversion F as [|? ? Hl Hls]; subst. destruct (step s l) as [[s1 e1]|] eqn:St; [|discriminate].
    destruct (run s1 ls) as [[s2 e2]|] eqn:R2; [|discriminate]. injection R as <- <-.
    unfold step in St. destruct (ub s) eqn:U; [discriminate|]. destruct l; try contradiction.
    + destruct (obj s k) as [|e|] eqn:Ek; try discriminate. destruct (e <=? clk s) eqn:Le; [|discriminate].
      injection St as <- <-.
      assert (N : forall p, In p (pend s) -> of_key k p = false).
      { intros p H. destruct (of_key k p) eqn:E; [|reflexivity]. exfalso. apply key_eqb_eq in E.
        pose proof (L p H) as Lp. rewrite E, Ek in Lp. injection Lp as ->.
        assert (existsb (due s) (pend s) = true) by (apply existsb_exists; exists p; auto). congruence. }
      assert (E1 : filter (of_key k) (pend s) = []).
      { clear -N. induction (pend s) as [|p l IH]; cbn; [reflexivity|]. rewrite (N p) by (left; reflexivity).
        apply IH. intros q Hq. apply N. right; exact Hq. }
      assert (E2 : filter (fun p => negb (of_key k p)) (pend s) = pend s).
      { clear -N. induction (pend s) as [|p l IH]; cbn; [reflexivity|]. rewrite (N p) by (left; reflexivity). cbn.
        f_equal. apply IH. intros q Hq. apply N. right; exact Hq. }
      cbn. apply (IH (finish (of_key k) Ok s)) with (s' := s2); auto; cbn; rewrite ?E1, ?E2, ?Q; auto.
    + rewrite Q in St. discriminate.
Qed.

Lemma idle_not_due s : idle s -> ub s = false -> (forall p, In p (pend s) -> obj s (p_k p) = Live (p_e p)) ->
  queue s = [] /\ forall p, In p (pend s) -> clk s < p_e p.
Proof.
  intros I U L. split.
  - destruct (queue s) as [|[w r] q] eqn:Q; [reflexivity|]. exfalso.
    assert (H : [EDone w r] = []); [|discriminate].
    apply (I [LRun] (mk (clk s) (obj s) (pend s) q (used s) (ub s))); [repeat constructor|].
    cbn. unfold step. rewrite U, Q. reflexivity.
  - intros p H. destruct (Z.ltb_spec (clk s) (p_e p)) as [Lt|Ge]; [exact Lt|]. exfalso.
    assert (In (p_w p, Ok) (queue (finish (of_key (p_k p)) Ok s))) as Hq.
    { cbn. apply in_or_app. right. apply (in_map (fun q => (p_w q, Ok))). apply filter_In.
      split; [exact H|apply key_eqb_refl]. }
    destruct (queue (finish (of_key (p_k p)) Ok s)) as [|[w r] q] eqn:Q; [destruct Hq|].
    assert (HH : [EDone w r] = []); [|discriminate].
    apply (I [LFire (p_k p); LRun] (mk (clk s) (obj s) (pend (finish (of_key (p_k p)) Ok s)) q (used s) (ub s))).
    + repeat constructor.
    + cbn [run]. unfold step at 1. rewrite U, (L p H). replace (p_e p <=? clk s) with true by (symmetry; apply Z.leb_le; lia).
      unfold step. rewrite Q. replace (ub (finish (of_key (p_k p)) Ok s)) with false by (symmetry; exact U). reflexivity.
Qed.

Lemma drain : forall n c0 tr s, Inv c0 tr s -> ub s = false ->
  (2 * length (pend s) + length (queue s) <= n)%nat ->
  exists ls s' ev, Forall is_sched ls /\ run s ls = Some (s', ev) /\ idle s' /\ ub s' = false /\ clk s' = clk s.
Proof.
  induction n as [|n IH]; intros c0 tr s I U Le.
  - exists [], s, []. split; [constructor|]. split; [reflexivity|].
    destruct (pend s) eqn:P; [|cbn in Le; lia]. destruct (queue s) eqn:Q; [|cbn in Le; lia].
    split; [|split; [exact U|reflexivity]]. apply not_due_idle; auto; rewrite P; auto. intros p [].
  - assert (Lv : forall p, In p (pend s) -> obj s (p_k p) = Live (p_e p)) by (intros p H; apply (iv_pend _ _ _ I p H)).
    destruct (queue s) as [|[w r] q] eqn:Q.
    + destruct (existsb (due s) (pend s)) eqn:D.
      * apply existsb_exists in D as (p & H & D). unfold due in D.
        assert (St : step s (LFire (p_k p)) = Some (finish (of_key (p_k p)) Ok s, [])).
        { unfold step. rewrite U, (Lv p H), D. reflexivity. }
        destruct (IH c0 (tr ++ []) (finish (of_key (p_k p)) Ok s)) as (ls & s' & ev & F & R & Id & U' & C').
        { eapply step_inv; eauto. }
        { exact U. }
        { cbn [pend queue finish]. rewrite Q. cbn [app]. rewrite map_length.
          assert (length (filter (fun p0 => negb (of_key (p_k p) p0)) (pend s)) + length (filter (of_key (p_k p)) (pend s)) = length (pend s))%nat.
          { clear. induction (pend s) as [|x l IHl]; cbn; [reflexivity|]. destruct (of_key (p_k p) x); cbn; lia. }
          assert (In p (filter (of_key (p_k p)) (pend s))) as Hi by (apply filter_In; split; [exact H|apply key_eqb_refl]).
          destruct (filter (of_key (p_k p)) (pend s)); [destruct Hi|]. cbn in *. lia. }
        exists (LFire (p_k p) :: ls), s', ev. split; [constructor; [exact Logic.I|exact F]|].
        split; [cbn [run]; rewrite St, R; reflexivity|]. auto.
      * exists [], s, []. split; [constructor|]. split; [reflexivity|]. split; [apply not_due_idle; auto|auto].
    + assert (St : step s LRun = Some (mk (clk s) (obj s) (pend s) q (used s) (ub s), [EDone w r])).
      { unfold step. rewrite U, Q. reflexivity. }
      destruct (IH c0 (tr ++ [EDone w r]) (mk (clk s) (obj s) (pend s) q (used s) (ub s))) as (ls & s' & ev & F & R & Id & U' & C').
      { eapply step_inv; eauto. }
      { exact U. }
      { cbn in *. lia. }
      exists (LRun :: ls), s', (EDone w r :: ev). split; [constructor; [exact Logic.I|exact F]|].
      split; [cbn [run]; rewrite St, R; reflexivity|]. auto.
Qed.

(** Undefined behaviour is seen in the events. *)
Lemma ub_event c0 ls : forall s tr, run (init c0) ls = Some (s, tr) -> ub s = true -> In EUB tr.
Proof.
  induction ls as [|l ls IH] using rev_ind; intros s tr R U.
  - injection R as <- <-. discriminate.
  - rewrite run_app in R. destruct (run (init c0) ls) as [[s1 e1]|] eqn:R1; [|discriminate].
    cbn in R. destruct (step s1 l) as [[s2 e2]|] eqn:St; [|discriminate].
    injection R as <- <-. rewrite app_nil_r. apply in_or_app. right.
    unfold step in St. destruct (ub s1) eqn:U1; [discriminate|].
    destruct l; repeat match type of St with
      | context [match ?x with _ => _ end] => destruct x; try discriminate
      end; injection St as <- <-; cbn in U; try congruence; try (cbn; auto; fail).
    destruct k; cbn in U; congruence.
Qed.

(** What one step adds. *)
Lemma ub_step s l s' ev : step s l = Some (s', ev) -> In EUB ev ->
  exists i du, ev = [ENew (Sl i) (For du); EUB] /\ in64 (clk s + du) = false.
Proof.
  intros St H. unfold step in St. destruct (ub s); [discriminate|].
  destruct l; repeat match type of St with
      | context [match ?x with _ => _ end] => destruct x eqn:?; try discriminate
      end; injection St as <- <-; cbn in H; try (exfalso; intuition discriminate).
  destruct k as [i|i]; [discriminate|]. destruct a as [tp|du]; [discriminate|]. cbn in *.
  exists i, du. destruct (in64 (clk s + du)); [discriminate|auto].
Qed.

Lemma step_of c0 ls : forall s tr a x b, run (init c0) ls = Some (s, tr) -> tr = a ++ x :: b ->
  exists ls1 l ls2 s1 e1 s2 e2 y,
    ls = ls1 ++ l :: ls2 /\ run (init c0) ls1 = Some (s1, e1) /\ step s1 l = Some (s2, e2) /\
    a = e1 ++ y /\ exists z z', e2 = y ++ x :: z /\ b = z ++ z' /\ exists s3, run s2 ls2 = Some (s3, z').
Proof.
  induction ls as [|l ls IH] using rev_ind; intros s tr a x b R E.
  - injection R as <- <-. destruct a; discriminate.
  - rewrite run_app in R. destruct (run (init c0) ls) as [[s1 e1]|] eqn:R1; [|discriminate].
    cbn in R. destruct (step s1 l) as [[s2 e2]|] eqn:St; [|discriminate].
    injection R as <- <-. rewrite app_nil_r in E.
    assert (D : (exists b', e1 = a ++ x :: b' /\ b = b' ++ e2) \/ exists y, a = e1 ++ y /\ e2 = y ++ x :: b).
    { clear -E. revert a E. induction e1 as [|y e1 IH]; intros a E; cbn in E.
      - right. exists a. auto.
      - destruct a as [|z a]; cbn in E; injection E as -> E.
        + left. exists e1. auto.
        + apply IH in E as [(b' & -> & ->)|(y & -> & ->)]; [left; exists b'|right; exists y]; auto. }
    destruct D as [(b' & E1 & ->)|(y & -> & E2)].
    + destruct (IH _ _ _ _ _ eq_refl E1) as (ls1 & l' & ls2 & s1' & e1' & s2' & e2' & y & -> & H1 & H2 & H3 & z & z' & H4 & -> & s3 & H6).
      exists ls1, l', (ls2 ++ [l]), s1', e1', s2', e2', y. rewrite <- app_assoc.
      split; [reflexivity|]. split; [exact H1|]. split; [exact H2|]. split; [exact H3|].
      exists z, (z' ++ e2). split; [exact H4|]. rewrite app_assoc. split; [reflexivity|].
      assert (Es : s3 = s1).
      { rewrite run_app in R1. rewrite H1 in R1. cbn in R1. rewrite H2, H6 in R1. injection R1 as -> _. reflexivity. }
      exists s2. rewrite run_app, H6. cbn. rewrite Es, St. rewrite app_nil_r. reflexivity.
    + exists ls, l, [], s1, e1, s2, e2, y. split; [reflexivity|]. split; [exact R1|]. split; [exact St|]. split; [reflexivity|].
      exists b, []. split; [exact E2|]. rewrite app_nil_r. split; [reflexivity|]. exists s2. reflexivity.
Qed.
