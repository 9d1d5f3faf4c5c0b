(** Invariants for C85: resources and threads. *)
From Coq Require Import List Bool Arith Lia.
From Verif Require Import Mrs_Model Mrs_Spec.
Import ListNotations.

Lemma upd_same : forall A (f : nat -> A) k v, upd f k v k = v.
Proof. intros. unfold upd. now rewrite Nat.eqb_refl. Qed.
Lemma upd_other : forall A (f : nat -> A) k v i, i <> k -> upd f k v i = f i.
Proof. intros. unfold upd. destruct (Nat.eqb_spec i k); congruence. Qed.

Definition lib (p : phase) : bool := match p with Looping | Left | Dropped => true | _ => false end.
Fixpoint stk (s : state) (t : nat) (l : list scope) (d : nat) : Prop :=
  match l with
  | [] => match ph s t with Plain => d = 0 | Looping | Left | Dropped => d = tres s t | _ => True end
  | x :: l' => s_res x = d /\ s_prev x < d /\ d < nres s /\ res s d = mkRes (s_prev x) (Some t) true /\ stk s t l' (s_prev x)
  end.
Record WR (s : state) : Prop := {
  w0 : res s 0 = mkRes 0 None true;
  wn : 0 < nres s;
  wstk : forall t, stk s t (scopes s t) (def s t);
  wnil : forall t, running s t = false -> scopes s t = [];
  wth : forall t, lib (ph s t) = true -> 0 < tres s t < nres s /\ res s (tres s t) = mkRes 0 (Some t) true;
  wend : forall t, ph s t = Ended -> 0 < tres s t < nres s /\ r_owner (res s (tres s t)) = Some t;
  wlive : forall r, 0 < r < nres s -> r_live (res s r) = true -> exists t, r_owner (res s r) = Some t /\ In r (pools s t);
  wup : forall r, 0 < r < nres s -> r_up (res s r) < r /\ (r_live (res s r) = true -> r_live (res s (r_up (res s r))) = true) /\
          (r_owner (res s (r_up (res s r))) = None \/ r_owner (res s (r_up (res s r))) = r_owner (res s r)) /\ r_owner (res s r) <> None;
  wout : forall r, nres s <= r -> res s r = mkRes 0 None true }.

Lemma WR_init : WR init.
Proof.
  constructor; cbn; intros; auto; try (destruct t; cbn in *; auto; discriminate); try lia.
Qed.

(** What touching memory leaves alone. *)
Record same (s s' : state) : Prop := {
  s_res' : res s' = res s; s_nres' : nres s' = nres s; s_def' : def s' = def s; s_scopes' : scopes s' = scopes s;
  s_ph' : ph s' = ph s; s_tres' : tres s' = tres s }.
Lemma same_refl : forall s, same s s. Proof. intros; constructor; reflexivity. Qed.
Lemma same_trans : forall a b c, same a b -> same b c -> same a c.
Proof. intros a b c [] []; constructor; congruence. Qed.

Lemma stk_same : forall s s' t, nres s' = nres s -> res s' = res s -> ph s' t = ph s t -> tres s' t = tres s t ->
  forall l d, stk s t l d -> stk s' t l d.
Proof.
  intros s s' t N R P T. induction l as [|x l IH]; cbn; intros d.
  - now rewrite P, T.
  - rewrite N, R. intros (A & B & C & D & E). auto 6.
Qed.

Lemma WR_same : forall s s', same s s' -> WR s -> WR s'.
Proof.
  intros s s' [A B C D E F] [a b c d e f g h i].
  assert (Pl : forall t, pools s' t = pools s t) by (intro t; unfold pools; now rewrite D, E, F).
  constructor; rewrite ?A, ?B in *; auto.
  - intro t. rewrite C, D. eapply stk_same; [..|apply c]; auto; now rewrite ?E, ?F.
  - intros t H. rewrite D. apply d. unfold running in *. now rewrite E in H.
  - intro t. rewrite E, F. apply e.
  - intro t. rewrite E, F. apply f.
  - intros r H1 H2. destruct (g r H1 H2) as (t & G1 & G2). exists t. now rewrite Pl.
Qed.

Lemma same_free : forall t o s, same s (fst (free t o s)).
Proof. intros; constructor; reflexivity. Qed.
Lemma same_frees : forall t os s, same s (fst (frees t os s)).
Proof.
  induction os as [|o os IH]; intros s; cbn [frees]; [apply same_refl|].
  destruct (free t o s) as [s1 e1] eqn:E. specialize (IH s1). destruct (frees t os s1) as [s2 e2]. cbn in *.
  eapply same_trans; [|exact IH]. pose proof (same_free t o s) as H. now rewrite E in H.
Qed.
Lemma same_destroy_ctx : forall t c s, same s (fst (destroy_ctx t c s)).
Proof.
  intros. unfold destroy_ctx. pose proof (same_frees t (queued s c) s) as H. destruct (frees t (queued s c) s) as [s1 e]. cbn in *.
  destruct H; constructor; assumption.
Qed.
Lemma same_drop_ref : forall t c s, same s (fst (drop_ref t c s)).
Proof.
  intros. unfold drop_ref. cbv zeta. set (s1 := set_refs _ s). destruct (refs s1 c =? 0); [|constructor; reflexivity].
  eapply same_trans; [|apply same_destroy_ctx]. constructor; reflexivity.
Qed.

(** Facts about the pools of a thread. *)
Definition base (s : state) (t : nat) : list nat := match ph s t with Plain | Absent | Ended => [] | _ => [tres s t] end.
Lemma pools_eq : forall s t, pools s t = map s_res (scopes s t) ++ base s t.
Proof. reflexivity. Qed.

Lemma stk_in : forall s t, WR s -> forall l d r, stk s t l d -> In r (map s_res l ++ base s t) ->
  0 < r /\ r <= d /\ r < nres s /\ r_live (res s r) = true /\ r_owner (res s r) = Some t.
Proof.
  intros s t W. induction l as [|x l IH]; cbn; intros d r S I.
  - unfold base in I. pose proof (wth s W t) as Q. destruct (ph s t) eqn:P; cbn in I; try contradiction; destruct I as [<-|[]]; subst d;
      destruct (Q eq_refl) as (A & B); rewrite B; cbn; repeat split; lia.
  - destruct S as (A & B & C & D & E). destruct I as [<-|I].
    + rewrite A, D. cbn. repeat split; lia.
    + destruct (IH _ _ E I) as (P1 & P2 & P3 & P4 & P5). repeat split; auto; lia.
Qed.

Lemma pools_in : forall s t r, WR s -> In r (pools s t) -> 0 < r /\ r <= def s t /\ r < nres s /\ r_live (res s r) = true /\ r_owner (res s r) = Some t.
Proof. intros s t r W I. eapply stk_in; eauto. apply (wstk s W t). Qed.

Lemma def_mine : forall s t, WR s -> running s t = true -> mine s t (def s t).
Proof.
  intros s t W R. pose proof (wstk s W t) as S. unfold mine, pools. destruct (scopes s t) as [|x l]; cbn in *.
  - unfold running in R. destruct (ph s t); try discriminate; auto. right. left. auto.
  - right. left. tauto.
Qed.

Lemma mine_ok : forall s t r, WR s -> mine s t r -> r_live (res s r) = true /\ strange s t r = false.
Proof.
  intros s t r W [->|I]; unfold strange.
  - rewrite (w0 s W). auto.
  - destruct (pools_in s t r W I) as (_ & _ & _ & L & O). rewrite O, Nat.eqb_refl. auto.
Qed.

Lemma up_ok : forall s t r, WR s -> mine s t r -> r_live (res s (r_up (res s r))) = true /\ strange s t (r_up (res s r)) = false.
Proof.
  intros s t r W [->|I]; unfold strange.
  - rewrite !(w0 s W). cbn. rewrite (w0 s W). auto.
  - destruct (pools_in s t r W I) as (P & _ & N & L & O). destruct (wup s W r (conj P N)) as (U1 & U2 & U3 & U4).
    split; [auto|]. destruct U3 as [U3|U3]; rewrite U3; auto. rewrite O. now rewrite Nat.eqb_refl.
Qed.

Lemma pools_split : forall s t, WR s -> forall l d, stk s t l d -> forall l1 c l2 r,
  map s_res l ++ base s t = l1 ++ c :: l2 -> In r (c :: l2) -> above s c r.
Proof.
  intros s t W. induction l as [|x l IH]; cbn [map app]; intros d S l1 c l2 r E I.
  - assert (base s t = [] \/ base s t = [tres s t]) as [B|B] by (unfold base; destruct (ph s t); auto); rewrite B in E.
    + destruct l1; discriminate.
    + destruct l1 as [|? [|]]; cbn in E; injection E as <- E; try discriminate E.
      subst l2. destruct I as [->|[]]. constructor.
  - cbn in S. destruct S as (A & B & C & D & F). destruct l1 as [|a l1]; cbn in E; injection E as E1 E2.
    + subst c. destruct I as [->|I]; [constructor|]. apply above_up. rewrite A, D. cbn.
      destruct l as [|y l].
      * cbn in *. unfold base in E2. destruct (ph s t) eqn:P; try (rewrite <- E2 in I; contradiction); rewrite <- E2 in I; destruct I as [<-|[]]; subst; rewrite F; constructor.
      * cbn [map app] in E2. destruct l2 as [|y' l2]; [discriminate|]. injection E2 as <- E2.
        assert (Q : s_prev x = s_res y) by (cbn in F; symmetry; tauto). rewrite Q.
        eapply (IH _ F [] (s_res y) l2 r); [cbn; now rewrite E2|exact I].
    + eapply IH; eauto.
Qed.

Lemma above_ok : forall s c r, WR s -> above s c r -> c < nres s -> r_live (res s c) = true ->
  r_live (res s r) = true /\ (r_owner (res s r) = None \/ r_owner (res s r) = r_owner (res s c)).
Proof.
  intros s c r W A. induction A as [c|c r A IH]; intros N L; [auto|].
  destruct c as [|c].
  - rewrite (w0 s W) in IH. cbn in IH. apply IH; auto.
  - destruct (wup s W (S c) ltac:(lia)) as (U1 & U2 & U3 & U4).
    destruct IH as (I1 & I2); [lia|auto|]. split; [exact I1|]. destruct I2 as [I2|I2]; [auto|]. rewrite I2. exact U3.
Qed.

(** Steps that change resources or threads. *)
Lemma stk_fresh : forall s s' t, (forall r, r < nres s -> res s' r = res s r) -> nres s <= nres s' -> ph s' t = ph s t -> tres s' t = tres s t ->
  forall l d, stk s t l d -> stk s' t l d.
Proof.
  intros s s' t R N P T. induction l as [|x l IH]; cbn; intros d.
  - now rewrite P, T.
  - intros (A & B & C & D & E). rewrite R by lia. repeat split; auto; lia.
Qed.

Lemma WR_enter : forall s t, WR s -> running s t = true -> WR (run_enter t s).
Proof.
  intros s t W R. pose proof (mine_ok s t _ W (def_mine s t W R)) as (DL & DS).
  assert (DN : def s t < nres s). { destruct (def_mine s t W R) as [->|I]; [apply (wn s W)|]. apply (pools_in s t _ W I). }
  assert (RR : forall r, r < nres s -> res (run_enter t s) r = res s r) by (intros r H; cbn; apply upd_other; lia).
  assert (DO : r_owner (res s (def s t)) = None \/ r_owner (res s (def s t)) = Some t).
  { unfold strange in DS. destruct (r_owner (res s (def s t))); auto. destruct (Nat.eqb_spec t n); [subst; auto|discriminate]. }
  pose proof (wn s W) as N0.
  constructor.
  - rewrite RR by lia. apply (w0 s W).
  - cbn; lia.
  - intro t1. cbn [scopes def run_enter]. destruct (Nat.eq_dec t1 t) as [->|n].
    + rewrite !upd_same. cbn -[stk]. cbn [stk s_res s_prev nres run_enter]. split; [auto|]. split; [lia|]. split; [lia|].
      split; [cbn; now rewrite upd_same|]. apply (stk_fresh s); auto; [cbn; lia|apply (wstk s W t)].
    + rewrite !upd_other by auto. apply (stk_fresh s); auto; [cbn; lia|apply (wstk s W t1)].
  - intros t1 H. cbn. destruct (Nat.eq_dec t1 t) as [->|n]; [unfold running in *; cbn in H; congruence|]. rewrite upd_other by auto. apply (wnil s W t1 H).
  - intros t1 H. destruct (wth s W t1 H) as (A & B). cbn [tres run_enter nres]. rewrite RR by lia. split; [lia|exact B].
  - intros t1 H. destruct (wend s W t1 H) as (A & B). cbn [tres run_enter nres]. rewrite RR by lia. split; [lia|exact B].
  - intros r H L. destruct (Nat.eq_dec r (nres s)) as [->|n].
    + exists t. cbn. rewrite upd_same. split; [reflexivity|]. unfold pools. cbn. rewrite upd_same. now left.
    + cbn in H. rewrite RR in * by lia. destruct (wlive s W r ltac:(lia) L) as (t1 & A & B). exists t1. split; [exact A|].
      unfold pools in *. cbn. destruct (Nat.eq_dec t1 t) as [->|n']; [rewrite upd_same; cbn; now right|now rewrite upd_other].
  - intros r H. destruct (Nat.eq_dec r (nres s)) as [->|n].
    + assert (Q : res (run_enter t s) (nres s) = mkRes (def s t) (Some t) true) by (cbn; now rewrite upd_same). rewrite Q. cbn [r_up r_live r_owner].
      rewrite RR by lia. repeat split; auto; discriminate.
    + cbn in H. assert (H' : 0 < r < nres s) by lia. destruct (wup s W r H') as (U1 & U2 & U3 & U4). rewrite (RR r) by lia. rewrite RR by lia. auto.
  - intros r H. cbn in *. rewrite upd_other by lia. apply (wout s W); lia.
Qed.

(** A pool that nothing is below of goes. *)
Lemma WR_gone : forall s s' t r, WR s -> In r (pools s t) -> 
  res s' = upd (res s) r (mkRes (r_up (res s r)) (r_owner (res s r)) false) -> nres s' = nres s ->
  (forall t1, t1 <> t -> scopes s' t1 = scopes s t1 /\ def s' t1 = def s t1 /\ ph s' t1 = ph s t1 /\ tres s' t1 = tres s t1) ->
  tres s' t = tres s t -> (ph s' t = ph s t \/ (ph s' t = Ended /\ lib (ph s t) = true)) -> 
  stk s' t (scopes s' t) (def s' t) -> (running s' t = false -> scopes s' t = []) -> 
  (lib (ph s' t) = true -> tres s t <> r) ->
  (forall x, In x (pools s t) -> x <> r -> In x (pools s' t) /\ x < r) -> WR s'.
Proof.
  intros s s' t r W I ER EN EO ET EP EK EL EB EX. destruct (pools_in s t r W I) as (P1 & P2 & P3 & P4 & P5).
  assert (RO : forall x, x <> r -> res s' x = res s x) by (intros x n; rewrite ER; now apply upd_other).
  assert (RX : r_owner (res s' r) = Some t) by (rewrite ER, upd_same; exact P5).
  constructor.
  - rewrite RO by lia. apply (w0 s W).
  - rewrite EN. apply (wn s W).
  - intro t1. destruct (Nat.eq_dec t1 t) as [->|n]; [exact EK|]. destruct (EO t1 n) as (A & B & C & D). rewrite A, B.
    assert (G : forall l d, stk s t1 l d -> stk s' t1 l d).
    { induction l as [|x l IH]; cbn; intros d; [now rewrite C, D|]. intros (Q1 & Q2 & Q3 & Q4 & Q5). rewrite EN. rewrite RO; [auto 6|]. intros ->. rewrite Q4 in P5. cbn in P5. congruence. }
    apply G, (wstk s W t1).
  - intros t1 H. destruct (Nat.eq_dec t1 t) as [->|n]; [auto|]. destruct (EO t1 n) as (A & B & C & D). rewrite A. apply (wnil s W). unfold running in *. now rewrite C in H.
  - intros t1 H. destruct (Nat.eq_dec t1 t) as [->|n].
    + rewrite ET, EN. assert (L : lib (ph s t) = true) by (destruct EP as [EP|[EP _]]; [now rewrite EP in H|rewrite EP in H; discriminate]).
      rewrite RO by auto. apply (wth s W t L).
    + destruct (EO t1 n) as (A & B & C & D). rewrite C in H. rewrite D, EN. destruct (wth s W t1 H) as (Q1 & Q2). rewrite RO; [auto|]. intros E. rewrite E in Q2. rewrite Q2 in P5. cbn in P5. congruence.
  - intros t1 H. destruct (Nat.eq_dec t1 t) as [->|n].
    + rewrite ET, EN. assert (Q : 0 < tres s t < nres s /\ r_owner (res s (tres s t)) = Some t).
      { destruct EP as [EP|[_ EP]]; [rewrite EP in H; apply (wend s W t H)|]. destruct (wth s W t EP) as (Q1 & Q2). now rewrite Q2. }
      split; [apply Q|]. destruct (Nat.eq_dec (tres s t) r) as [->|n]; [exact RX|]. rewrite RO by auto. apply Q.
    + destruct (EO t1 n) as (A & B & C & D). rewrite C in H. rewrite D, EN. destruct (wend s W t1 H) as (Q1 & Q2). rewrite RO; [auto|]. intros E. rewrite E in Q2. congruence.
  - intros x H L. rewrite EN in H. destruct (Nat.eq_dec x r) as [->|n]; [rewrite ER, upd_same in L; discriminate|]. rewrite RO in * by auto.
    destruct (wlive s W x H L) as (t1 & A & B). exists t1. split; [exact A|]. destruct (Nat.eq_dec t1 t) as [->|n']; [now apply EX|].
    destruct (EO t1 n') as (S1 & _ & S2 & S3). unfold pools in *. now rewrite S1, S2, S3.
  - intros x H. rewrite EN in H. destruct (wup s W x H) as (U1 & U2 & U3 & U4).
    assert (UP : r_up (res s' x) = r_up (res s x)) by (destruct (Nat.eq_dec x r) as [->|n]; [rewrite ER, upd_same; reflexivity|now rewrite RO]).
    assert (OW : forall y, r_owner (res s' y) = r_owner (res s y)) by (intro y; destruct (Nat.eq_dec y r) as [->|n]; [rewrite ER, upd_same; reflexivity|now rewrite RO]).
    rewrite UP, !OW. split; [exact U1|]. split; [|auto]. intros L.
    destruct (Nat.eq_dec x r) as [->|n]; [rewrite ER, upd_same in L; discriminate|]. rewrite (RO x n) in L.
    destruct (Nat.eq_dec (r_up (res s x)) r) as [E|n']; [exfalso|rewrite RO by auto; auto].
    destruct (wlive s W x H L) as (t1 & A & B).
    assert (t1 = t) as -> by (rewrite E in U3; destruct U3 as [U3|U3]; congruence).
    destruct (EX x B n) as (_ & Q). lia.
  - intros x H. rewrite EN in H. rewrite RO by lia. apply (wout s W x H).
Qed.

Lemma WR_leave : forall s t x l, WR s -> running s t = true -> scopes s t = x :: l -> WR (fst (run_leave t x l s)).
Proof.
  intros s t x l W R E. unfold run_leave, seq2. pose proof (same_drop_ref t (s_res x) s) as SM. destruct (drop_ref t (s_res x) s) as [s1 e1]. cbn [fst] in SM.
  unfold destroy_res. cbv zeta. cbn [fst snd set_scope res]. 
  assert (W1 := WR_same _ _ SM W). pose proof (wstk s1 W1 t) as S. rewrite (s_scopes' _ _ SM), E in S. cbn in S. destruct S as (A & B & C & D & F).
  assert (E1 : scopes s1 t = x :: l) by (rewrite (s_scopes' _ _ SM); exact E).
  assert (PQ : pools s1 t = s_res x :: (map s_res l ++ base s1 t)) by (rewrite pools_eq, E1; reflexivity).
  assert (LT : forall y, In y (map s_res l ++ base s1 t) -> y < s_res x).
  { intros y I. destruct (stk_in s1 t W1 _ _ _ F I) as (_ & Q & _). lia. }
  eapply (WR_gone s1 _ t (s_res x) W1); cbn [set_res flag set_scope res nres scopes def ph tres].
  - rewrite PQ. now left.
  - reflexivity.
  - reflexivity.
  - intros t1 n. rewrite !upd_other by auto. auto.
  - reflexivity.
  - now left.
  - rewrite !upd_same. 
    assert (G : forall l0 d, d < s_res x -> stk s1 t l0 d -> stk (set_res (upd (res s1) (s_res x) (mkRes (r_up (res s1 (s_res x))) (r_owner (res s1 (s_res x))) false)) (flag (negb (r_live (res s1 (r_up (res s1 (s_res x)))))) (strange (set_scope t (s_prev x) l s1) t (r_up (res s1 (s_res x)))) (set_scope t (s_prev x) l s1))) t l0 d).
    { induction l0 as [|y l0 IH]; cbn; intros d Hd; [auto|]. intros (Q1 & Q2 & Q3 & Q4 & Q5). rewrite upd_other by lia. repeat split; auto. apply IH; auto; lia. }
    apply G; [lia|exact F].
  - intros H. exfalso. unfold running in *. cbn in H. rewrite (s_ph' _ _ SM) in H. congruence.
  - intros L. pose proof (LT (tres s1 t)) as Q. unfold base in Q. cbn in L. destruct (ph s1 t); try discriminate; specialize (Q ltac:(apply in_or_app; right; now left)); lia.
  - intros y I n. rewrite PQ in I. destruct I as [I|I]; [congruence|]. split; [|auto]. unfold pools. cbn. rewrite upd_same. exact I.
Qed.

Lemma WR_start : forall s t' o, WR s -> ph s t' = Absent -> WR (start t' o s).
Proof.
  intros s t' o W R. pose proof (wn s W) as N0.
  assert (SC : scopes s t' = []) by (apply (wnil s W); unfold running; now rewrite R).
  assert (RR : forall r, r < nres s -> res (start t' o s) r = res s r) by (intros r H; cbn; apply upd_other; lia).
  constructor.
  - rewrite RR by lia. apply (w0 s W).
  - cbn; lia.
  - intro t1. cbn [scopes def start]. destruct (Nat.eq_dec t1 t') as [->|n].
    + rewrite SC, upd_same. cbn. now rewrite !upd_same.
    + rewrite !upd_other by auto. apply (stk_fresh s); auto; [cbn; lia|cbn; now rewrite upd_other|cbn; now rewrite upd_other|apply (wstk s W t1)].
  - intros t1 H. cbn. unfold running in H. cbn in H. destruct (Nat.eq_dec t1 t') as [->|n]; [exact SC|]. rewrite upd_other in H by auto. now apply (wnil s W t1).
  - intros t1 H. cbn in H. cbn [tres start nres]. destruct (Nat.eq_dec t1 t') as [->|n].
    + rewrite !upd_same. cbn. rewrite upd_same. split; [lia|reflexivity].
    + rewrite !upd_other in * by auto. destruct (wth s W t1 H) as (A & B). rewrite RR by lia. split; [lia|exact B].
  - intros t1 H. cbn in H. cbn [tres start nres]. destruct (Nat.eq_dec t1 t') as [->|n].
    + rewrite upd_same in H. discriminate.
    + rewrite !upd_other in * by auto. destruct (wend s W t1 H) as (A & B). rewrite RR by lia. split; [lia|exact B].
  - intros r H L. destruct (Nat.eq_dec r (nres s)) as [->|n].
    + exists t'. cbn. rewrite upd_same. split; [reflexivity|]. unfold pools. cbn. rewrite !upd_same. apply in_or_app. right. now left.
    + cbn in H. rewrite RR in * by lia. destruct (wlive s W r ltac:(lia) L) as (t1 & A & B). exists t1. split; [exact A|].
      unfold pools in *. cbn. destruct (Nat.eq_dec t1 t') as [->|n']; [|now rewrite !upd_other].
      rewrite SC, R in B. contradiction.
  - intros r H. destruct (Nat.eq_dec r (nres s)) as [->|n].
    + assert (Q : res (start t' o s) (nres s) = mkRes 0 (Some t') true) by (cbn; now rewrite upd_same). rewrite Q. cbn [r_up r_live r_owner].
      rewrite RR by lia. rewrite (w0 s W). repeat split; auto; discriminate.
    + cbn in H. assert (H' : 0 < r < nres s) by lia. destruct (wup s W r H') as (U1 & U2 & U3 & U4). rewrite (RR r) by lia. rewrite RR by lia. auto.
  - intros r H. cbn in *. rewrite upd_other by lia. apply (wout s W); lia.
Qed.

Lemma WR_ph : forall s t p, WR s -> scopes s t = [] -> (ph s t = Looping /\ p = Left \/ ph s t = Left /\ p = Dropped) -> WR (set_ph t p s).
Proof.
  intros s t p W SC H. 
  assert (L : lib (ph s t) = true) by (destruct H as [[H _]|[H _]]; now rewrite H).
  assert (L' : lib p = true) by (destruct H as [[_ ->]|[_ ->]]; reflexivity).
  assert (PL : forall t1, pools (set_ph t p s) t1 = pools s t1).
  { intro t1. unfold pools. cbn. destruct (Nat.eq_dec t1 t) as [->|n]; [rewrite upd_same|now rewrite upd_other]. destruct H as [[-> ->]|[-> ->]]; reflexivity. }
  destruct W as [a b c d e f g h i]. constructor; auto.
  - intro t1. destruct (Nat.eq_dec t1 t) as [->|n].
    + specialize (c t). cbn [scopes def set_ph]. rewrite SC in *. cbn in *. rewrite upd_same. destruct H as [[H ->]|[H ->]]; now rewrite H in c.
    + specialize (c t1). cbn [scopes def set_ph]. apply (stk_same s); auto. cbn. now rewrite upd_other.
  - intros t1 H1. destruct (Nat.eq_dec t1 t) as [->|n]; [exact SC|]. apply d. unfold running in *. cbn in H1. now rewrite upd_other in H1.
  - intros t1 H1. apply e. destruct (Nat.eq_dec t1 t) as [->|n]; [exact L|]. cbn in H1. now rewrite upd_other in H1.
  - intros t1 H1. cbn in H1. destruct (Nat.eq_dec t1 t) as [->|n]; [rewrite upd_same in H1; subst p; discriminate|]. rewrite upd_other in H1 by auto. now apply f.
  - intros r H1 H2. destruct (g r H1 H2) as (t1 & A & B). exists t1. now rewrite PL.
Qed.

Lemma WR_end : forall s t, WR s -> ph s t = Dropped -> WR (fst (destroy_res t (tres s t) (set_ph t Ended s))).
Proof.
  intros s t W P. assert (SC : scopes s t = []) by (apply (wnil s W); unfold running; now rewrite P).
  assert (PQ : pools s t = [tres s t]) by (unfold pools; now rewrite SC, P).
  eapply (WR_gone s _ t (tres s t) W); cbn; auto.
  - rewrite PQ. now left.
  - intros t1 n. rewrite !upd_other by auto. auto.
  - right. rewrite upd_same, P. auto.
  - rewrite SC. cbn. now rewrite upd_same.
  - rewrite upd_same. discriminate.
  - intros y I n. rewrite PQ in I. destruct I as [I|[]]. congruence.
Qed.

Lemma WR_step : forall s l s' es, WR s -> step s l = Some (s', es) -> WR s'.
Proof.
  intros s l s' es W H. destruct l; cbn in H.
  - destruct (running s t) eqn:R; [|discriminate]. injection H as <- <-. now apply WR_enter.
  - destruct (running s t) eqn:R; [|discriminate]. destruct (scopes s t) as [|x l] eqn:E; [discriminate|].
    assert (Q := WR_leave s t x l W R E). injection H as H. now rewrite H in Q.
  - destruct (running s t && _) eqn:R; [|discriminate]. destruct (ph s t') eqn:P; try discriminate. injection H as <- <-. apply WR_start; [|exact P].
    eapply WR_same; [|exact W]. constructor; reflexivity.
  - destruct (ph s t') eqn:P; try discriminate. destruct (boot s (tres s t')); [|discriminate]. destruct (stopped s t'); [discriminate|]. injection H as H.
    assert (Q := same_drop_ref t' (tres s t') (set_boot (upd (boot s) (tres s t') None) s)). rewrite H in Q. eapply WR_same; [|exact W]. eapply same_trans; [|exact Q]. constructor; reflexivity.
  - destruct (running s t && held s t'); [|discriminate]. injection H as <- <-. eapply WR_same; [|exact W]. constructor; reflexivity.
  - destruct (running s t && held s t'); [|discriminate]. injection H as H. assert (Q := same_drop_ref t (tres s t') (set_held t' false s)). rewrite H in Q.
    eapply WR_same; [|exact W]. eapply same_trans; [|exact Q]. constructor; reflexivity.
  - destruct (ph s t') eqn:P; try discriminate. destruct (scopes s t') eqn:E; [|discriminate]. cbn in H. destruct (may_leave s t' w); [|discriminate]. injection H as <- <-.
    apply WR_ph; auto.
  - destruct (ph s t') eqn:P; try discriminate. injection H as H. assert (Q := same_drop_ref t' (tres s t') (set_ph t' Dropped s)). rewrite H in Q.
    eapply WR_same; [exact Q|]. apply WR_ph; auto. apply (wnil s W). unfold running. now rewrite P.
  - destruct (ph s t') eqn:P; try discriminate. injection H as <- <-. apply (WR_end s t' W P).
  - destruct (running s t && _); [|discriminate]. injection H as <- <-. eapply WR_same; [|exact W]. constructor; reflexivity.
  - destruct (running s t && _ && _); [|discriminate]. injection H as <- <-. eapply WR_same; [|exact W]. constructor; reflexivity.
  - destruct (running s t && _ && _ && _); [|discriminate]. injection H as <- <-. eapply WR_same; [|exact W]. constructor; reflexivity.
  - destruct (running s t && _ && _ && _ && _ && _); [|discriminate]. injection H as <- <-. eapply WR_same; [|exact W]. constructor; reflexivity.
  - destruct (running s t && _); [|discriminate]. injection H as <- <-. eapply WR_same; [|exact W]. constructor; reflexivity.
  - destruct (running s t && _ && _); [|discriminate]. injection H as <- <-. eapply WR_same; [|exact W]. constructor; reflexivity.
  - destruct (running s t && _); [|discriminate]. injection H as <- <-. eapply WR_same; [|exact W]. constructor; reflexivity.
Qed.
