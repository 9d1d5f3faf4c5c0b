(** Races that are started while no writer waits: the invariant. *)
From Coq Require Import List Bool Arith Lia.
From Verif Require Import Channel_Model Channel_Spec Channel_Inv Rch_Model Rch_Spec Rch_Chan Rch_Inv.
Import ListNotations.

Section Quiet.
Context {V : Type}.
Variable cf : cfg.
Notation state := (state V).
Notation rstate := (rstate V).
Notation revent := (revent V).
Notation op s k := (rops (chs s (chan cf k)) k).

(** Member [m] is exempt (it is being resumed). *)
Record M (m : nat) (s : rstate) : Prop := {
  m_ub : ub s = false;
  m_bad : forall c, bad (chs s c) = None;
  m_inv : forall c, Inv (chs s c);
  m_abs : forall c k, k < n cf -> chan cf k <> c -> r_stage (rops (chs s c) k) = Absent;
  m_k1 : forall k, k < n cf -> k <> m -> (r_stage (op s k) = Awaited <-> working s k = true);
  m_k0 : forall k, k < n cf -> k <> m -> r_stage (op s k) = Awaited -> r_direct (op s k) = None }.

(** What cancelling the other members leaves alone. *)
Record Fr (m : nat) (s s1 : rstate) : Prop := {
  f_idx : idx s1 = idx s; f_out : out s1 = out s; f_pc : pc s1 = pc s; f_finm : fin s1 m = fin s m;
  f_fin : forall k, fin s k = true -> fin s1 k = true;
  f_ch : forall c, buf (chs s1 c) = buf (chs s c) /\ closed (chs s1 c) = closed (chs s c) /\ limit (chs s1 c) = limit (chs s c) /\
                   wops (chs s1 c) = wops (chs s c) /\ wq (chs s1 c) = wq (chs s c);
  f_m : forall c, rops (chs s1 c) m = rops (chs s c) m;
  f_rq : forall c q, rq (chs s c) = m :: q -> exists q', rq (chs s1 c) = m :: q';
  f_mono : forall k, k < n cf -> k <> m -> r_stage (op s1 k) = Awaited ->
             r_stage (op s k) = Awaited /\ (r_cancelled (op s k) = true -> r_cancelled (op s1 k) = true) }.
Lemma Fr_refl m s : Fr m s s.
Proof. constructor; auto. - eauto. Qed.
Lemma Fr_trans m a b c : Fr m a b -> Fr m b c -> Fr m a c.
Proof.
  intros A B. constructor.
  - rewrite (f_idx _ _ _ B). apply A.
  - rewrite (f_out _ _ _ B). apply A.
  - rewrite (f_pc _ _ _ B). apply A.
  - rewrite (f_finm _ _ _ B). apply A.
  - intros k K. apply B, A, K.
  - intro x. destruct (f_ch _ _ _ A x) as (A1 & A2 & A3 & A4 & A5). destruct (f_ch _ _ _ B x) as (B1 & B2 & B3 & B4 & B5). repeat split; congruence.
  - intro x. rewrite (f_m _ _ _ B). apply A.
  - intros x q E. destruct (f_rq _ _ _ A x q E) as [q' E']. exact (f_rq _ _ _ B x q' E').
  - intros k K N S. destruct (f_mono _ _ _ B k K N S) as [S1 C1]. destruct (f_mono _ _ _ A k K N S1) as [S0 C0]. auto.
Qed.

(** Events that take no value. *)
Definition harmless (e : list revent) : Prop := forall x, In x e -> exists c i r, x = C c (ERead i r) /\ ~ val r.
Lemma harmless_app a b : harmless a -> harmless b -> harmless (a ++ b).
Proof. intros A B x I. apply in_app_or in I as [I|I]; auto. Qed.
Lemma harmless_nil : harmless [].
Proof. intros x []. Qed.
Hint Resolve harmless_nil Fr_refl : core.

Lemma on_M m k s x i' o' f' a' : M m s -> k < n cf -> k <> m -> bad x = None -> Inv x ->
  (forall i, i <> k -> rops x i = rops (chs s (chan cf k)) i) -> (forall j, j <> k -> f' j = fin s j) ->
  (let s1 := mkR (upd (chs s) (chan cf k) x) (pc s) i' o' f' a' false in
   (r_stage (rops x k) = Awaited <-> working s1 k = true) -> (r_stage (rops x k) = Awaited -> r_direct (rops x k) = None) -> M m s1).
Proof.
  intros Mm K N B I R F s1 K1 K0.
  assert (O : forall j, j < n cf -> j <> k -> op s1 j = op s j).
  { intros j J Nj. unfold s1. cbn [chs]. rewrite upd_eq. destruct (Nat.eqb_spec (chan cf j) (chan cf k)) as [E|E]; [|reflexivity].
    rewrite (R j Nj), E. reflexivity. }
  assert (Ok : op s1 k = rops x k) by (unfold s1; cbn [chs]; rewrite upd_eq, Nat.eqb_refl; reflexivity).
  constructor.
  - reflexivity.
  - intro c. unfold s1. cbn [chs]. rewrite upd_eq. destruct (Nat.eqb c (chan cf k)); [exact B|apply Mm].
  - intro c. unfold s1. cbn [chs]. rewrite upd_eq. destruct (Nat.eqb c (chan cf k)); [exact I|apply Mm].
  - intros c j J Nc. unfold s1. cbn [chs]. rewrite upd_eq. destruct (Nat.eqb_spec c (chan cf k)) as [->|E]; [|exact (m_abs _ _ Mm c j J Nc)].
    rewrite R by congruence. exact (m_abs _ _ Mm _ j J Nc).
  - intros j J Nj. destruct (Nat.eq_dec j k) as [->|E]; [rewrite Ok; exact K1|]. rewrite (O j J E).
    rewrite (m_k1 _ _ Mm j J Nj). unfold working, s1. cbn [fin pc]. rewrite (F j E). tauto.
  - intros j J Nj. destruct (Nat.eq_dec j k) as [->|E]; [rewrite Ok; exact K0|]. rewrite (O j J E). apply (m_k0 _ _ Mm j J Nj).
Qed.
Lemma on_Fr m k s x o' f' a' u' : k < n cf -> k <> m ->
  (forall i, i <> k -> rops x i = rops (chs s (chan cf k)) i) ->
  (buf x = buf (chs s (chan cf k)) /\ closed x = closed (chs s (chan cf k)) /\ limit x = limit (chs s (chan cf k)) /\
   wops x = wops (chs s (chan cf k)) /\ wq x = wq (chs s (chan cf k))) ->
  (rq x = rq (chs s (chan cf k)) \/ rq x = unlink k (rq (chs s (chan cf k)))) ->
  o' = out s -> (forall j, j <> k -> f' j = fin s j) -> (fin s k = true -> f' k = true) ->
  (r_stage (rops x k) = Awaited -> r_stage (op s k) = Awaited /\ (r_cancelled (op s k) = true -> r_cancelled (rops x k) = true)) ->
  Fr m s (mkR (upd (chs s) (chan cf k) x) (pc s) (idx s) o' f' a' u').
Proof.
  intros K N R B Q -> F Fk St. constructor; try reflexivity; cbn [fin chs].
  - apply F. congruence.
  - intros j Fj. destruct (Nat.eq_dec j k) as [->|E]; [auto|]. rewrite F by exact E. exact Fj.
  - intro c. rewrite upd_eq. destruct (Nat.eqb_spec c (chan cf k)) as [->|E]; [exact B|repeat split].
  - intro c. rewrite upd_eq. destruct (Nat.eqb_spec c (chan cf k)) as [->|E]; [|reflexivity]. apply R. congruence.
  - intros c q E. rewrite upd_eq. destruct (Nat.eqb_spec c (chan cf k)) as [->|Ne]; [|eauto].
    destruct Q as [->| ->]; rewrite E; [eauto|]. cbn [unlink filter]. destruct (Nat.eqb_spec m k); [congruence|]. cbn. eauto.
  - intros j J Nj. destruct (Nat.eq_dec j k) as [->|E].
    + rewrite upd_eq, Nat.eqb_refl. exact St.
    + rewrite upd_eq. destruct (Nat.eqb_spec (chan cf j) (chan cf k)) as [Ec|Ec].
      * rewrite (R j E), Ec. auto.
      * auto.
Qed.

(** The race is decided, by [m] or by a member whose fork has ended. *)
Definition D (m : nat) (s : rstate) : Prop := exists i, idx s = Some i /\ (i = m \/ fin s i = true).
Lemma D_Fr m s s1 : D m s -> Fr m s s1 -> D m s1.
Proof. intros (i & E & H) F. exists i. rewrite (f_idx _ _ _ F). split; [exact E|]. destruct H as [H|H]; [auto|]. right. exact (f_fin _ _ _ F i H). Qed.

Lemma interrupt_one_spec m s k s1 e : M m s -> D m s -> k < n cf -> k <> m -> interrupt_one cf s k = (s1, e) ->
  M m s1 /\ Fr m s s1 /\ harmless e /\ (r_stage (op s1 k) = Awaited -> r_cancelled (op s1 k) = true).
Proof.
  intros Mm Dm K N H. unfold interrupt_one in H. destruct (working s k) eqn:W.
  2: { injection H as <- <-. split; [exact Mm|]. split; [auto|]. split; [auto|]. intro A. apply (m_k1 _ _ Mm k K N) in A. congruence. }
  destruct (on _ _ s) as [s2 ev] eqn:O. injection H as <- <-. apply on_eq in O as (x & S & ->).
  pose proof (proj2 (m_k1 _ _ Mm k K N) W) as A. pose proof (m_k0 _ _ Mm k K N A) as Dr.
  destruct (interrupt_any _ _ _ _ S) as (I1 & I2 & I3 & I4). destruct (interrupt_waiting _ _ _ _ S (m_bad _ _ Mm _) A Dr) as ((B1 & B2 & B3 & B4 & B5 & B6 & B7) & Cs).
  assert (Bx : bad x = None) by (rewrite I3; apply Mm).
  assert (Ix : Inv x). { pose proof (step_inv (chs s (chan cf k)) (InterruptR k) (m_inv _ _ Mm _)) as Q. rewrite S in Q. apply Q. exact Bx. }
  assert (Wk : fin s k = false) by (unfold working in W; destruct (fin s k); [discriminate|reflexivity]).
  destruct Cs as [(-> & C1 & C2 & C3)|(r & -> & C1)].
  - cbn [answer map]. rewrite (m_ub _ _ Mm), Bx. cbn [is_some orb]. split; [|split; [|split]].
    + apply on_M; auto. unfold working in *. cbn [fin pc] in *. tauto.
    + apply on_Fr; auto. 
    + auto.
    + cbn [chs]. rewrite upd_eq, Nat.eqb_refl. auto.
  - cbn [answer map]. rewrite Nat.eqb_refl. destruct Dm as (i & Ei & Hi). unfold complete. cbn [idx chs pc out fin armed ub]. rewrite Ei, (m_ub _ _ Mm), Bx. cbn [is_some orb].
    assert (Nik : Nat.eqb i k = false). { apply Nat.eqb_neq. intros ->. destruct Hi as [->|Hi]; congruence. } rewrite Nik.
    assert (U : forall j, j <> k -> upd (fin s) k true j = fin s j) by (intros j E; rewrite upd_eq; destruct (Nat.eqb_spec j k); congruence).
    split; [|split; [|split]].
    + apply on_M; auto.
      * rewrite C1. unfold working. cbn [fin]. rewrite upd_eq, Nat.eqb_refl. cbn. split; discriminate.
      * rewrite C1. discriminate.
    + rewrite <- Ei. apply on_Fr; auto. rewrite upd_eq, Nat.eqb_refl. auto. rewrite C1. discriminate.
    + intros y [<-|[]]. exists (chan cf k), k, r. split; [reflexivity|]. apply (I1 k r). left. reflexivity.
    + cbn [chs]. rewrite upd_eq, Nat.eqb_refl, C1. discriminate.
Qed.
Lemma set_armed_M m k b s : M m s -> M m (set_armed k b s).
Proof. intros [A B Cc E F G]. constructor; auto. Qed.
Lemma cancel_on m k s s1 ev : M m s -> k < n cf -> k <> m -> on (chan cf k) (CancelR k) s = (s1, ev) -> ev = [] /\ M m s1 /\ Fr m s s1 /\ armed s1 = armed s /\ fin s1 = fin s.
Proof.
  intros Mm K N O. apply on_eq in O as (x & S & ->). destruct (cancel_any _ _ _ _ S) as (-> & B & R & Sm & F & Q).
  assert (Bx : bad x = None) by (rewrite B; apply Mm).
  assert (Ix : Inv x). { pose proof (step_inv (chs s (chan cf k)) (CancelR k) (m_inv _ _ Mm _)) as P. rewrite S in P. apply P. exact Bx. }
  destruct Sm as (S1 & S2 & S3). rewrite (m_ub _ _ Mm), Bx. cbn [is_some orb]. split; [reflexivity|]. split; [|split].
  - apply on_M; auto.
    + rewrite S1. rewrite (m_k1 _ _ Mm k K N). unfold working. cbn. tauto.
    + rewrite S1, S2. exact (m_k0 _ _ Mm k K N).
  - apply on_Fr; auto; [tauto|]. rewrite S1. auto.
  - split; reflexivity.
Qed.
Lemma emit_one_spec m s k s1 e : M m s -> k < n cf -> k <> m -> emit_one cf s k = (s1, e) -> M m s1 /\ Fr m s s1 /\ harmless e.
Proof.
  intros Mm K N H. unfold emit_one in H. destruct (armed s k).
  - destruct (on _ _ _) as [s2 ev] eqn:O. injection H as <- <-.
    destruct (cancel_on m _ _ _ _ (set_armed_M m k false s Mm) K N O) as (-> & M1 & F1 & _). split; [exact M1|]. split; [|intros x []].
    eapply Fr_trans; [|exact F1]. constructor; auto. intros c q E. eauto.
  - injection H as <- <-. auto.
Qed.
Lemma forward_one_spec m s k s1 e : M m s -> k < n cf -> k <> m -> forward_one cf s k = (s1, e) -> M m s1 /\ Fr m s s1 /\ harmless e.
Proof.
  intros Mm K N H. unfold forward_one in H. destruct (armed s k).
  - destruct (on _ _ _) as [s2 ev] eqn:O. injection H as <- <-.
    destruct (cancel_on m _ _ _ _ Mm K N O) as (-> & M1 & F1 & _). split; [exact M1|]. split; [exact F1|intros x []].
  - injection H as <- <-. auto.
Qed.

Lemma each_spec f m : (forall s k s1 e, M m s -> D m s -> k < n cf -> k <> m -> f s k = (s1, e) -> M m s1 /\ Fr m s s1 /\ harmless e) ->
  forall ks s s1 e, M m s -> D m s -> (forall k, In k ks -> k < n cf /\ k <> m) -> each f ks s = (s1, e) -> M m s1 /\ Fr m s s1 /\ harmless e.
Proof.
  intros F. induction ks as [|k t IH]; intros s s1 e Mm Dm L H; cbn [each] in H.
  - injection H as <- <-. auto.
  - destruct (f s k) as [s2 e2] eqn:E2. destruct (each f t s2) as [s3 e3] eqn:E3. injection H as <- <-.
    destruct (L k (or_introl eq_refl)) as [K N]. destruct (F _ _ _ _ Mm Dm K N E2) as (M2 & F2 & H2).
    destruct (IH _ _ _ M2 (D_Fr _ _ _ Dm F2) (fun j J => L j (or_intror J)) E3) as (M3 & F3 & H3).
    split; [exact M3|]. split; [exact (Fr_trans _ _ _ _ F2 F3)|]. apply harmless_app; assumption.
Qed.
Lemma each_interrupt m : forall ks s s1 e, M m s -> D m s -> (forall k, In k ks -> k < n cf /\ k <> m) -> each (interrupt_one cf) ks s = (s1, e) ->
  M m s1 /\ Fr m s s1 /\ harmless e /\ forall k, In k ks -> r_stage (op s1 k) = Awaited -> r_cancelled (op s1 k) = true.
Proof.
  induction ks as [|k t IH]; intros s s1 e Mm Dm L H; cbn [each] in H.
  - injection H as <- <-. split; [exact Mm|]. split; [auto|]. split; [auto|]. intros k [].
  - destruct (interrupt_one cf s k) as [s2 e2] eqn:E2. destruct (each _ t s2) as [s3 e3] eqn:E3. injection H as <- <-.
    destruct (L k (or_introl eq_refl)) as [K N]. destruct (interrupt_one_spec _ _ _ _ _ Mm Dm K N E2) as (M2 & F2 & H2 & C2).
    destruct (IH _ _ _ M2 (D_Fr _ _ _ Dm F2) (fun j J => L j (or_intror J)) E3) as (M3 & F3 & H3 & C3).
    split; [exact M3|]. split; [exact (Fr_trans _ _ _ _ F2 F3)|]. split; [apply harmless_app; assumption|].
    intros j [<-|J]; [|auto]. intro A. destruct (f_mono _ _ _ F3 _ K N A) as [A2 Cm]. apply Cm. apply C2. exact A2.
Qed.
Lemma in_others m k : In k (others cf m) <-> k < n cf /\ k <> m.
Proof. unfold others. rewrite filter_In, in_seq. destruct (Nat.eqb_spec k m); cbn; intuition (try congruence; lia). Qed.

Lemma cancel_all_spec m s s1 e : M m s -> D m s -> cancel_all cf m s = (s1, e) ->
  M m s1 /\ Fr m s s1 /\ harmless e /\ forall k, k < n cf -> k <> m -> r_stage (op s1 k) = Awaited -> r_cancelled (op s1 k) = true.
Proof.
  intros Mm Dm H. unfold cancel_all in H. destruct (each _ _ s) as [s2 e2] eqn:E2. destruct (each _ _ s2) as [s3 e3] eqn:E3. injection H as <- <-.
  destruct (each_interrupt m _ _ _ _ Mm Dm (fun k J => proj1 (in_others m k) J) E2) as (M2 & F2 & H2 & C2).
  destruct (each_spec (emit_one cf) m (fun s k s1 e a _ c d h => emit_one_spec m s k s1 e a c d h) _ _ _ _ M2 (D_Fr _ _ _ Dm F2) (fun k J => proj1 (in_others m k) J) E3) as (M3 & F3 & H3).
  split; [exact M3|]. split; [exact (Fr_trans _ _ _ _ F2 F3)|]. split; [apply harmless_app; assumption|].
  intros k K N A. destruct (f_mono _ _ _ F3 _ K N A) as [A2 Cm]. apply Cm. apply C2; [|exact A2]. apply in_others. auto.
Qed.

(** *** After undefined behaviour: the remainder of the step takes no value either *)
Definition keeps (m : nat) (s s1 : rstate) (e : list revent) : Prop := idx s1 = idx s /\ out s1 = out s /\ (forall k, fin s k = true -> fin s1 k = true) /\ pc s1 = pc s /\
  (ub s = true -> ub s1 = true) /\ harmless e.
Lemma keeps_trans m a b c e f : keeps m a b e -> keeps m b c f -> keeps m a c (e ++ f).
Proof.
  intros (A1 & A2 & A3 & A4 & A5 & A6) (B1 & B2 & B3 & B4 & B5 & B6). repeat split; try congruence; auto. apply harmless_app; assumption.
Qed.
Lemma interrupt_one_keeps m s k s1 e : D m s -> k <> m -> interrupt_one cf s k = (s1, e) -> keeps m s s1 e.
Proof.
  intros (i & Ei & Hi) N H. unfold interrupt_one in H. destruct (working s k) eqn:W.
  2: { injection H as <- <-. repeat split; auto. }
  destruct (on _ _ s) as [s2 ev] eqn:O. injection H as <- <-. apply on_eq in O as (x & S & ->).
  assert (Wk : fin s k = false) by (unfold working in W; destruct (fin s k); [discriminate|reflexivity]).
  destruct (interrupt_any _ _ _ _ S) as (I1 & I2 & I3 & I4).
  assert (Hm : harmless (map (C (chan cf k)) ev)).
  { intros y Y. apply in_map_iff in Y as (z & <- & Z). destruct z as [a r|a v r]; [|destruct (I4 _ _ _ Z)]. exists (chan cf k), a, r. split; [reflexivity|]. exact (proj2 (I1 _ _ Z)). }
  destruct (answer k ev); repeat split; cbn; auto.
  - rewrite Ei. reflexivity.
  - rewrite Ei. destruct (Nat.eqb_spec i k) as [->|E]; [|reflexivity]. destruct Hi; congruence.
  - intros j Hj. rewrite upd_eq. destruct (Nat.eqb j k); auto.
  - intros ->. reflexivity.
  - intros ->. reflexivity.
Qed.
Lemma emit_one_keeps m s k s1 e : emit_one cf s k = (s1, e) -> keeps m s s1 e.
Proof.
  intro H. unfold emit_one in H. destruct (armed s k).
  2: { injection H as <- <-. repeat split; auto. }
  destruct (on _ _ _) as [s2 ev] eqn:O. injection H as <- <-. apply on_eq in O as (x & S & ->). destruct (cancel_any _ _ _ _ S) as (-> & _).
  repeat split; cbn; auto. intros ->. reflexivity.
Qed.
Lemma each_keeps f m : (forall s k s1 e, D m s -> k <> m -> f s k = (s1, e) -> keeps m s s1 e) ->
  forall ks s s1 e, D m s -> (forall k, In k ks -> k <> m) -> each f ks s = (s1, e) -> keeps m s s1 e.
Proof.
  intros F. induction ks as [|k t IH]; intros s s1 e Dm L H; cbn [each] in H.
  - injection H as <- <-. repeat split; auto.
  - destruct (f s k) as [s2 e2] eqn:E2. destruct (each f t s2) as [s3 e3] eqn:E3. injection H as <- <-.
    pose proof (F _ _ _ _ Dm (L k (or_introl eq_refl)) E2) as K2. eapply keeps_trans; [exact K2|].
    apply (IH _ _ _); auto. 2: { intros j J. apply L. right. exact J. }
    destruct Dm as (i & Ei & Hi). destruct K2 as (A1 & A2 & A3 & _). exists i. rewrite A1. split; [exact Ei|]. destruct Hi; auto.
Qed.
Lemma cancel_all_keeps m s s1 e : D m s -> cancel_all cf m s = (s1, e) -> keeps m s s1 e.
Proof.
  intros Dm H. unfold cancel_all in H. destruct (each _ _ s) as [s2 e2] eqn:E2. destruct (each _ _ s2) as [s3 e3] eqn:E3. injection H as <- <-.
  pose proof (each_keeps (interrupt_one cf) m (interrupt_one_keeps m) _ _ _ _ Dm (fun k J => proj2 (proj1 (in_others m k) J)) E2) as K2.
  eapply keeps_trans; [exact K2|]. apply (each_keeps (emit_one cf) m (fun s k s1 e _ _ h => emit_one_keeps m s k s1 e h) _ _ _ _) in E3; auto.
  - destruct Dm as (i & Ei & Hi). destruct K2 as (A1 & A2 & A3 & _). exists i. rewrite A1. split; [exact Ei|]. destruct Hi; auto.
  - intros k J. apply in_others in J. apply J.
Qed.
End Quiet.
