(** Gather and join over channel operations: the members that have not ended wait, and cancellation ends
    them. *)
From Coq Require Import List Bool Arith Lia.
From Verif Require Import Channel_Model Channel_Spec Channel_Inv Channel_Complete Channel_Final Rch_Chan Sel_Model Sel_Spec Sel_Chan Gch_Model Gch_Spec Gch_Inv Gch_Chan.
Import ListNotations.

Section Live.
Context {V : Type}.
Variable cf : cfg V.
Variable kd : kind.
Notation gstate := (gstate V).
Notation gevent := (gevent V).
Notation op s k := (look (isw cf k) (gchs s (chan cf k)) k).
Notation eff := (eff cf kd).

(** No channel has gone wrong; if [u] is set, none of its operations has been interrupted.
    The writes of the members write what the combinator was given. *)
Variable u : bool.
Definition Bd (s : gstate) : Prop := forall c, Inv (gchs s c) /\ bad (gchs s c) = None /\ (u = true -> live (gchs s c)) /\
  forall k v, k < n cf -> w_stage (wops (gchs s c) k) <> Absent -> w_val (wops (gchs s c) k) = Some v -> act cf k = Some v.
Definition polite (l : label V) : Prop := (u = true -> ~ interrupts l) /\ forall k v, l = MkWrite k v -> k < n cf -> act cf k = Some v.
Lemma gon_ok c l (s s1 : gstate) ev x : gon c l s = (s1, ev) -> step (gchs s c) l = (x, ev) -> polite l -> Bd s -> bad x = None -> Bd s1 /\ gub s1 = gub s.
Proof.
  intros H X P B Bx. apply gon_eq in H as (x' & X' & ->). rewrite X in X'. injection X' as <-. split; [|cbn; rewrite Bx, orb_false_r; reflexivity].
  intro c'. cbn. rewrite upd_eq. destruct (Nat.eqb_spec c' c) as [->|]; [|apply B]. destruct (B c) as (Ic & Bc & Lc & Vc). destruct P as [P1 P2]. split.
  - pose proof (step_inv (gchs s c) l Ic) as I. rewrite X in I. apply I. exact Bx.
  - split; [exact Bx|]. split; [intro Ue; exact (step_live _ _ _ _ X Ic Bx (P1 Ue) (Lc Ue))|].
    intros k v Lk. pose proof (step_wval (gchs s c) l k v Ic) as Sv. rewrite X in Sv. cbn [fst] in Sv. intros S1 S2. destruct (Sv S1 S2) as [[S3 S4]|S3]; [exact (Vc k v Lk S3 S4)|exact (P2 k v S3 Lk)].
Qed.
Lemma gon_bad c l (s s1 : gstate) ev : gon c l s = (s1, ev) -> gub s1 = false -> polite l -> Bd s -> Bd s1 /\ exists x, step (gchs s c) l = (x, ev) /\ bad x = None /\ s1 = mkG (upd (gchs s) c x) (gpc s) (gout s) (gerr s) (garmed s) (gub s || is_some (bad x)).
Proof.
  intros H U P B. pose proof H as H0. apply gon_eq in H as (x & X & E). assert (Bx : bad x = None). { rewrite E in U. cbn in U. apply orb_false_iff in U as [_ U]. destruct (bad x); [discriminate|reflexivity]. }
  split; [exact (proj1 (gon_ok _ _ _ _ _ _ H0 X P B Bx))|]. eauto.
Qed.

(** Member [k] in a part of a step: it ends or goes on. *)
Definition goes (k : nat) (s s1 : gstate) : Prop :=
  A (op s k) -> c_stage (op s1 k) = c_stage (op s k) /\ A (op s1 k) /\ (D (op s k) -> D (op s1 k)) /\ (garmed s k = true -> garmed s1 k = true \/ D (op s1 k)).
Definition kp (k : nat) (s s1 : gstate) : Prop := gout s1 k <> None \/ (gout s1 k = gout s k /\ goes k s s1).
Lemma goes_refl k s s1 : gchs s1 = gchs s -> garmed s1 = garmed s -> goes k s s1.
Proof. intros E F H. rewrite E, F. auto. Qed.
Lemma goes_trans k a b c : goes k a b -> goes k b c -> goes k a c.
Proof.
  intros F G H. destruct (F H) as (F1 & F2 & F3 & F4). destruct (G F2) as (G1 & G2 & G3 & G4). split; [congruence|]. split; [exact G2|]. split; [auto|].
  intro X. destruct (F4 X) as [Y|Y]; auto.
Qed.
Lemma kp_refl k s : kp k s s.
Proof. right. split; [reflexivity|]. apply goes_refl; reflexivity. Qed.
Lemma kp_trans k a b c : kp k a b -> kp k b c -> kp k a c.
Proof.
  intros F [G|[G1 G2]]; [left; exact G|]. destruct F as [F|[F1 F2]]; [left; congruence|]. right. split; [congruence|]. exact (goes_trans _ _ _ _ F2 G2).
Qed.

(** *** Cancellation of a member *)
Lemma emit_kp j (s s1 : gstate) e : emit cf s j = (s1, e) -> Bd s ->
  Bd s1 /\ gub s1 = gub s /\ gout s1 = gout s /\ garmed s1 = garmed s /\ gerr s1 = gerr s /\ gpc s1 = gpc s /\ forall k, goes k s s1 /\ (k = j -> A (op s k) -> D (op s1 k)).
Proof.
  unfold emit. destruct (gon _ _ _) as [s2 ev] eqn:O. intros H B. injection H as <- <-. destruct (gon_eq _ _ _ _ _ O) as (x & X & E).
  destruct (B (chan cf j)) as (I & Bj & _). destruct (cancel_any (isw cf j) _ _ _ _ X) as (Ev & Bx & _). rewrite Bj in Bx.
  assert (P : polite (cancelling cf j)) by (unfold cancelling; split; [intros _; destruct (isw cf j); cbn; tauto|intros k0 v0 Q; destruct (isw cf j); discriminate]). destruct (gon_ok _ _ _ _ _ _ O X P B Bx) as [B2 U2]. split; [exact B2|]. split; [exact U2|]. rewrite E. cbn [gout garmed gerr gpc]. do 4 (split; [reflexivity|]). intro k.
  unfold goes. cbn [gchs garmed]. rewrite !upd_eq. destruct (Nat.eqb_spec (chan cf k) (chan cf j)) as [Ec|Nc].
  2: { split; [auto|intros ->; congruence]. }
  rewrite Ec. destruct (Nat.eq_dec k j) as [->|Nk].
  - split; [|intros _ Ha; exact (proj2 (proj2 (proj2 (proj2 (cancel_op _ _ _ _ _ X Bj Ha)))))]. intro Ha.
    destruct (cancel_op _ _ _ _ _ X Bj Ha) as (_ & _ & S1 & A1 & D1). auto.
  - split; [|congruence]. intro Ha. assert (Na : ~ acts (isw cf k) k (cancelling cf j)) by (unfold cancelling, acts; destruct (isw cf j); intros [_ Q]; congruence).
    destruct (other (isw cf k) k _ _ _ _ X I Bx Na) as [[_ K]|[r K]]; [|rewrite Ev in K; discriminate].
    split; [exact (proj1 K)|]. split; [exact (kept_A _ _ _ _ K Ha)|]. split; [exact (kept_D _ _ _ _ K)|auto].
Qed.
Lemma cancel_kp j (s s1 : gstate) e : cancel_step cf s j = (s1, e) -> Bd s ->
  Bd s1 /\ gub s1 = gub s /\ gout s1 = gout s /\ gerr s1 = gerr s /\ gpc s1 = gpc s /\ forall k, goes k s s1 /\ (k = j -> A (op s k) -> garmed s k = true \/ D (op s k) -> D (op s1 k)).
Proof.
  unfold cancel_step. destruct (garmed s j) eqn:Ar.
  - intros H B. apply emit_kp in H as (B1 & U1 & O1 & R1 & E1 & P1 & K); [|exact B]. split; [exact B1|]. split; [exact U1|]. split; [exact O1|]. split; [exact E1|]. split; [exact P1|].
    intro k. destruct (K k) as [K1 K2]. split; [|intros -> Ha _; exact (K2 eq_refl Ha)]. intro Ha. destruct (K1 Ha) as (G1 & G2 & G3 & G4). split; [exact G1|]. split; [exact G2|]. split; [exact G3|].
    intro X. destruct (Nat.eq_dec k j) as [Ek|Nk]; [right; exact (K2 Ek Ha)|]. apply G4. cbn. rewrite upd_eq. destruct (Nat.eqb_spec k j); [congruence|exact X].
  - intros H B. injection H as <- <-. split; [exact B|]. do 4 (split; [reflexivity|]). intro k. split; [apply goes_refl; reflexivity|]. intros -> _ [X|X]; [congruence|exact X].
Qed.
Lemma cancels_kp ks : forall (s s1 : gstate) e, geach (cancel_step cf) ks s = (s1, e) -> Bd s ->
  Bd s1 /\ gub s1 = gub s /\ gout s1 = gout s /\ gerr s1 = gerr s /\ gpc s1 = gpc s /\ forall k, goes k s s1 /\ (In k ks -> A (op s k) -> garmed s k = true \/ D (op s k) -> D (op s1 k)).
Proof.
  induction ks as [|j t IH]; intros s s1 e H B; cbn [geach] in H.
  - injection H as <- <-. split; [exact B|]. do 4 (split; [reflexivity|]). intro k. split; [apply goes_refl; reflexivity|intros []].
  - destruct (cancel_step cf s j) as [s2 e2] eqn:E2. destruct (geach _ t s2) as [s3 e3] eqn:E3. injection H as <- <-.
    apply cancel_kp in E2 as (B2 & U2 & O2 & R2 & P2 & K2); [|exact B]. apply IH in E3 as (B3 & U3 & O3 & R3 & P3 & K3); [|exact B2].
    split; [exact B3|]. split; [congruence|]. split; [congruence|]. split; [congruence|]. split; [congruence|]. intro k. destruct (K2 k) as [G2 D2]. destruct (K3 k) as [G3 D3].
    split; [exact (goes_trans _ _ _ _ G2 G3)|]. intros I Ha X. destruct (G2 Ha) as (Y1 & Y2 & Y3 & Y4). destruct (G3 Y2) as (Z1 & Z2 & Z3 & Z4).
    destruct (Nat.eq_dec k j) as [Ek|Nk]; [apply Z3, D2; auto|]. destruct I as [I|I]; [congruence|]. apply D3; auto. destruct X as [X|X]; [exact (Y4 X)|auto].
Qed.
(** cancel_all of join. *)
Lemma jcancel_kp (s s1 : gstate) e : jcancel_all cf s = (s1, e) -> Bd s ->
  Bd s1 /\ gub s1 = gub s /\ gout s1 = gout s /\ gerr s1 = gerr s /\ gpc s1 = gpc s /\ forall k, k < n cf -> goes k s s1 /\ (A (op s k) -> garmed s k = true \/ D (op s k) -> D (op s1 k)).
Proof.
  intros H B. apply cancels_kp in H as (B3 & U3 & O3 & R3 & P3 & K3); [|exact B]. do 5 (split; [assumption|]). intros k L. destruct (K3 k) as [G K]. split; [exact G|]. apply K. apply in_seq. lia.
Qed.

(** *** What the forks do that a step resumes *)
Definition stops (k : nat) (s s1 : gstate) : Prop :=
  kd = Join -> gerr s = None -> gerr s1 <> None -> gout s1 k = None -> A (op s k) -> garmed s k = true \/ D (op s k) -> D (op s1 k).
Lemma fork_kp j r (s s1 : gstate) e : fork_ends cf kd j r s = (s1, e) -> Bd s -> Bd s1 /\ gub s1 = gub s /\ forall k, k < n cf -> kp k s s1 /\ stops k s s1.
Proof.
  assert (X : (gset_out j r s, []) = (s1, e) -> Bd s -> Bd s1 /\ gub s1 = gub s /\ forall k, k < n cf -> kp k s s1 /\ stops k s s1).
  { intros H B. injection H as <- <-. split; [exact B|]. split; [reflexivity|]. intros k _. split; [|intros _ E1 E2; cbn in E2; congruence].
    unfold kp. cbn. rewrite upd_eq. destruct (Nat.eqb k j); [left; discriminate|]. right. split; [reflexivity|]. apply goes_refl; reflexivity. }
  unfold fork_ends, stops in *. destruct kd; [exact X|]. destruct (ok r); [exact X|].
  intros H B. apply jcancel_kp in H as (B1 & U1 & O1 & R1 & P1 & K); [|exact B]. split; [exact B1|]. split; [exact U1|]. intros k L. destruct (K k L) as [G Q]. split.
  - unfold kp. rewrite O1. cbn. rewrite upd_eq. destruct (Nat.eqb k j); [left; discriminate|]. right. split; [reflexivity|exact G].
  - intros _ _ _ _ Ha Hd. exact (Q Ha Hd).
Qed.
Lemma gerr_mono c ev (s s1 : gstate) e : absorb cf kd c ev s = (s1, e) -> gerr s <> None -> gerr s1 <> None.
Proof. intros H N. apply absorb_eff in H as (_ & _ & _ & _ & E & _). rewrite E. destruct kd; [exact N|]. destruct (gerr s); [discriminate|congruence]. Qed.
Lemma absorb_kp c ev : forall (s s1 : gstate) e, absorb cf kd c ev s = (s1, e) -> Bd s -> Bd s1 /\ gub s1 = gub s /\ forall k, k < n cf -> kp k s s1 /\ stops k s s1.
Proof.
  induction ev as [|a t IH]; intros s s1 e H B; cbn [absorb] in H.
  - injection H as <- <-. split; [exact B|]. split; [reflexivity|]. intros k _. split; [apply kp_refl|]. intros _ E1 E2. congruence.
  - destruct (match member cf c a with Some (k, r) => fork_ends cf kd k r s | None => (s, []) end) as [s2 e2] eqn:E2.
    destruct (absorb cf kd c t s2) as [s3 e3] eqn:E3. injection H as <- <-.
    assert (X : Bd s2 /\ gub s2 = gub s /\ forall k, k < n cf -> kp k s s2 /\ stops k s s2).
    { destruct (member cf c a) as [[k r]|]; [exact (fork_kp _ _ _ _ _ E2 B)|]. injection E2 as <- <-. split; [exact B|]. split; [reflexivity|]. intros k _. split; [apply kp_refl|]. intros _ Q1 Q2. congruence. }
    destruct X as (B2 & U2 & K2). destruct (IH _ _ _ E3 B2) as (B3 & U3 & K3). split; [exact B3|]. split; [congruence|]. intros k L. destruct (K2 k L) as [P2 S2]. destruct (K3 k L) as [P3 S3].
    split; [exact (kp_trans _ _ _ _ P2 P3)|]. intros J N1 N3 O Ha Hd.
    destruct P3 as [P3|[P3 G3]]; [congruence|]. destruct P2 as [P2|[P2 G2]]; [congruence|]. destruct (G2 Ha) as (Y1 & Y2 & Y3 & Y4). destruct (G3 Y2) as (Z1 & Z2 & Z3 & Z4).
    destruct (gerr s2) eqn:Er.
    + apply Z3. apply S2; auto; congruence.
    + apply S3; auto. destruct Hd as [Hd|Hd]; [exact (Y4 Hd)|auto].
Qed.
Lemma answer_op k ev r : k < n cf -> answer (isw cf k) k ev = Some r -> op_results cf k (map (GC (chan cf k)) ev) <> [].
Proof.
  intro L. induction ev as [|a t IH]; cbn [answer map]; [discriminate|]. change (GC (chan cf k) a :: map (GC (chan cf k)) t) with ([GC (chan cf k) a] ++ map (GC (chan cf k)) t). rewrite op_app.
  apply Nat.ltb_lt in L. assert (X : forall x : list (result V), x <> [] -> x ++ op_results cf k (map (GC (chan cf k)) t) <> []) by (intros [|] N; [congruence|discriminate]).
  assert (Y : forall x : list (result V), op_results cf k (map (GC (chan cf k)) t) <> [] -> x ++ op_results cf k (map (GC (chan cf k)) t) <> []) by (intros [|] N; [exact N|discriminate]).
  destruct a as [i r'|i v r']; destruct (isw cf k) eqn:W; cbn [negb andb]; try (intro H; apply Y; exact (IH H)).
  - destruct (Nat.eqb_spec i k) as [->|N]; [|intro H; apply Y; exact (IH H)]. intros _. apply X. cbn [op_results flat_map done_by]. rewrite L, W, !Nat.eqb_refl. cbn. rewrite Nat.eqb_refl. discriminate.
  - destruct (Nat.eqb_spec i k) as [->|N]; [|intro H; apply Y; exact (IH H)]. intros _. apply X. cbn [op_results flat_map done_by]. rewrite L, W, !Nat.eqb_refl. cbn. rewrite Nat.eqb_refl. discriminate.
Qed.
Lemma lasts_some {A} (o : option A) l : l <> [] -> lasts o l <> None.
Proof. intro N. destruct (exists_last N) as (a & x & ->). rewrite lasts_app. discriminate. Qed.

(** A step on a channel that does not act on member [k], or interrupts it. *)
Definition mild (c : nat) (l : label V) (k : nat) (s : gstate) : Prop :=
  ~ (c = chan cf k /\ acts (isw cf k) k l) \/ (l = interrupting cf k /\ (gout s k = None -> c_stage (op s k) = Awaited /\ A (op s k))).
Lemma on_ch_kp c l (s s1 : gstate) e : on_ch cf kd c l s = (s1, e) -> gub s1 = false -> polite l -> Bd s ->
  Bd s1 /\ forall k, k < n cf -> mild c l k s -> kp k s s1 /\ stops k s s1.
Proof.
  unfold on_ch. destruct (gon c l s) as [s2 ev] eqn:O. destruct (absorb cf kd c ev s2) as [s3 e3] eqn:Ab. intros H U P B. injection H as <- <-.
  pose proof (absorb_eff cf kd c ev _ _ _ Ab) as (_ & _ & _ & Out & _ & _ & Um).
  assert (U2 : gub s2 = false) by (destruct (gub s2); [rewrite Um in U by reflexivity; discriminate|reflexivity]).
  destruct (gon_bad _ _ _ _ _ O U2 P B) as (B2 & x & X & Bx & E2). destruct (absorb_kp _ _ _ _ _ Ab B2) as (B3 & _ & K). split; [exact B3|]. intros k L M. destruct (K k L) as [K3 S3].
  assert (Y : goes k s s2 \/ gout s3 k <> None).
  { destruct (Nat.eq_dec c (chan cf k)) as [Ec|Nc].
    - assert (Z : (exists r, answer (isw cf k) k ev = Some r) -> gout s3 k <> None).
      { intros [r R]. rewrite Out. rewrite Ec. apply lasts_some, (answer_op _ _ _ L R). }
      destruct (B c) as (I & Bc & _). destruct M as [M|[-> St]].
      + assert (Na : ~ acts (isw cf k) k l) by tauto. destruct (other (isw cf k) k _ _ _ _ X I Bx Na) as [[_ Kp]|R]; [|right; exact (Z R)]. left. intro Ha.
        rewrite E2. cbn [gchs garmed]. rewrite upd_eq, <- Ec, Nat.eqb_refl. rewrite <- Ec in Ha. split; [exact (proj1 Kp)|]. split; [exact (kept_A _ _ _ _ Kp Ha)|]. split; [exact (kept_D _ _ _ _ Kp)|auto].
      + destruct (gout s k) eqn:Ok; [right; rewrite Out, E2; cbn; rewrite Ok; clear; generalize (op_results cf k (map (GC c) ev)); intro l; revert r; induction l; intro r0; [discriminate|apply IHl]|].
        destruct (St eq_refl) as [St' Ha']. clear St. destruct (interrupt_op (isw cf k) k _ _ _ X I Bx) as [(_ & S1 & A1 & D1)|R]; [rewrite Ec; exact St'|rewrite Ec; exact Ha'| |right; exact (Z R)].
        left. intro Ha. rewrite E2. cbn [gchs garmed]. rewrite upd_eq, <- Ec, Nat.eqb_refl. rewrite <- Ec in St'. split; [congruence|]. auto.
    - left. intro Ha. rewrite E2. cbn [gchs garmed]. rewrite upd_eq. destruct (Nat.eqb_spec (chan cf k) c); [congruence|]. auto. }
  destruct Y as [Y|Y]; [|split; [left; exact Y|intros _ _ _ Z; congruence]].
  assert (G2 : gout s2 k = gout s k /\ gerr s2 = gerr s) by (rewrite E2; auto). destruct G2 as [G2 Ge]. split.
  - refine (kp_trans _ _ _ _ _ K3). right. auto.
  - intros J N1 N3 On Ha Hd. destruct (Y Ha) as (Y1 & Y2 & Y3 & Y4). apply S3; auto; [congruence|]. destruct Hd as [Hd|Hd]; [exact (Y4 Hd)|auto].
Qed.

(** *** Whole steps *)
Definition W1 (s : gstate) (k : nat) : Prop := gout s k = None -> c_stage (op s k) = Awaited /\ A (op s k) /\ (kd = Join -> garmed s k = true \/ D (op s k)).
Definition F1 (s : gstate) (k : nat) : Prop := kd = Join -> gerr s <> None -> gout s k = None -> D (op s k).
Definition N1 (g : stage) (s : gstate) (k : nat) : Prop := gout s k = None -> c_stage (op s k) = g.
Definition Ph (s : gstate) : Prop :=
  match gpc s with
  | GIdle => forall k, k < n cf -> N1 Absent s k
  | GCreated => forall k, k < n cf -> N1 Made s k
  | GStarting j _ => forall k, k < n cf -> (k < j -> W1 s k) /\ (j <= k -> N1 Made s k)
  | GWaiting => forall k, k < n cf -> W1 s k /\ F1 s k
  | GReturned => True
  end.
Record L (s : gstate) : Prop := { l_bd : Bd s; l_ph : Ph s }.

Lemma A_not k (s : gstate) : c_stage (op s k) <> Awaited -> A (op s k).
Proof. unfold A. congruence. Qed.
Lemma kp_W k s s1 : kp k s s1 -> W1 s k -> W1 s1 k.
Proof.
  intros [K|[K G]] W O; [congruence|]. rewrite K in O. destruct (W O) as (W2 & W3 & W4). destruct (G W3) as (G1 & G2 & G3 & G4). split; [congruence|]. split; [exact G2|].
  intro Jn. destruct (W4 Jn) as [X|X]; auto.
Qed.
Lemma kp_N g k s s1 : g <> Awaited -> kp k s s1 -> N1 g s k -> N1 g s1 k.
Proof.
  intros Ng [K|[K G]] W O; [congruence|]. rewrite K in O. specialize (W O). assert (Ha : A (op s k)) by (apply A_not; congruence). rewrite (proj1 (G Ha)). exact W.
Qed.
Lemma kp_F k s s1 : kp k s s1 -> stops k s s1 -> W1 s k -> F1 s k -> F1 s1 k.
Proof.
  intros [K|[K G]] S W F Jn E O; [congruence|]. pose proof O as O'. rewrite K in O'. destruct (W O') as (W2 & W3 & W4). destruct (G W3) as (_ & _ & G3 & _). destruct (gerr s) eqn:Er.
  - apply G3, F; auto. congruence.
  - apply S; auto.
Qed.

(** The operations are created. *)
Lemma make_kp j (s s1 : gstate) e : make_one cf s j = (s1, e) -> gub s1 = false -> Bd s ->
  Bd s1 /\ forall k, (k <> j -> forall g, g <> Awaited -> N1 g s k -> N1 g s1 k) /\ (k = j -> N1 Absent s k -> N1 Made s1 k).
Proof.
  unfold make_one. destruct (gon _ _ _) as [s2 ev] eqn:O. intros H U B. injection H as <- <-.
  assert (P : polite (making cf j)) by (unfold making; split; [intros _; destruct (act cf j); cbn; tauto|intros k0 v0 Q; destruct (act cf j) eqn:Qa; [injection Q as -> ->; auto|discriminate]]).
  destruct (gon_bad _ _ _ _ _ O U P B) as (B2 & x & X & Bx & E). split; [exact B2|]. intro k. rewrite E. unfold N1. cbn [gchs gout]. rewrite upd_eq. destruct (B (chan cf j)) as (I & Bj & _). split.
  - intros Nk g Ng. destruct (Nat.eqb_spec (chan cf k) (chan cf j)) as [Ec|]; [|auto]. intros Hn On. specialize (Hn On). rewrite Ec in Hn.
    assert (Na : ~ acts (isw cf k) k (making cf j)) by (unfold making, acts; destruct (act cf j); intros [_ Q]; congruence).
    destruct (other (isw cf k) k _ _ _ _ X I Bx Na) as [[_ K]|[r K]]; [rewrite (proj1 K); exact Hn|].
    apply making_nil in X. subst ev. discriminate.
  - intros -> Hn On. rewrite Nat.eqb_refl. specialize (Hn On). unfold step, making in X. rewrite Bj in X. unfold look, isw in *. destruct (act cf j); cbn in Hn; cbn [step_ok] in X; rewrite Hn in X; injection X as <- <-; cbn; rewrite upd_eq, Nat.eqb_refl; reflexivity.
Qed.
Lemma makes_kp ks : NoDup ks -> forall (s s1 : gstate) e, geach (make_one cf) ks s = (s1, e) -> gub s1 = false -> Bd s -> (forall k, In k ks -> N1 Absent s k) ->
  Bd s1 /\ forall k, (~ In k ks -> forall g, g <> Awaited -> N1 g s k -> N1 g s1 k) /\ (In k ks -> N1 Made s1 k).
Proof.
  induction ks as [|j t IH]; intros Nd s s1 e H U B Hn; cbn [geach] in H.
  - injection H as <- <-. split; [exact B|]. intro k. split; [auto|intros []].
  - inversion Nd as [|? ? Nj Nt]; subst. destruct (make_one cf s j) as [s2 e2] eqn:E2. destruct (geach _ t s2) as [s3 e3] eqn:E3. injection H as <- <-.
    pose proof (proj1 (geach_eff cf kd _ (fun s k s1 e H => match make_eff cf kd s k s1 e H with conj E (conj F Q) => ltac:(subst e; split; [exact F|exact Q]) end) _ _ _ _ E3)) as F3.
    assert (U2 : gub s2 = false) by (destruct (gub s2) eqn:X; [rewrite (e_ub _ _ _ _ _ F3 X) in U; discriminate|reflexivity]).
    destruct (make_kp _ _ _ _ E2 U2 B) as (B2 & K2). destruct (IH Nt _ _ _ E3 U B2) as (B3 & K3).
    { intros k I. apply (K2 k); [congruence|discriminate|]. apply Hn. right. exact I. }
    split; [exact B3|]. intro k. destruct (K2 k) as [K2a K2b]. destruct (K3 k) as [K3a K3b]. split.
    + intros Ni g Ng H. apply K3a; [intro; apply Ni; right; assumption|exact Ng|]. apply K2a; auto. intros ->. apply Ni. left. reflexivity.
    + intros [->|I]; [|auto]. apply K3a; [exact Nj|discriminate|]. apply K2b; auto. apply Hn. left. reflexivity.
Qed.

(** A member is started. *)
Lemma start_kp j (s s1 : gstate) e : j < n cf -> start_one cf kd j s = (s1, e) -> gub s1 = false -> Bd s ->
  Bd s1 /\ (N1 Made s j -> W1 s1 j) /\ forall k, k < n cf -> k <> j -> kp k s s1.
Proof.
  intro Lj. unfold start_one. set (s0 := if op_ready cf j s then s else gset_armed j true s). destruct (on_ch _ _ _ _ _) as [s2 e2] eqn:O. intros H U B. injection H as <- <-. cbn in U.
  assert (B0 : Bd s0) by (unfold s0; destruct (op_ready cf j s); exact B). assert (P : polite (awaiting cf j)) by (unfold awaiting; split; [intros _; destruct (isw cf j); cbn; tauto|intros k0 v0 Q; destruct (isw cf j); discriminate]).
  destruct (on_ch_kp _ _ _ _ _ O U P B0) as (B2 & K). split; [exact B2|]. split.
  2: { intros k Lk Nk. assert (M : mild (chan cf j) (awaiting cf j) k s0) by (left; unfold awaiting, acts; destruct (isw cf j); intros [_ [_ Q]]; congruence).
       destruct (K k Lk M) as [Kk _]. change (kp k s s2). refine (kp_trans _ _ _ _ _ Kk). right. unfold s0. destruct (op_ready cf j s); (split; [reflexivity|]); [apply goes_refl; reflexivity|].
       intro Ha. cbn. rewrite upd_eq. destruct (Nat.eqb_spec k j); [congruence|]. auto. }
  intros Hn. change (W1 s2 j). intro On. clear K. unfold on_ch in O. destruct (gon _ _ s0) as [s3 ev] eqn:O3. destruct (absorb _ _ _ _ s3) as [s4 e4] eqn:Ab. injection O as <- <-.
  pose proof (absorb_eff cf kd _ ev _ _ _ Ab) as (_ & _ & _ & Out & _ & _ & Um).
  assert (U3 : gub s3 = false) by (destruct (gub s3); [rewrite Um in U by reflexivity; discriminate|reflexivity]).
  destruct (gon_bad _ _ _ _ _ O3 U3 P B0) as (B3 & x & X & Bx & E3). destruct (absorb_kp _ _ _ _ _ Ab B3) as (_ & _ & K). destruct (K j Lj) as [Kj _].
  assert (O0 : gout s3 j = None). { destruct (gout s3 j) eqn:Y; [|reflexivity]. rewrite Out, Y in On. exfalso. revert On. generalize (op_results cf j (map (GC (chan cf j)) ev)). clear. intro l. revert r. induction l; intro r; [discriminate|apply IHl]. }
  refine (kp_W _ _ _ Kj _ On). intros _. assert (C0 : gchs s0 = gchs s) by (unfold s0; destruct (op_ready cf j s); reflexivity).
  assert (Os : gout s j = None) by (rewrite E3 in O0; cbn in O0; unfold s0 in O0; destruct (op_ready cf j s); exact O0). specialize (Hn Os). rewrite C0 in X. destruct (B (chan cf j)) as (I & Bj & _).
  destruct (start_op (isw cf j) j _ _ _ X I Bx Hn) as [(_ & Rd & St & Ha)|[r R]].
  - rewrite E3. cbn [gchs garmed]. rewrite upd_eq, Nat.eqb_refl. split; [exact St|]. split; [exact Ha|]. intros _. left. unfold s0, op_ready. unfold ready in Rd. rewrite Rd. cbn. rewrite upd_eq, Nat.eqb_refl. reflexivity.
  - exfalso. rewrite Out in On. exact (lasts_some _ _ (answer_op _ _ _ Lj R) On).
Qed.

(** A member is interrupted. *)
Lemma interrupt_kp j (s s1 : gstate) e : j < n cf -> interrupt_step cf kd s j = (s1, e) -> gub s1 = false -> u = false -> Bd s -> (forall k, k < n cf -> W1 s k /\ F1 s k) ->
  Bd s1 /\ forall k, k < n cf -> W1 s1 k /\ F1 s1 k.
Proof.
  intros Lj H U Hu B Hw.
  assert (X : on_ch cf kd (chan cf j) (interrupting cf j) s = (s1, e) -> Bd s1 /\ forall k, k < n cf -> W1 s1 k /\ F1 s1 k).
  { intro O. destruct (on_ch_kp _ _ _ _ _ O U ltac:(unfold polite, interrupting; split; [congruence|intros k0 v0 Q; destruct (isw cf j); discriminate]) B) as (B1 & K). split; [exact B1|]. intros k Lk. destruct (Hw k Lk) as [Wk Fk].
    assert (M : mild (chan cf j) (interrupting cf j) k s).
    { destruct (Nat.eq_dec k j) as [->|N]; [right; split; [reflexivity|]; intro On; destruct (Wk On) as (Q1 & Q2 & _); auto|]. left. unfold interrupting, acts. destruct (isw cf j); intros [_ [_ Q]]; congruence. }
    destruct (K k Lk M) as [Kk Sk]. split; [exact (kp_W _ _ _ Kk Wk)|exact (kp_F _ _ _ Kk Sk Wk Fk)]. }
  assert (Y : (s, []) = (s1, e) -> Bd s1 /\ forall k, k < n cf -> W1 s1 k /\ F1 s1 k) by (intro Q; injection Q as <- <-; auto).
  unfold interrupt_step in H. revert H X Y. clear. destruct kd; [auto|]. destruct (garmed s j); auto.
Qed.
Lemma interrupts_kp ks : (forall k, In k ks -> k < n cf) -> forall (s s1 : gstate) e, geach (interrupt_step cf kd) ks s = (s1, e) -> gub s1 = false -> u = false -> Bd s -> (forall k, k < n cf -> W1 s k /\ F1 s k) ->
  Bd s1 /\ forall k, k < n cf -> W1 s1 k /\ F1 s1 k.
Proof.
  induction ks as [|j t IH]; intros Lk s s1 e H U Hu B Hw; cbn [geach] in H.
  - injection H as <- <-. auto.
  - destruct (interrupt_step cf kd s j) as [s2 e2] eqn:E2. destruct (geach _ t s2) as [s3 e3] eqn:E3. injection H as <- <-.
    pose proof (proj1 (geach_eff cf kd _ (interrupt_eff cf kd) _ _ _ _ E3)) as F3.
    assert (U2 : gub s2 = false) by (destruct (gub s2) eqn:X; [rewrite (e_ub _ _ _ _ _ F3 X) in U; discriminate|reflexivity]).
    destruct (interrupt_kp _ _ _ _ (Lk j (or_introl eq_refl)) E2 U2 Hu B Hw) as [B2 W2]. exact (IH (fun k I => Lk k (or_intror I)) _ _ _ E3 U Hu B2 W2).
Qed.

(** The awaiting coroutine is cancelled. *)
Lemma forward_kp j (s s1 : gstate) e : forward_one cf kd s j = (s1, e) -> Bd s ->
  Bd s1 /\ gub s1 = gub s /\ gout s1 = gout s /\ gerr s1 = gerr s /\ gpc s1 = gpc s /\ garmed s1 = garmed s /\ forall k, goes k s s1 /\ (k = j -> A (op s k) -> (kd = Join -> garmed s k = true \/ D (op s k)) -> D (op s1 k)).
Proof.
  assert (X : emit cf s j = (s1, e) -> Bd s -> Bd s1 /\ gub s1 = gub s /\ gout s1 = gout s /\ gerr s1 = gerr s /\ gpc s1 = gpc s /\ garmed s1 = garmed s /\ forall k, goes k s s1 /\ (k = j -> A (op s k) -> (kd = Join -> garmed s k = true \/ D (op s k)) -> D (op s1 k))).
  { intros H B. apply emit_kp in H as (B1 & U1 & O1 & R1 & E1 & P1 & K); [|exact B]. do 6 (split; [assumption|]). intro k. destruct (K k) as [K1 K2]. split; [exact K1|]. auto. }
  assert (Y : garmed s j = false -> kd = Join -> (s, []) = (s1, e) -> Bd s -> Bd s1 /\ gub s1 = gub s /\ gout s1 = gout s /\ gerr s1 = gerr s /\ gpc s1 = gpc s /\ garmed s1 = garmed s /\ forall k, goes k s s1 /\ (k = j -> A (op s k) -> (kd = Join -> garmed s k = true \/ D (op s k)) -> D (op s1 k))).
  { intros Ar Jn H B. injection H as <- <-. split; [exact B|]. do 5 (split; [reflexivity|]). intro k. split; [apply goes_refl; reflexivity|]. intros -> _ Q. destruct (Q Jn); [congruence|assumption]. }
  unfold forward_one. revert X Y. clear. destruct kd; [auto|]. destruct (garmed s j); auto.
Qed.
Lemma forwards_kp ks : forall (s s1 : gstate) e, geach (forward_one cf kd) ks s = (s1, e) -> Bd s ->
  Bd s1 /\ gub s1 = gub s /\ gout s1 = gout s /\ gerr s1 = gerr s /\ gpc s1 = gpc s /\ garmed s1 = garmed s /\ forall k, goes k s s1 /\ (In k ks -> A (op s k) -> (kd = Join -> garmed s k = true \/ D (op s k)) -> D (op s1 k)).
Proof.
  induction ks as [|j t IH]; intros s s1 e H B; cbn [geach] in H.
  - injection H as <- <-. split; [exact B|]. do 5 (split; [reflexivity|]). intro k. split; [apply goes_refl; reflexivity|intros []].
  - destruct (forward_one cf kd s j) as [s2 e2] eqn:E2. destruct (geach _ t s2) as [s3 e3] eqn:E3. injection H as <- <-.
    apply forward_kp in E2 as (B2 & U2 & O2 & R2 & P2 & A2 & K2); [|exact B]. apply IH in E3 as (B3 & U3 & O3 & R3 & P3 & A3 & K3); [|exact B2].
    split; [exact B3|]. do 5 (split; [congruence|]). intro k. destruct (K2 k) as [G2 D2]. destruct (K3 k) as [G3 D3].
    split; [exact (goes_trans _ _ _ _ G2 G3)|]. intros I Ha X. destruct (G2 Ha) as (Y1 & Y2 & Y3 & Y4). destruct (G3 Y2) as (Z1 & Z2 & Z3 & Z4).
    destruct (Nat.eq_dec k j) as [Ek|Nk]; [apply Z3, D2; auto|]. destruct I as [I|I]; [congruence|]. apply D3; auto. intro Jn. destruct (X Jn) as [Q|Q]; [exact (Y4 Q)|auto].
Qed.

(** The operations are destroyed. *)
Lemma destroy_kp j (s s1 : gstate) e : destroy_one cf s j = (s1, e) -> Bd s -> Bd s1 /\ gub s1 = gub s.
Proof.
  unfold destroy_one. destruct (gon _ _ _) as [s2 ev] eqn:O. intros H B. injection H as <- <-. destruct (gon_eq _ _ _ _ _ O) as (x & X & _). destruct (B (chan cf j)) as (I & Bj & _).
  refine (gon_ok _ _ _ _ _ _ O X _ B _); [unfold destroying; split; [intros _; destruct (isw cf j); cbn; tauto|intros k0 v0 Q; destruct (isw cf j); discriminate]|].
  unfold step, destroying in X. rewrite Bj in X. destruct (isw cf j); cbn [step_ok] in X.
  - destruct (w_stage _) in X; injection X as <- <-; exact Bj.
  - destruct (r_stage _) in X; injection X as <- <-; exact Bj.
Qed.
Lemma destroys_kp ks : forall (s s1 : gstate) e, geach (destroy_one cf) ks s = (s1, e) -> Bd s -> Bd s1 /\ gub s1 = gub s.
Proof.
  induction ks as [|j t IH]; intros s s1 e H B; cbn [geach] in H.
  - injection H as <- <-. auto.
  - destruct (destroy_one cf s j) as [s2 e2] eqn:E2. destruct (geach _ t s2) as [s3 e3] eqn:E3. injection H as <- <-.
    destruct (destroy_kp _ _ _ _ E2 B) as [B2 U2]. destruct (IH _ _ _ E3 B2) as [B3 U3]. split; [exact B3|congruence].
Qed.

Lemma settle_L (s s1 : gstate) e : gsettle cf kd s = (s1, e) -> L s -> gub s1 = false -> L s1 /\ (gpc s1 = GReturned \/ s1 = s).
Proof.
  intros H I U. unfold gsettle in H. destruct (gpc s) eqn:P; try (injection H as <- <-; auto; fail). destruct (results _ _) as [rs|]; [|injection H as <- <-; auto].
  destruct (geach _ _ s) as [s2 e2] eqn:G. destruct (destroys_kp _ _ _ _ G (l_bd _ I)) as [B2 _]. destruct (outcome kd s rs); injection H as <- <-; [|discriminate U].
  split; [|left; reflexivity]. constructor; [exact B2|exact Logic.I].
Qed.
Lemma ub_back (s s1 : gstate) e : eff s s1 e -> gub s1 = false -> gub s = false.
Proof. intros F U. destruct (gub s) eqn:X; [rewrite (e_ub _ _ _ _ _ F X) in U; discriminate|reflexivity]. Qed.
Lemma settle_back (s s1 : gstate) e : gsettle cf kd s = (s1, e) -> gub s1 = false -> gub s = false.
Proof.
  unfold gsettle. destruct (gpc s); intros H U; try (injection H as <- <-; exact U). destruct (results _ _); [|injection H as <- <-; exact U].
  destruct (geach _ _ s) as [s2 e2] eqn:G. destruct (geach_nil cf kd _ (destroy_eff cf kd) _ _ _ _ G) as (_ & F & _). destruct (outcome kd s l); injection H as <- <-; [|discriminate U]. exact (ub_back _ _ _ F U).
Qed.
Definition gentle (l : glabel V) : Prop := u = true -> match l with GInterrupt | GEnv _ (InterruptR _) | GEnv _ (InterruptW _) => False | _ => True end.
Lemma env_mild c l k (s : gstate) : own cf l = false -> k < n cf -> mild c l k s.
Proof.
  intros O Lk. left. intros [_ Ac]. unfold acts in Ac. unfold own in O. destruct l; cbn in Ac; try contradiction; destruct Ac as [_ <-]; apply Nat.ltb_ge in O; lia.
Qed.
Lemma gstep_L (s : gstate) l s1 e : L s -> gentle l -> gstep cf kd s l = Some (s1, e) -> gub s1 = false -> L s1.
Proof.
  intros I Gl. unfold gstep. destruct (gub s) eqn:U0; [discriminate|]. destruct I as [B P]. destruct l as [| | |c l| |].
  - destruct (gpc s) eqn:Pc; try discriminate. unfold gseq. destruct (geach _ _ s) as [s2 e2] eqn:E. intros H U. injection H as <- <-. cbn in U. unfold Ph in P. rewrite Pc in P.
    destruct (makes_kp _ (seq_NoDup _ _) _ _ _ E U B) as [B2 K]. { intros k Ik. apply in_seq in Ik. apply P. lia. }
    constructor; [exact B2|]. cbn. intros k Lk. apply (K k). apply in_seq. lia.
  - destruct (gpc s) eqn:Pc; try discriminate. intros H U. injection H as <- <-. constructor; [exact B|]. unfold Ph in P. rewrite Pc in P. cbn. intros k Lk. split; [lia|]. intros _. exact (P k Lk).
  - destruct (gpc s) as [| |j r| |] eqn:Pc; try discriminate. unfold Ph in P. rewrite Pc in P. destruct (Nat.ltb_spec j (n cf)) as [Lj|Lj].
    + intros H U. injection H as H. destruct (start_kp _ _ _ _ Lj H U B) as (B1 & Wj & K). constructor; [exact B1|]. apply start_eff in H as (_ & _ & Pc1). unfold Ph. rewrite Pc1. intros k Lk. destruct (P k Lk) as [P1 P2].
      destruct (Nat.eq_dec k j) as [->|Nk]; [split; [intros _; apply Wj, P2; lia|lia]|]. specialize (K k Lk Nk). split; intro X; [apply (kp_W _ _ _ K), P1; lia|apply (kp_N Made k s s1 ltac:(discriminate) K), P2; lia].
    + unfold gseq. destruct (after_start cf kd s) as [s2 e2] eqn:Af. destruct (gsettle cf kd (gset_pc GWaiting s2)) as [s3 e3] eqn:T. intros H U. injection H as <- <-.
      assert (Y : Bd s2 /\ forall k, k < n cf -> W1 s2 k /\ F1 s2 k).
      { assert (Pw : forall k, k < n cf -> W1 s k) by (intros k Lk; apply (P k Lk); lia). clear P T. unfold after_start in Af.
        assert (Y1 : (kd = Join -> gerr s = None) -> (s, []) = (s2, e2) -> Bd s2 /\ forall k, k < n cf -> W1 s2 k /\ F1 s2 k).
        { intros Q H. injection H as <- <-. split; [exact B|]. intros k Lk. split; [auto|]. intros Jn Er. exfalso. apply Er, Q, Jn. }
        assert (Y2 : jcancel_all cf s = (s2, e2) -> Bd s2 /\ forall k, k < n cf -> W1 s2 k /\ F1 s2 k).
        { intro H. apply jcancel_kp in H as (B1 & U1 & O1 & R1 & P1 & K); [|exact B]. split; [exact B1|]. intros k Lk. destruct (K k Lk) as [G Dk]. split.
          - apply (kp_W k s); [|auto]. right. split; [congruence|exact G].
          - intros Jn _ On. rewrite O1 in On. destruct (Pw k Lk On) as (_ & W3 & W4). exact (Dk W3 (W4 Jn)). }
        revert Af Y1 Y2. clear. destruct kd; [intros; apply Y1; [discriminate|exact Af]|]. destruct (gerr s); intros; auto. }
      destruct Y as [B2 Y]. refine (proj1 (settle_L _ _ _ T _ U)). constructor; [exact B2|exact Y].
  - destruct (gmay_run (gpc s) l && negb (own cf l)) eqn:Ok; [|discriminate]. apply andb_prop in Ok as [_ Ow]. apply negb_true_iff in Ow. unfold gseq. destruct (on_ch cf kd c l s) as [s2 e2] eqn:O.
    destruct (gsettle cf kd s2) as [s3 e3] eqn:T. intros H U. injection H as <- <-. refine (proj1 (settle_L _ _ _ T _ U)). pose proof (settle_back _ _ _ T U) as U2.
    assert (Pl : polite l) by (split; [intros Hu Hi; specialize (Gl Hu); destruct l; cbn in Hi, Gl; contradiction|intros k0 v0 -> Lk0; cbn in Ow; apply Nat.ltb_ge in Ow; lia]). destruct (on_ch_kp _ _ _ _ _ O U2 Pl B) as [B2 K]. constructor; [exact B2|].
    pose proof (on_ch_eff cf kd _ _ _ _ _ O) as (_ & [Pc _] & _). unfold Ph in *. rewrite Pc. destruct (gpc s).
    + intros k Lk. destruct (K k Lk (env_mild _ _ _ _ Ow Lk)) as [Kk _]. exact (kp_N Absent k s s2 ltac:(discriminate) Kk (P k Lk)).
    + intros k Lk. destruct (K k Lk (env_mild _ _ _ _ Ow Lk)) as [Kk _]. exact (kp_N Made k s s2 ltac:(discriminate) Kk (P k Lk)).
    + intros j Lj. destruct (K j Lj (env_mild _ _ _ _ Ow Lj)) as [Kk _]. destruct (P j Lj) as [P1 P2]. split; intro X; [exact (kp_W _ _ _ Kk (P1 X))|exact (kp_N Made j s s2 ltac:(discriminate) Kk (P2 X))].
    + intros k Lk. destruct (K k Lk (env_mild _ _ _ _ Ow Lk)) as [Kk Sk]. destruct (P k Lk) as [P1 P2]. split; [exact (kp_W _ _ _ Kk P1)|exact (kp_F _ _ _ Kk Sk P1 P2)].
    + exact Logic.I.
  - destruct (gpc s) eqn:Pc; try discriminate. intros H U. injection H as H. destruct (forwards_kp _ _ _ _ H B) as (B1 & _ & O1 & R1 & Pc1 & A1 & K). constructor; [exact B1|]. unfold Ph in *. rewrite Pc in P. rewrite Pc1, Pc.
    intros k Lk. destruct (P k Lk) as [P1 P2]. destruct (K k) as [G _]. assert (Kk : kp k s s1) by (right; split; [congruence|exact G]). split; [exact (kp_W _ _ _ Kk P1)|].
    refine (kp_F _ _ _ Kk _ P1 P2). intros _ Q1 Q2. congruence.
  - destruct (gpc s) eqn:Pc; try discriminate. unfold gseq. destruct (geach _ _ s) as [s2 e2] eqn:E. destruct (gsettle cf kd s2) as [s3 e3] eqn:T. intros H U. injection H as <- <-.
    pose proof (settle_back _ _ _ T U) as U2. refine (proj1 (settle_L _ _ _ T _ U)). unfold Ph in P. rewrite Pc in P.
    assert (Hu : u = false) by (unfold gentle in Gl; destruct u; [destruct (Gl eq_refl)|reflexivity]).
    destruct (interrupts_kp (seq 0 (n cf)) ltac:(intros k Ik; apply in_seq in Ik; lia) _ _ _ E U2 Hu B P) as [B2 W2]. constructor; [exact B2|].
    destruct (geach_eff cf kd _ (interrupt_eff cf kd) _ _ _ _ E) as [_ [Pc2 _]]. unfold Ph. rewrite Pc2, Pc. exact W2.
Qed.
Lemma L_init : L (ginit cf).
Proof.
  constructor.
  - intro c. cbn. split; [apply init_inv|]. split; [reflexivity|]. split; [intros _; apply live_init|]. cbn. congruence.
  - cbn. intros k _ _. unfold look. cbn. destruct (isw cf k); reflexivity.
Qed.
Lemma gstep_back (s : gstate) l s1 e : gstep cf kd s l = Some (s1, e) -> gub s = false.
Proof. unfold gstep. destruct (gub s); [discriminate|reflexivity]. Qed.
Lemma grun_L ls : forall (s s1 : gstate) e, (forall l, In l ls -> gentle l) -> L s -> grun cf kd s ls = Some (s1, e) -> gub s1 = false -> L s1.
Proof.
  induction ls as [|l t IH]; intros s s1 e Gl I H U; cbn [grun] in H.
  - injection H as <- <-. exact I.
  - destruct (gstep cf kd s l) as [[s2 e2]|] eqn:S; [|discriminate]. destruct (grun cf kd s2 t) as [[s3 e3]|] eqn:R; [|discriminate]. injection H as <- <-.
    assert (U2 : gub s2 = false). { destruct t as [|l' t]; cbn [grun] in R; [injection R as <- <-; exact U|]. destruct (gstep cf kd s2 l') as [[s4 e4]|] eqn:S'; [|discriminate]. exact (gstep_back _ _ _ _ S'). }
    refine (IH _ _ _ (fun l' X => Gl l' (or_intror X)) _ R U). exact (gstep_L _ _ _ _ I (Gl l (or_introl eq_refl)) S U2).
Qed.
End Live.

(** *** Members that are about to end let the combinator end *)
Section Finish.
Context {V : Type}.
Variable cf : cfg V.
Variable kd : kind.
Notation gstate := (gstate V).
Notation op s k := (look (isw cf k) (gchs s (chan cf k)) k).

Definition open_ (s : gstate) : list nat := filter (fun k => negb (is_some (gout s k))) (seq 0 (n cf)).
Lemma open_less (s s1 : gstate) k : (forall i, gout s i <> None -> gout s1 i <> None) -> k < n cf -> gout s k = None -> gout s1 k <> None -> length (open_ s1) < length (open_ s).
Proof.
  intros M Lk N1 N2. unfold open_. assert (I : In k (seq 0 (n cf))) by (apply in_seq; lia). revert I. generalize (seq 0 (n cf)). clear Lk. intro l.
  assert (Le : forall l, length (filter (fun k => negb (is_some (gout s1 k))) l) <= length (filter (fun k => negb (is_some (gout s k))) l)).
  { clear l. induction l as [|i t IH]; [auto|]. cbn. specialize (M i). destruct (gout s i), (gout s1 i); cbn; try lia. destruct M; congruence. }
  induction l as [|i t IH]; [intros []|]. intros [->|I]; cbn.
  - rewrite N1. destruct (gout s1 k); [|congruence]. cbn. specialize (Le t). lia.
  - specialize (IH I). specialize (M i). destruct (gout s i), (gout s1 i); cbn; try lia. destruct M; congruence.
Qed.
Lemma finish m : forall (s : gstate) tr, length (open_ s) <= m -> J cf kd s tr -> L cf kd true s -> gub s = false -> gpc s = GWaiting -> (forall k, k < n cf -> gout s k = None -> D (op s k)) ->
  exists ls s1 e, Forall gresumption ls /\ grun cf kd s ls = Some (s1, e) /\ gub s1 = false /\ exists x, gends (tr ++ e) = [x].
Proof.
  induction m as [m IH] using lt_wf_ind. intros s tr Lm Ij Il U Pc Dm.
  destruct (results_none _ _ (j_wait _ _ _ _ Ij Pc)) as (k & Ik & Ok). apply in_seq in Ik. assert (Lk : k < n cf) by lia.
  pose proof (l_ph _ _ _ _ Il) as P. unfold Ph in P. rewrite Pc in P. destruct (proj1 (P k Lk) Ok) as (St & _ & _). destruct (l_bd _ _ _ _ Il (chan cf k)) as (I & B & Lv & _).
  destruct (doomed_run (isw cf k) k _ I B (Lv eq_refl) St (Dm k Lk Ok)) as (q & x & ev & r & X & Bx & R).
  destruct (gstep cf kd s (GEnv (chan cf k) (Run q))) as [[s2 e2]|] eqn:S.
  2: { exfalso. unfold gstep in S. rewrite U, Pc in S. cbn in S. discriminate. }
  pose proof S as S0. unfold gstep in S. rewrite U, Pc in S. cbn [gmay_run own andb negb] in S. unfold gseq in S. destruct (on_ch cf kd (chan cf k) (Run q) s) as [s3 e3] eqn:O. destruct (gsettle cf kd s3) as [s4 e4] eqn:T. injection S as <- <-.
  pose proof O as O0. unfold on_ch in O. destruct (gon (chan cf k) (Run q) s) as [s5 ev5] eqn:Go. destruct (absorb cf kd (chan cf k) ev5 s5) as [s6 e6] eqn:Ab. injection O as <- <-.
  destruct (gon_eq _ _ _ _ _ Go) as (x' & X' & _). rewrite X in X'. injection X' as <- <-.
  destruct (gon_ok cf true _ _ _ _ _ _ Go X ltac:(split; [intros _ []|discriminate]) (l_bd _ _ _ _ Il) Bx) as [B5 U5]. destruct (absorb_kp cf kd true _ _ _ _ _ Ab B5) as (B6 & U6 & _).
  assert (U6' : gub s6 = false) by congruence.
  destruct (on_ch_kp cf kd true _ _ _ _ _ O0 U6' ltac:(split; [intros _ []|discriminate]) (l_bd _ _ _ _ Il)) as [_ K]. pose proof (on_ch_eff cf kd _ _ _ _ _ O0) as (F6 & [Pc6 _] & _).
  assert (Mono : forall i, gout s i <> None -> gout s6 i <> None).
  { intros i Ni. rewrite (e_out _ _ _ _ _ F6). destruct (gout s i) as [v|]; [|congruence]. generalize (op_results cf i (map (GC (chan cf k)) ev ++ e6)). clear. intro l. revert v. induction l; intro v; [discriminate|apply IHl]. }
  assert (Nk : gout s6 k <> None).
  { rewrite (e_out _ _ _ _ _ F6), op_app. intro Y. assert (Z : op_results cf k (map (GC (chan cf k)) ev) ++ op_results cf k e6 <> []) by (pose proof (answer_op _ _ _ _ Lk R); destruct (op_results cf k (map (GC (chan cf k)) ev)); [congruence|discriminate]). exact (lasts_some _ _ Z Y). }
  pose proof (gstep_J _ _ _ _ _ _ _ Ij S0) as Ij4.
  assert (D6 : forall i, i < n cf -> gout s6 i = None -> D (op s6 i)).
  { intros i Li Ni. destruct (K i Li (env_mild cf _ (Run q) _ _ eq_refl Li)) as [[Ki|[Ki G]] _]; [congruence|]. rewrite Ki in Ni. destruct (proj1 (P i Li) Ni) as (_ & W3 & _). apply (proj1 (proj2 (proj2 (G W3)))). exact (Dm i Li Ni). }
  assert (U4 : gub s4 = false).
  { revert T. unfold gsettle. rewrite Pc6, Pc. destruct (results (gout s6) (seq 0 (n cf))) as [rs|] eqn:Rs; [|intro T; injection T as <- <-; exact U6'].
    destruct (geach (destroy_one cf) (seq 0 (n cf)) s6) as [s7 e7] eqn:G. destruct (destroys_kp cf true _ _ _ _ G B6) as [_ U7]. destruct (outcome kd s6 rs) eqn:Oc; intro T; injection T as <- <-; [cbn; congruence|].
    exfalso. unfold outcome in Oc. pose proof (eff_trans _ _ _ _ _ _ _ (j_eff _ _ _ _ Ij) F6) as E6. pose proof (no_failure_ok cf kd s6 _ rs E6) as Nf.
    revert Oc Nf Rs. clear. destruct kd; [discriminate|]. destruct (gerr s6); [discriminate|]. intros Oc Nf Rs. rewrite Nf in Oc; auto. discriminate. }
  assert (Il4 : L cf kd true s4) by (refine (gstep_L cf kd true _ _ _ _ Il _ S0 U4); intros _; exact Logic.I).
  destruct (gpc s4) eqn:Pc4.
  4: { assert (E4 : s4 = s6). { revert T. unfold gsettle. rewrite Pc6, Pc. destruct (results (gout s6) (seq 0 (n cf))) as [rs|] eqn:Rs; [|intro T; injection T as <- <-; reflexivity].
         destruct (geach (destroy_one cf) (seq 0 (n cf)) s6) as [s7 e7]. destruct (outcome kd s6 rs); intro T; injection T as <- <-; [discriminate|discriminate]. }
       subst s4. destruct (IH (length (open_ s6)) ltac:(pose proof (open_less s s6 k Mono Lk Ok Nk); lia) s6 _ (le_n _) Ij4 Il4 U4 Pc4 D6) as (ls & s1 & e & H1 & H2 & H3 & y & H4).
       exists (GEnv (chan cf k) (Run q) :: ls), s1, ((( map (GC (chan cf k)) ev ++ e6) ++ e4) ++ e). split; [constructor; [exists (chan cf k), q; reflexivity|exact H1]|]. split; [cbn [grun]; rewrite S0, H2; reflexivity|]. split; [exact H3|].
       exists y. rewrite app_assoc. exact H4. }
  4: { exists [GEnv (chan cf k) (Run q)], s4, (((map (GC (chan cf k)) ev ++ e6) ++ e4) ++ []). split; [constructor; [exists (chan cf k), q; reflexivity|constructor]|]. split; [cbn [grun]; rewrite S0; reflexivity|]. split; [exact U4|].
       rewrite app_nil_r. destruct (j_end _ _ _ _ Ij4) as [[Q _]|(_ & rs & y & _ & _ & E)]; [congruence|]. exists y. exact E. }
  all: exfalso; revert T Pc4; unfold gsettle; rewrite Pc6, Pc; destruct (results (gout s6) (seq 0 (n cf))) as [rs|]; [destruct (geach (destroy_one cf) (seq 0 (n cf)) s6) as [s7 e7] eqn:G; destruct (outcome kd s6 rs); intro T; injection T as <- <-; cbn; [congruence|discriminate U4]|intro T; injection T as <- <-; congruence].
Qed.
End Finish.
