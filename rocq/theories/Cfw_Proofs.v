(** * Invariant of the forwarding model *)
From Coq Require Import List Bool Arith Lia.
From Verif Require Import Cfw_Model Cfw_Spec.
Import ListNotations.

Lemma upd_same {A} (f : nat -> A) k v : upd f k v k = v.
Proof. unfold upd. now rewrite Nat.eqb_refl. Qed.
Lemma upd_other {A} (f : nat -> A) k v n : n <> k -> upd f k v n = f n.
Proof. intros H. unfold upd. destruct (Nat.eqb_spec n k); congruence. Qed.

Definition live (s : state) n := st s n <> Fresh /\ st s n <> Ended.
Definition waits (s : state) p d :=
  st s p = Waiting (TCo d) \/ st s p = Waiting (TWith d) \/ st s p = Waiting (TComp d).
Definition isroot (k : kind) := k = KCo true \/ k = KFork.

(** The live users of slot [k], innermost first, down to its owner. *)
Fixpoint linked (s : state) k (l : list nat) : Prop :=
  match l with
  | [] => True
  | x :: r => match r with [] => x = k | p :: _ => st s p = Waiting (TWith x) end /\ linked s k r
  end.

(** [x] is a coroutine that has ended and whose awaiter is about to go on. *)
Record core (x : option nat) (ch : nat -> list nat) (s : state) : Prop := Core
  { i_own : forall n k, slot s n = Some k -> st s k <> Fresh /\ (k = n \/ knd s n = KWith) /\ knd s k <> KWith;
    i_root : forall n, st s n <> Fresh -> isroot (knd s n) -> slot s n = Some n;
    i_in : forall k m, In m (ch k) <-> slot s m = Some k /\ live s m;
    i_nd : forall k, NoDup (ch k);
    i_lk : forall k, linked s k (ch k);
    i_wait : forall p d, waits s p d -> aw s d = Some p /\ (live s d \/ x = Some d);
    i_with : forall p d, st s p = Waiting (TWith d) -> knd s d = KWith /\ slot s d = slot s p;
    i_co : forall p d, st s p = Waiting (TCo d) -> knd s d = KCo true;
    i_aw : forall p d, aw s d = Some p -> waits s p d;
    i_comb : forall n g fs, st s n = Waiting (TComb g fs) ->
       comb s g = CLive /\ forall f, In f fs -> knd s f = KFork /\ st s f <> Fresh;
    i_comb1 : forall n m g fs gs, st s n = Waiting (TComb g fs) -> st s m = Waiting (TComb g gs) -> n = m }.

Record hands (s : state) : Prop := Hands
  { h_put : forall n t h k, st s n = Waiting t -> puts t = Some h -> slot s n = Some k -> hand s k = Some h;
    h_fwd : forall k d, hand s k = Some (HFwd d) -> exists m, st s m = Waiting (TCo d) /\ slot s m = Some k;
    h_fork : forall f, knd s f = KFork -> st s f = Ended -> hand s f = None;
    h_cmb : forall k g fs f, hand s k = Some (HComb g fs) -> In f fs -> knd s f = KFork /\ st s f <> Fresh }.

Definition inv (s : state) := (exists ch, core None ch s) /\ hands s.

Lemma linked_ext s s' k l : (forall p, In p (tl l) -> st s' p = st s p) -> linked s k l -> linked s' k l.
Proof.
  induction l as [|x r IH]; [trivial|]. cbn [linked tl]. intros E [H1 H2]. split.
  - destruct r as [|p r']; [exact H1|]. rewrite E; [exact H1|now left].
  - apply IH; [|exact H2]. intros p Hp. apply E. destruct r as [|q r']; [destruct Hp|]. right. exact Hp.
Qed.

Lemma linked_tl s k l : linked s k l -> forall p, In p (tl l) -> exists d, st s p = Waiting (TWith d).
Proof.
  induction l as [|x r IH]; [intros _ p []|]. cbn [linked tl]. intros [H1 H2] p Hp.
  destruct r as [|q r']; [destruct Hp|]. destruct Hp as [->|Hp]; [now exists x|]. now apply IH.
Qed.

Lemma linked_pred s k l : linked s k l -> forall p, In p (tl l) -> exists d, st s p = Waiting (TWith d) /\ In d l.
Proof.
  induction l as [|x r IH]; [intros _ p []|]. cbn [linked tl]. intros [H1 H2] p Hp.
  destruct r as [|q r']; [destruct Hp|]. destruct Hp as [->|Hp]; [exists x; split; [exact H1|now left]|].
  destruct (IH H2 p Hp) as (d & E & Hd). exists d. split; [exact E|now right].
Qed.

Lemma linked_last s k l : linked s k l -> l <> [] -> In k l.
Proof.
  induction l as [|x r IH]; [intros _ E; now elim E|]. cbn [linked]. intros [H1 H2] _.
  destruct r as [|q r']; [subst; now left|]. right. apply IH; [exact H2|discriminate].
Qed.

Lemma alone x ch s n m k : core x ch s -> slot s n = Some k -> slot s m = Some k -> live s n -> live s m ->
  (forall d, st s n <> Waiting (TWith d)) -> (forall d, st s m <> Waiting (TWith d)) -> n = m.
Proof.
  intros C Sn Sm Ln Lm Wn Wm.
  assert (Hn : In n (ch k)) by (apply (i_in _ _ _ C); now split).
  assert (Hm : In m (ch k)) by (apply (i_in _ _ _ C); now split).
  pose proof (linked_tl _ _ _ (i_lk _ _ _ C k)) as T.
  destruct (ch k) as [|y r]; [destruct Hn|]. cbn [tl] in T.
  destruct Hn as [->|Hn]; [|destruct (T _ Hn) as [d E]; now elim (Wn d)].
  destruct Hm as [->|Hm]; [reflexivity|destruct (T _ Hm) as [d E]; now elim (Wm d)].
Qed.

Lemma owner_live x ch s n k : core x ch s -> slot s n = Some k -> live s n -> live s k.
Proof.
  intros C Sn Ln. assert (Hn : In n (ch k)) by (apply (i_in _ _ _ C); now split).
  assert (Hk : In k (ch k)). { apply (linked_last s); [apply (i_lk _ _ _ C)|]. intros E; rewrite E in Hn; destruct Hn. }
  now apply (i_in _ _ _ C) in Hk.
Qed.

Lemma init_inv : inv init.
Proof.
  split; [exists (fun _ => [])|]; constructor; cbn; unfold waits, live, isroot; cbn; try discriminate; try congruence; intuition (try congruence); try constructor.
Qed.

(** ** Simple changes *)

Lemma put_knd n h s : knd (put n h s) = knd s. Proof. unfold put. now destruct (slot s n). Qed.
Lemma put_st n h s : st (put n h s) = st s. Proof. unfold put. now destruct (slot s n). Qed.
Lemma put_slot n h s : slot (put n h s) = slot s. Proof. unfold put. now destruct (slot s n). Qed.
Lemma put_aw n h s : aw (put n h s) = aw s. Proof. unfold put. now destruct (slot s n). Qed.
Lemma put_comb n h s : comb (put n h s) = comb s. Proof. unfold put. now destruct (slot s n). Qed.
Lemma put_filt n h s : filt (put n h s) = filt s. Proof. unfold put. now destruct (slot s n). Qed.
Lemma put_hand n h s k : hand (put n h s) k = match slot s n with Some j => if Nat.eqb k j then h else hand s k | None => hand s k end.
Proof. unfold put, upd. now destruct (slot s n). Qed.

Lemma core_ext x ch s s' : knd s' = knd s -> st s' = st s -> slot s' = slot s -> aw s' = aw s -> comb s' = comb s ->
  core x ch s -> core x ch s'.
Proof.
  intros E1 E2 E3 E4 E5 [A1 A2 A3 A4 A5 A6 A7 A8 A9 A10 A11].
  constructor; unfold waits, live, isroot in *; rewrite ?E1, ?E2, ?E3, ?E4, ?E5; try assumption.
  intros k. apply linked_ext with (s := s); [intros; now rewrite E2|apply A5].
Qed.

Lemma core_put x ch n h s : core x ch s -> core x ch (put n h s).
Proof. apply core_ext; [apply put_knd|apply put_st|apply put_slot|apply put_aw|apply put_comb]. Qed.

Ltac nz := match goal with
  | H : context [upd _ ?a _ ?b] |- _ => unfold upd in H
  | |- context [upd _ ?a _ ?b] => unfold upd
  end.
Ltac ups := unfold upd in *; repeat match goal with
  | H : context [Nat.eqb ?a ?b] |- _ => destruct (Nat.eqb_spec a b); subst
  | |- context [Nat.eqb ?a ?b] => destruct (Nat.eqb_spec a b); subst
  end.

Lemma fresh_unused x ch s n : core x ch s -> (forall d, x = Some d -> st s d <> Fresh) -> st s n = Fresh ->
  ch n = [] /\ (forall m, slot s m <> Some n) /\ (forall m, aw s m <> Some n) /\ (forall p, ~ waits s p n) /\ (forall k, ~ In n (ch k)).
Proof.
  intros C X F.
  assert (NS : forall m, slot s m <> Some n).
  { intros m E. destruct (i_own _ _ _ C m n E) as [H _]. congruence. }
  repeat split; try assumption.
  - destruct (ch n) as [|y r] eqn:E; [reflexivity|]. exfalso.
    assert (H : In y (ch n)) by (rewrite E; now left). apply (i_in _ _ _ C) in H. now apply (NS y).
  - intros m E. apply (i_aw _ _ _ C) in E. unfold waits in E. rewrite F in E. intuition discriminate.
  - intros p E. apply (i_wait _ _ _ C) in E. destruct E as [_ [[E _]|E]]; [congruence|]. now apply (X n).
  - intros k E. apply (i_in _ _ _ C) in E. destruct E as [_ [E _]]. congruence.
Qed.

Lemma core_start ch s n K sl : core None ch s -> st s n = Fresh -> K <> KWith ->
  (isroot K -> sl = Some n) -> (sl = Some n \/ sl = None) ->
  exists ch', core None ch' (start n K sl s).
Proof.
  intros C F NW R SL. destruct (fresh_unused _ _ _ _ C ltac:(discriminate) F) as (U1 & U2 & U3 & U4 & U5).
  assert (NT : forall p t, st (start n K sl s) p = Waiting t -> st s p = Waiting t /\ p <> n).
  { intros p t. cbn [start st]. ups; [discriminate|auto]. }
  exists (upd ch n (if sl then [n] else [])). constructor.
  - intros m k. cbn [start slot st knd]. intros H. ups; try congruence.
    + repeat split; try assumption; try discriminate. now left.
    + destruct SL; congruence.
    + now apply (i_own _ _ _ C).
  - intros m. cbn [start slot st knd]. ups; [intros _; exact R|apply (i_root _ _ _ C)].
  - intros k m. cbn [start slot]. unfold live. cbn [start st].
    pose proof (i_in _ _ _ C k m) as I. unfold live in I.
    pose proof (U2 m) as U2'. pose proof (U5 k) as U5'.
    ups; try tauto.
    + destruct SL as [->| ->]; cbn [In]; intuition congruence.
    + destruct SL as [->| ->]; cbn [In]; intuition congruence.
    + destruct SL as [->| ->]; cbn [In]; intuition congruence.
  - intros k. ups; [|apply (i_nd _ _ _ C)]. destruct sl; repeat constructor. intros [].
  - intros k. ups.
    + destruct sl; cbn [linked]; auto.
    + apply linked_ext with (s := s); [|apply (i_lk _ _ _ C)]. intros p Hp. cbn [start st].
      rewrite upd_other; [reflexivity|]. intros ->. apply (U5 k). destruct (ch k); [destruct Hp|now right].
  - intros p d W. assert (W' : waits s p d /\ p <> n).
    { destruct W as [W|[W|W]]; apply NT in W; destruct W; (split; [|assumption]); unfold waits; auto. }
    destruct W' as [W' Np]. destruct (i_wait _ _ _ C _ _ W') as [H1 H2].
    assert (d <> n) by (intros ->; now apply (U4 p)).
    unfold live. cbn [start aw st]. rewrite !upd_other by assumption. now split.
  - intros p d W. apply NT in W. destruct W as [W Np]. assert (d <> n) by (intros ->; apply (U4 p); unfold waits; auto).
    cbn [start knd slot]. rewrite !upd_other by assumption. now apply (i_with _ _ _ C).
  - intros p d W. apply NT in W. destruct W as [W Np]. assert (d <> n) by (intros ->; apply (U4 p); unfold waits; auto).
    cbn [start knd]. rewrite !upd_other by assumption. now apply (i_co _ _ _ C) with (p := p).
  - intros p d. unfold waits. cbn [start aw st]. intros H. ups; try discriminate.
    + now elim (U3 d).
    + now apply (i_aw _ _ _ C).
  - intros m g fs W. apply NT in W. destruct W as [W Nm]. destruct (i_comb _ _ _ C _ _ _ W) as [H1 H2].
    split; [exact H1|]. intros f Hf. destruct (H2 f Hf). cbn [start knd st]. ups; [congruence|auto].
  - intros m1 m2 g fs gs W1 W2. apply NT in W1. apply NT in W2. eapply (i_comb1 _ _ _ C); [apply W1|apply W2].
Qed.

(** [m] goes on *)
Lemma core_resume x ch s m : core x ch s -> (forall d, st s m = Waiting (TWith d) -> ~ live s d) ->
  (forall n, x = Some n -> waits s m n) -> core None ch (resume m s).
Proof.
  intros C WL XM. unfold resume. destruct (st s m) as [| |t|] eqn:E.
  1, 2, 4: destruct x as [n|]; [|exact C]; specialize (XM n eq_refl); unfold waits in XM; rewrite E in XM; intuition discriminate.
  set (u := set_st m Running s). set (v := if clears t then put m None u else u).
  assert (Ek : knd v = knd s). { unfold v. destruct (clears t); [now rewrite put_knd|reflexivity]. }
  assert (Es : st v = upd (st s) m Running). { unfold v. destruct (clears t); [now rewrite put_st|reflexivity]. }
  assert (El : slot v = slot s). { unfold v. destruct (clears t); [now rewrite put_slot|reflexivity]. }
  assert (Ea : aw v = aw s). { unfold v. destruct (clears t); [now rewrite put_aw|reflexivity]. }
  assert (Ec : comb v = comb s). { unfold v. destruct (clears t); [now rewrite put_comb|reflexivity]. }
  set (w := match t with TCo d | TWith d | TComp d => set_aw d None v | TComb g _ => set_comb g CGone v | _ => v end).
  assert (Wk : knd w = knd s) by (unfold w; destruct t; exact Ek).
  assert (Ws : st w = upd (st s) m Running) by (unfold w; destruct t; exact Es).
  assert (Wl : slot w = slot s) by (unfold w; destruct t; exact El).
  assert (Wa : aw w = match t with TCo d | TWith d | TComp d => upd (aw s) d None | _ => aw s end).
  { unfold w; destruct t; cbn [set_aw set_comb aw]; now rewrite Ea. }
  assert (Wc : comb w = match t with TComb g _ => upd (comb s) g CGone | _ => comb s end).
  { unfold w; destruct t; cbn [set_aw set_comb comb]; now rewrite Ec. }
  clearbody w. clear v u Ek Es El Ea Ec.
  assert (NT : forall p t, st w p = Waiting t -> st s p = Waiting t /\ p <> m).
  { intros p t0. rewrite Ws. ups; [discriminate|auto]. }
  assert (LV : forall p, live w p <-> live s p).
  { intros p. unfold live. rewrite Ws. ups; [rewrite E|tauto]. intuition discriminate. }
  assert (FR : forall p, st w p <> Fresh <-> st s p <> Fresh).
  { intros p. rewrite Ws. ups; [rewrite E|tauto]. intuition discriminate. }
  constructor.
  - intros n k. rewrite Wl, Wk, FR. apply (i_own _ _ _ C).
  - intros n. rewrite Wl, Wk, FR. apply (i_root _ _ _ C).
  - intros k n. rewrite Wl, LV. apply (i_in _ _ _ C).
  - apply (i_nd _ _ _ C).
  - intros k. pose proof (i_lk _ _ _ C k) as L. pose proof (i_nd _ _ _ C k) as ND.
    destruct t; try (apply linked_ext with (s := s); [|exact L]; intros p Hp; rewrite Ws;
      (destruct (Nat.eq_dec p m) as [->|N]; [|now apply upd_other]);
      destruct (linked_tl _ _ _ L _ Hp) as [d' E']; congruence).
    (* TWith d: its coroutine is only gone from the chain if it is not live *)
    specialize (WL d eq_refl).
    apply linked_ext with (s := s); [|exact L]; intros p Hp; rewrite Ws.
    destruct (Nat.eq_dec p m) as [->|N]; [|now apply upd_other]. exfalso.
    destruct (linked_pred _ _ _ L _ Hp) as (y & E' & Hy). apply (i_in _ _ _ C) in Hy.
    assert (y = d) as -> by congruence. now apply WL.
  - intros p q W. assert (W' : waits s p q /\ p <> m).
    { destruct W as [W|[W|W]]; apply NT in W; destruct W; (split; [|assumption]); unfold waits; auto. }
    destruct W' as [W' Np]. destruct (i_wait _ _ _ C _ _ W') as [H1 H2]. rewrite LV. split; [|destruct H2 as [H2|H2]; [now left|]; apply XM in H2; apply (i_wait _ _ _ C) in H2; destruct H2 as [H2 _]; congruence].
    rewrite Wa. destruct t as [d|d|d|g fs|o|o|]; try exact H1; ups; try exact H1; exfalso; apply Np;
      assert (X : waits s m d) by (unfold waits; auto); apply (i_wait _ _ _ C) in X; destruct X; congruence.
  - intros p d W. apply NT in W. destruct W as [W _]. rewrite Wk, Wl. now apply (i_with _ _ _ C).
  - intros p d W. apply NT in W. destruct W as [W _]. rewrite Wk. now apply (i_co _ _ _ C) with (p := p).
  - intros p q. rewrite Wa. intros H.
    assert (H' : aw s q = Some p /\ (p = m -> ~ waits s m q)).
    { assert (Q : forall d, waits s m d -> upd (aw s) d None q = Some p -> aw s q = Some p /\ (p = m -> ~ waits s m q)).
      { intros d Wd Hq. unfold upd in Hq. destruct (Nat.eqb_spec q d); [discriminate|]. split; [exact Hq|].
        intros -> X. unfold waits in Wd, X. rewrite E in Wd, X. destruct Wd as [Wd|[Wd|Wd]]; destruct X as [X|[X|X]]; congruence. }
      destruct t as [d|d|d|g fs|o|o|]; try (apply (Q d); [unfold waits; rewrite E; auto|exact H]);
        (split; [exact H|]; intros _ X; unfold waits in X; rewrite E in X; destruct X as [X|[X|X]]; discriminate). }
    destruct H' as [H1 H2]. pose proof (i_aw _ _ _ C _ _ H1) as X. unfold waits. rewrite Ws. ups; [now elim (H2 eq_refl)|exact X].
  - intros n g fs W. apply NT in W. destruct W as [W Nn]. destruct (i_comb _ _ _ C _ _ _ W) as [H1 H2]. split.
    + rewrite Wc. destruct t as [d|d|d|g' fs'|o|o|]; try exact H1. ups; [|exact H1]. elim Nn. now apply (i_comb1 _ _ _ C n m g' fs fs').
    + intros f Hf. rewrite Wk, FR. now apply H2.
  - intros m1 m2 g fs gs W1 W2. apply NT in W1. apply NT in W2. eapply (i_comb1 _ _ _ C); [apply W1|apply W2].
Qed.

(** [n] ends *)
Lemma core_end ch s n : core None ch s -> st s n = Running ->
  exists ch', core (match aw s n with Some _ => Some n | None => None end) ch' (set_st n Ended s).
Proof.
  intros C R.
  assert (NT : forall p t, st (set_st n Ended s) p = Waiting t -> st s p = Waiting t /\ p <> n).
  { intros p t. cbn [set_st st]. ups; [discriminate|auto]. }
  assert (HD : forall k, In n (ch k) -> exists r, ch k = n :: r /\ ~ In n r).
  { intros k H. pose proof (linked_tl _ _ _ (i_lk _ _ _ C k)) as T. pose proof (i_nd _ _ _ C k) as ND.
    destruct (ch k) as [|y r]; [destruct H|]. destruct H as [->|H].
    - exists r. split; [reflexivity|]. now inversion ND.
    - destruct (T n H) as [d E]. congruence. }
  assert (FR : forall p, st (set_st n Ended s) p <> Fresh <-> st s p <> Fresh).
  { intros p. cbn [set_st st]. ups; [rewrite R|tauto]. intuition discriminate. }
  exists (fun k => match ch k with y :: r => if Nat.eqb y n then r else ch k | [] => [] end). constructor.
  - intros m k. rewrite FR. apply (i_own _ _ _ C).
  - intros m. rewrite FR. apply (i_root _ _ _ C).
  - intros k m. pose proof (i_in _ _ _ C k m) as I. unfold live. rewrite FR. cbn [set_st slot st]. unfold live in I.
    destruct (in_dec Nat.eq_dec n (ch k)) as [Hn|Hn].
    + destruct (HD k Hn) as (r & E & Nr). rewrite E in *. rewrite Nat.eqb_refl. cbn [In] in I. unfold upd.
      destruct (Nat.eqb_spec m n) as [->|N]; [intuition congruence|]. intuition congruence.
    + assert (X : match ch k with y :: r => if Nat.eqb y n then r else ch k | [] => [] end = ch k).
      { destruct (ch k) as [|y r]; [reflexivity|]. destruct (Nat.eqb_spec y n); [subst; elim Hn; now left|reflexivity]. }
      rewrite X. unfold upd. destruct (Nat.eqb_spec m n) as [->|N]; intuition congruence.
  - intros k. pose proof (i_nd _ _ _ C k) as ND. destruct (ch k) as [|y r]; [constructor|].
    destruct (Nat.eqb y n); [now inversion ND|exact ND].
  - intros k. pose proof (i_lk _ _ _ C k) as L.
    assert (L' : linked (set_st n Ended s) k (ch k)).
    { apply linked_ext with (s := s); [|exact L]. intros p Hp. cbn [set_st st]. apply upd_other. intros ->.
      destruct (linked_tl _ _ _ L n Hp) as [d E]. congruence. }
    destruct (ch k) as [|y r]; [constructor|]. destruct (Nat.eqb y n); [apply L'|exact L'].
  - intros p d W. assert (W' : waits s p d).
    { destruct W as [W|[W|W]]; apply NT in W; destruct W; unfold waits; auto. }
    destruct (i_wait _ _ _ C _ _ W') as [H1 [H2|H2]]; [|discriminate]. split; [exact H1|].
    destruct (Nat.eq_dec d n) as [->|N]; [right; now rewrite H1|left]. unfold live in *. cbn [set_st st]. now rewrite upd_other.
  - intros p d W. apply NT in W. now apply (i_with _ _ _ C).
  - intros p d W. apply NT in W. now apply (i_co _ _ _ C) with (p := p).
  - intros p d H. cbn [set_st aw] in H. apply (i_aw _ _ _ C) in H. unfold waits in *. cbn [set_st st]. ups; [|exact H].
    rewrite R in H. intuition discriminate.
  - intros m g fs W. apply NT in W. destruct W as [W _]. destruct (i_comb _ _ _ C _ _ _ W) as [H1 H2]. split; [exact H1|].
    intros f Hf. rewrite FR. now apply H2.
  - intros m1 m2 g fs gs W1 W2. apply NT in W1. apply NT in W2. eapply (i_comb1 _ _ _ C); [apply W1|apply W2].
Qed.

(** What must hold for [n] to wait for [t]. *)
Definition ready (s : state) n t :=
  match t with
  | TCo d => knd s d = KCo true /\ live s d /\ aw s d = None /\ d <> n
  | TComp d => live s d /\ aw s d = None /\ d <> n
  | TWith _ => False
  | TComb g fs => comb s g = CLive /\ (forall m gs, st s m <> Waiting (TComb g gs)) /\ (forall f, In f fs -> knd s f = KFork /\ st s f <> Fresh)
  | _ => True
  end.
Definition takes n t (s : state) : state :=
  match t with TCo d | TComp d => set_aw d (Some n) s | _ => s end.

Lemma core_await ch s n t : core None ch s -> st s n = Running -> ready s n t ->
  core None ch (set_st n (Waiting t) (takes n t s)).
Proof.
  intros C R RD. set (w := set_st n (Waiting t) (takes n t s)).
  assert (Wk : knd w = knd s) by (unfold w; destruct t; reflexivity).
  assert (Ws : st w = upd (st s) n (Waiting t)) by (unfold w; destruct t; reflexivity).
  assert (Wl : slot w = slot s) by (unfold w; destruct t; reflexivity).
  assert (Wc : comb w = comb s) by (unfold w; destruct t; reflexivity).
  assert (Wa : aw w = match t with TCo d | TComp d => upd (aw s) d (Some n) | _ => aw s end) by (unfold w; destruct t; reflexivity).
  clearbody w.
  assert (NT : forall p u, st w p = Waiting u -> (st s p = Waiting u /\ p <> n) \/ (p = n /\ u = t)).
  { intros p u. rewrite Ws. ups; [intros E; injection E as <-; auto|auto]. }
  assert (NWt : forall d, t <> TWith d) by (intros d ->; exact RD).
  assert (LV : forall p, live w p <-> live s p).
  { intros p. unfold live. rewrite Ws. ups; [rewrite R|tauto]. intuition discriminate. }
  assert (FR : forall p, st w p <> Fresh <-> st s p <> Fresh).
  { intros p. rewrite Ws. ups; [rewrite R|tauto]. intuition discriminate. }
  assert (NW : forall d, ~ waits s n d) by (intros d X; unfold waits in X; rewrite R in X; intuition discriminate).
  constructor.
  - intros m k. rewrite Wl, Wk, FR. apply (i_own _ _ _ C).
  - intros m. rewrite Wl, Wk, FR. apply (i_root _ _ _ C).
  - intros k m. rewrite Wl, LV. apply (i_in _ _ _ C).
  - apply (i_nd _ _ _ C).
  - intros k. pose proof (i_lk _ _ _ C k) as L. apply linked_ext with (s := s); [|exact L]. intros p Hp. rewrite Ws. apply upd_other. intros ->.
    destruct (linked_tl _ _ _ L n Hp) as [d E]. congruence.
  - intros p d W. rewrite LV.
    assert (W' : (waits s p d /\ p <> n) \/ (p = n /\ (t = TCo d \/ t = TComp d))).
    { destruct W as [W|[W|W]]; apply NT in W; destruct W as [[W N]|[W N]]; unfold waits; auto.
      now elim (NWt d). }
    destruct W' as [[W' N]|[-> [-> | ->]]].
    + destruct (i_wait _ _ _ C _ _ W') as [H1 H2]. split; [|exact H2]. rewrite Wa.
      destruct t; try exact H1; cbn [ready] in RD; ups; try exact H1; intuition congruence.
    + rewrite Wa, upd_same. cbn [ready] in RD. tauto.
    + rewrite Wa, upd_same. cbn [ready] in RD. tauto.
  - intros p d W. apply NT in W. destruct W as [[W N]|[-> E]]; [|now elim (NWt d)]. rewrite Wk, Wl. now apply (i_with _ _ _ C).
  - intros p d W. apply NT in W. destruct W as [[W N]|[-> <-]]; rewrite Wk; [now apply (i_co _ _ _ C) with (p := p)|apply RD].
  - intros p d. rewrite Wa. intros H.
    assert (H' : (aw s d = Some p) \/ (p = n /\ (t = TCo d \/ t = TComp d))).
    { destruct t; auto; ups; auto; injection H as <-; auto. }
    destruct H' as [H'|[-> H']].
    + apply (i_aw _ _ _ C) in H'. assert (p <> n) by (intros ->; now apply (NW d)). unfold waits. rewrite Ws, upd_other by assumption. exact H'.
    + unfold waits. rewrite Ws, upd_same. intuition congruence.
  - intros m g fs W. rewrite Wc. apply NT in W. destruct W as [[W N]|[-> <-]].
    + destruct (i_comb _ _ _ C _ _ _ W) as [H1 H2]. split; [exact H1|]. intros f Hf. rewrite Wk, FR. now apply H2.
    + destruct RD as (R1 & _ & R2). split; [exact R1|]. intros f Hf. rewrite Wk, FR. now apply R2.
  - intros m1 m2 g fs gs W1 W2. apply NT in W1. apply NT in W2.
    destruct W1 as [[W1 N1]|[-> E1]], W2 as [[W2 N2]|[-> E2]]; try reflexivity.
    + eapply (i_comb1 _ _ _ C); [apply W1|apply W2].
    + subst t. cbn [ready] in RD. destruct RD as (_ & RD & _). now elim (RD m1 fs).
    + subst t. cbn [ready] in RD. destruct RD as (_ & RD & _). now elim (RD m2 gs).
Qed.

(** [n] waits for a new [with] *)
Lemma core_with ch s n d : core None ch s -> st s n = Running -> st s d = Fresh ->
  exists ch', core None ch' (set_st n (Waiting (TWith d)) (set_aw d (Some n) (start d KWith (slot s n) s))).
Proof.
  intros C R F. destruct (fresh_unused _ _ _ _ C ltac:(discriminate) F) as (U1 & U2 & U3 & U4 & U5).
  assert (Nd : d <> n) by congruence.
  set (w := set_st n (Waiting (TWith d)) (set_aw d (Some n) (start d KWith (slot s n) s))).
  assert (Wk : knd w = upd (knd s) d KWith) by reflexivity.
  assert (Ws : st w = upd (upd (st s) d Running) n (Waiting (TWith d))) by reflexivity.
  assert (Wl : slot w = upd (slot s) d (slot s n)) by reflexivity.
  assert (Wc : comb w = comb s) by reflexivity.
  assert (Wa : forall p, aw w p = upd (aw s) d (Some n) p).
  { intros p. unfold w. cbn [set_st set_aw start aw]. now ups. }
  clearbody w.
  assert (NT : forall p u, st w p = Waiting u -> (st s p = Waiting u /\ p <> n /\ p <> d) \/ (p = n /\ u = TWith d)).
  { intros p u. rewrite Ws. ups; [intros E; injection E as <-; auto|discriminate|auto]. }
  assert (FR : forall p, st w p <> Fresh <-> (st s p <> Fresh \/ p = d)).
  { intros p. rewrite Ws. ups; [rewrite R|rewrite F|tauto]; intuition discriminate. }
  assert (LV : forall p, live w p <-> (live s p \/ p = d)).
  { intros p. unfold live. rewrite Ws. ups; [rewrite R|rewrite F|tauto]; intuition discriminate. }
  assert (Ln : live s n) by (unfold live; rewrite R; split; discriminate).
  exists (fun k => match slot s n with Some j => if Nat.eqb k j then d :: ch k else ch k | None => ch k end). constructor.
  - intros m k. rewrite Wl, Wk, FR. intros H. unfold upd in H. destruct (Nat.eqb_spec m d) as [->|Nm].
    + assert (k <> d) by (intros ->; now apply (U2 n)).
      destruct (i_own _ _ _ C _ _ H) as (H1 & H2 & H3). rewrite upd_same, upd_other by assumption. auto.
    + assert (k <> d) by (intros ->; now apply (U2 m)). rewrite !upd_other by assumption.
      destruct (i_own _ _ _ C _ _ H) as (H1 & H2 & H3). auto.
  - intros m. rewrite Wl, Wk, FR. unfold upd. destruct (Nat.eqb_spec m d) as [->|Nm].
    + intros _ [X|X]; discriminate.
    + intros [X|X]; [|now elim Nm]. now apply (i_root _ _ _ C).
  - intros k m. rewrite Wl, LV. pose proof (i_in _ _ _ C k m) as I. pose proof (U5 k) as U5k. unfold upd.
    destruct (Nat.eqb_spec m d) as [->|Nm].
    + destruct (slot s n) as [j|]; [|intuition discriminate].
      destruct (Nat.eqb_spec k j) as [->|Nj]; [cbn [In]; intuition|]. intuition congruence.
    + destruct (slot s n) as [j|]; [|intuition].
      destruct (Nat.eqb_spec k j) as [->|Nj]; [cbn [In]; intuition congruence|]. intuition.
  - intros k. pose proof (i_nd _ _ _ C k) as ND. destruct (slot s n) as [j|]; [|exact ND]. destruct (Nat.eqb k j); [|exact ND].
    constructor; [apply U5|exact ND].
  - intros k. pose proof (i_lk _ _ _ C k) as L.
    assert (L' : linked w k (ch k)).
    { apply linked_ext with (s := s); [|exact L]. intros p Hp. rewrite Ws.
      destruct (linked_tl _ _ _ L p Hp) as [d' E']. rewrite !upd_other; [reflexivity|congruence|congruence]. }
    destruct (slot s n) as [j|] eqn:Sn; [|exact L']. destruct (Nat.eqb_spec k j) as [->|Nj]; [|exact L'].
    cbn [linked]. split; [|exact L'].
    assert (Hn : In n (ch j)) by (apply (i_in _ _ _ C); now split).
    pose proof (linked_tl _ _ _ L n) as T. destruct (ch j) as [|y r]; [destruct Hn|].
    destruct Hn as [->|Hn]; [rewrite Ws; apply upd_same|]. destruct (T Hn) as [d' E']. congruence.
  - intros p q W. rewrite LV, Wa.
    assert (W' : (waits s p q /\ p <> n /\ p <> d) \/ (p = n /\ q = d)).
    { destruct W as [W|[W|W]]; apply NT in W; destruct W as [[W N]|[W N]]; unfold waits; auto; try discriminate.
      injection N as ->. auto. }
    destruct W' as [[W' N]|[-> ->]].
    + assert (q <> d) by (intros ->; now apply (U4 p)). rewrite upd_other by assumption.
      destruct (i_wait _ _ _ C _ _ W') as [H1 [H2|H2]]; [|discriminate]. auto.
    + rewrite upd_same. auto.
  - intros p q W. rewrite Wk, Wl. apply NT in W. destruct W as [[W N]|[-> E]].
    + assert (q <> d) by (intros ->; apply (U4 p); unfold waits; auto). rewrite !upd_other by tauto. now apply (i_with _ _ _ C).
    + injection E as ->. rewrite !upd_same, upd_other by auto. auto.
  - intros p q W. rewrite Wk. apply NT in W. destruct W as [[W N]|[-> E]]; [|discriminate].
    assert (q <> d) by (intros ->; apply (U4 p); unfold waits; auto). rewrite upd_other by assumption. now apply (i_co _ _ _ C) with (p := p).
  - intros p q. rewrite Wa. unfold upd. destruct (Nat.eqb_spec q d) as [->|Nq].
    + intros H. injection H as <-. right. left. rewrite Ws. apply upd_same.
    + intros H. assert (p <> d) by (intros ->; now apply (U3 q)). apply (i_aw _ _ _ C) in H.
      assert (p <> n) by (intros ->; unfold waits in H; rewrite R in H; intuition discriminate).
      unfold waits in *. rewrite Ws, !upd_other by assumption. exact H.
  - intros m g fs W. rewrite Wc, Wk. apply NT in W. destruct W as [[W N]|[-> E]]; [|discriminate].
    destruct (i_comb _ _ _ C _ _ _ W) as [H1 H2]. split; [exact H1|]. intros f Hf. destruct (H2 f Hf) as [H3 H4].
    rewrite FR, upd_other by congruence. auto.
  - intros m1 m2 g fs gs W1 W2. apply NT in W1. apply NT in W2.
    destruct W1 as [[W1 N1]|[-> E1]], W2 as [[W2 N2]|[-> E2]]; try discriminate. eapply (i_comb1 _ _ _ C); [apply W1|apply W2].
Qed.

(** ** Handlers *)

Lemma hands_start s n K sl : st s n = Fresh -> (forall m, slot s m <> Some n) -> hands s -> hands (start n K sl s).
Proof.
  intros F U [H1 H2 H3 H4]. constructor.
  - intros p t h k. cbn [start st slot hand]. unfold upd. destruct (Nat.eqb_spec p n); [discriminate|]. intros A B D.
    destruct (Nat.eqb_spec k n) as [->|]; [now elim (U p)|]. now apply (H1 p t h k).
  - intros k d. cbn [start st slot hand]. unfold upd at 1. destruct (Nat.eqb_spec k n); [discriminate|]. intros A.
    destruct (H2 k d A) as (m & E1 & E2). exists m. assert (m <> n) by congruence. rewrite !upd_other by assumption. auto.
  - intros f. cbn [start st knd hand]. unfold upd. destruct (Nat.eqb_spec f n); [discriminate|]. apply H3.
  - intros k g fs f. cbn [start st knd hand]. unfold upd at 1. destruct (Nat.eqb_spec k n); [discriminate|]. intros A B.
    destruct (H4 k g fs f A B). rewrite !upd_other by congruence. auto.
Qed.

Lemma hands_await x ch s s' n t : core x ch s' -> hands s -> st s n = Running ->
  st s' = upd (st s) n (Waiting t) -> slot s' = slot s -> knd s' = knd s -> hand s' = hand s ->
  hands (match puts t with Some h => put n (Some h) s' | None => s' end).
Proof.
  intros C [H1 H2 H3 H4] R Es El Ek Eh.
  assert (Ln : live s' n). { unfold live. rewrite Es, upd_same. split; discriminate. }
  assert (HF : forall k g fs f, hand s k = Some (HComb g fs) -> In f fs -> knd s' f = KFork /\ st s' f <> Fresh).
  { intros k g fs f A B. destruct (H4 k g fs f A B) as [X Y]. rewrite Ek, Es. split; [exact X|]. unfold upd. destruct (Nat.eqb f n); [discriminate|exact Y]. }
  destruct (puts t) as [h|] eqn:P.
  - assert (Nt : forall d, t <> TWith d) by (intros d ->; discriminate). constructor.
    + intros p u h' k. rewrite put_st, put_slot, put_hand. intros A B D.
      destruct (slot s' n) as [j|] eqn:Sn.
      * destruct (Nat.eqb_spec k j) as [->|N].
        -- assert (p = n).
           { apply (alone _ _ _ _ _ _ C D Sn); [unfold live; rewrite A; split; discriminate|exact Ln| |].
             - intros d. rewrite A. intros E; injection E as ->; discriminate.
             - intros d. rewrite Es, upd_same. intros E; injection E as E. now elim (Nt d). }
           subst p. rewrite Es, upd_same in A. injection A as ->. congruence.
        -- rewrite Eh. assert (p <> n) by congruence. rewrite Es, upd_other in A by assumption. rewrite El in D. now apply (H1 p u h' k).
      * rewrite Eh. assert (p <> n) by congruence. rewrite Es, upd_other in A by assumption. rewrite El in D. now apply (H1 p u h' k).
    + intros k d. rewrite put_st, put_slot, put_hand. intros A.
      assert (O : hand s k = Some (HFwd d) -> exists m, st s' m = Waiting (TCo d) /\ slot s' m = Some k).
      { intros X. destruct (H2 k d X) as (m & E1 & E2). exists m. rewrite Es, El. rewrite upd_other by congruence. auto. }
      rewrite Eh in A. destruct (slot s' n) as [j|] eqn:Sn; [|now apply O].
      destruct (Nat.eqb_spec k j) as [->|N]; [|now apply O].
      injection A as ->. exists n. rewrite Es, upd_same. split; [|exact Sn]. destruct t; try discriminate. now injection P as ->.
    + intros f. rewrite put_knd, put_st, put_hand. intros A B. rewrite Eh.
      assert (B' : st s f = Ended) by (rewrite Es in B; unfold upd in B; destruct (Nat.eqb f n); [discriminate|exact B]).
      rewrite Ek in A. destruct (slot s' n) as [j|] eqn:Sn; [|now apply H3].
      destruct (Nat.eqb_spec f j) as [->|N]; [|now apply H3].
      destruct (owner_live _ _ _ _ _ C Sn Ln) as [_ X]. now elim X.
    + intros k g fs f. rewrite put_hand, put_knd, put_st. intros A B.
      destruct (slot s' n) as [j|] eqn:Sn; [|rewrite Eh in A; apply (HF k g fs f); assumption].
      destruct (Nat.eqb_spec k j) as [->|N]; [|rewrite Eh in A; apply (HF k g fs f); assumption].
      injection A as ->. assert (t = TComb g fs) as -> by (destruct t; cbn [puts] in P; congruence).
      apply (i_comb _ _ _ C n g fs); [rewrite Es; apply upd_same|exact B].
  - constructor.
    + intros p u h' k A B D. rewrite Eh. assert (p <> n) by (intros ->; rewrite Es, upd_same in A; congruence).
      rewrite Es, upd_other in A by assumption. rewrite El in D. now apply (H1 p u h' k).
    + intros k d A. rewrite Eh in A. destruct (H2 k d A) as (m & E1 & E2). exists m. rewrite Es, El. rewrite upd_other by congruence. auto.
    + intros f A B. rewrite Eh. rewrite Ek in A. rewrite Es in B. unfold upd in B. destruct (Nat.eqb f n); [discriminate|now apply H3].
    + intros k g fs f A B. rewrite Eh in A. now apply (HF k g fs f).
Qed.

Lemma hands_resume x ch s m : core x ch s -> hands s -> hands (resume m s).
Proof.
  intros C H. unfold resume. destruct (st s m) as [| |t|] eqn:E; try exact H.
  assert (G : hands (if clears t then put m None (set_st m Running s) else set_st m Running s)).
  { destruct H as [H1 H2 H3 H4].
    assert (Lm : live s m) by (unfold live; rewrite E; split; discriminate).
    destruct (clears t) eqn:Cl; constructor.
    - intros p u h k. rewrite put_st, put_slot, put_hand. cbn [set_st st slot hand]. unfold upd. intros A B D.
      destruct (Nat.eqb_spec p m) as [|N]; [discriminate|].
      destruct (slot s m) as [j|] eqn:Sm; [|now apply (H1 p u h k)].
      destruct (Nat.eqb_spec k j) as [->|Nj]; [|now apply (H1 p u h k)]. elim N.
      apply (alone _ _ _ _ _ _ C D Sm); [unfold live; rewrite A; split; discriminate|exact Lm| |].
      + intros d. rewrite A. intros X; injection X as ->; discriminate.
      + intros d. rewrite E. intros X; injection X as ->; discriminate.
    - intros k d. rewrite put_st, put_slot, put_hand. cbn [set_st st slot hand]. intros A.
      assert (A' : hand s k = Some (HFwd d)).
      { destruct (slot s m) as [j|]; [|exact A]. destruct (Nat.eqb k j); [discriminate|exact A]. }
      destruct (H2 k d A') as (q & E1 & E2). exists q. split; [|exact E2]. rewrite upd_other; [exact E1|].
      intros ->. rewrite E2, Nat.eqb_refl in A. discriminate.
    - intros f. rewrite put_knd, put_st, put_hand. cbn [set_st st knd slot hand]. intros A B.
      assert (Z : hand s f = None). { apply H3; [exact A|]. unfold upd in B. destruct (Nat.eqb f m); [discriminate|exact B]. }
      destruct (slot s m) as [j|]; [|exact Z]. destruct (Nat.eqb f j); [reflexivity|exact Z].
    - intros k g fs f. rewrite put_hand, put_knd, put_st. cbn [set_st st knd slot hand]. intros A B.
      assert (A' : hand s k = Some (HComb g fs)).
      { destruct (slot s m) as [j|]; [|exact A]. destruct (Nat.eqb k j); [discriminate|exact A]. }
      destruct (H4 k g fs f A' B). split; [assumption|]. unfold upd. destruct (Nat.eqb f m); [discriminate|assumption].
    - intros p u h k. cbn [set_st st slot hand]. unfold upd. destruct (Nat.eqb_spec p m); [discriminate|]. apply H1.
    - intros k d. cbn [set_st st slot hand]. intros A. destruct (H2 k d A) as (q & E1 & E2). exists q. split; [|exact E2].
      rewrite upd_other; [exact E1|]. intros ->. rewrite E in E1. injection E1 as ->. discriminate.
    - intros f. cbn [set_st st knd hand]. intros A B. apply H3; [exact A|]. unfold upd in B. destruct (Nat.eqb f m); [discriminate|exact B].
    - intros k g fs f A B. destruct (H4 k g fs f A B). split; [assumption|]. cbn [set_st st]. unfold upd. destruct (Nat.eqb f m); [discriminate|assumption]. }
  destruct t; try exact G; destruct G as [G1 G2 G3 G4]; constructor; assumption.
Qed.

Lemma hands_end ch s n : core None ch s -> hands s -> st s n = Running ->
  hands (match knd s n with KFork => put n None (set_st n Ended s) | _ => set_st n Ended s end).
Proof.
  intros C [H1 H2 H3 H4] R.
  assert (G : knd s n <> KFork -> hands (set_st n Ended s)).
  { intros K. constructor.
    - intros p u h k. cbn [set_st st slot hand]. unfold upd. destruct (Nat.eqb_spec p n); [discriminate|]. apply H1.
    - intros k d. cbn [set_st st slot hand]. intros A. destruct (H2 k d A) as (q & E1 & E2). exists q. split; [|exact E2].
      rewrite upd_other; [exact E1|]. congruence.
    - intros f. cbn [set_st st knd hand]. intros A B. apply H3; [exact A|]. unfold upd in B. destruct (Nat.eqb_spec f n); [congruence|exact B].
    - intros k g fs f A B. destruct (H4 k g fs f A B). split; [assumption|]. cbn [set_st st]. unfold upd. destruct (Nat.eqb f n); [discriminate|assumption]. }
  destruct (knd s n) eqn:K; try (apply G; discriminate). clear G.
  assert (Sn : slot s n = Some n). { apply (i_root _ _ _ C); [rewrite R; discriminate|right; exact K]. }
  assert (Ln : live s n) by (unfold live; rewrite R; split; discriminate).
  constructor.
  - intros p u h k. rewrite put_st, put_slot, put_hand. cbn [set_st st slot hand]. rewrite Sn. unfold upd. intros A B D.
    destruct (Nat.eqb_spec p n) as [|N]; [discriminate|].
    destruct (Nat.eqb_spec k n) as [->|Nj]; [|now apply (H1 p u h k)]. elim N.
    apply (alone _ _ _ _ _ _ C D Sn); [unfold live; rewrite A; split; discriminate|exact Ln| |].
    + intros d. rewrite A. intros X; injection X as ->; discriminate.
    + intros d. rewrite R. discriminate.
  - intros k d. rewrite put_st, put_slot, put_hand. cbn [set_st st slot hand]. rewrite Sn. destruct (Nat.eqb_spec k n); [discriminate|]. intros A.
    destruct (H2 k d A) as (q & E1 & E2). exists q. split; [|exact E2]. rewrite upd_other; [exact E1|congruence].
  - intros f. rewrite put_knd, put_st, put_hand. cbn [set_st st knd slot hand]. rewrite Sn. unfold upd.
    destruct (Nat.eqb_spec f n); [reflexivity|]. apply H3.
  - intros k g fs f. rewrite put_hand, put_knd, put_st. cbn [set_st st knd slot hand]. rewrite Sn. intros A B.
    destruct (Nat.eqb_spec k n); [discriminate|]. destruct (H4 k g fs f A B). split; [assumption|]. unfold upd. destruct (Nat.eqb f n); [discriminate|assumption].
Qed.

(** ** Steps *)

Lemma is_fresh_iff s n : is_fresh s n = true <-> st s n = Fresh.
Proof. unfold is_fresh. destruct (st s n); intuition discriminate. Qed.

Lemma hands_ext s s' : knd s' = knd s -> st s' = st s -> slot s' = slot s -> hand s' = hand s -> hands s -> hands s'.
Proof. intros E1 E2 E3 E4 [H1 H2 H3 H4]. constructor; rewrite ?E1, ?E2, ?E3, ?E4; assumption. Qed.

Lemma hands_clear x ch s n : core x ch s -> hands s -> st s n = Running -> hands (put n None s).
Proof.
  intros C [H1 H2 H3 H4] R. constructor.
  - intros p u h k. rewrite put_st, put_slot, put_hand. intros A B D. destruct (slot s n) as [j|] eqn:Sn; [|now apply (H1 p u h k)].
    destruct (Nat.eqb_spec k j) as [->|N]; [|now apply (H1 p u h k)].
    assert (p = n); [|congruence].
    apply (alone _ _ _ _ _ _ C D Sn); [unfold live; rewrite A; split; discriminate|unfold live; rewrite R; split; discriminate| |].
    + intros d. rewrite A. intros X; injection X as ->; discriminate.
    + intros d. rewrite R. discriminate.
  - intros k d. rewrite put_st, put_slot, put_hand. intros A. apply H2. destruct (slot s n) as [j|]; [|exact A].
    destruct (Nat.eqb k j); [discriminate|exact A].
  - intros f. rewrite put_knd, put_st, put_hand. intros A B. destruct (slot s n) as [j|]; [|now apply H3].
    destruct (Nat.eqb f j); [reflexivity|now apply H3].
  - intros k g fs f. rewrite put_hand, put_knd, put_st. intros A. apply (H4 k g). destruct (slot s n) as [j|]; [|exact A].
    destruct (Nat.eqb k j); [discriminate|exact A].
Qed.

Lemma inv_start s n K sl : inv s -> st s n = Fresh -> K <> KWith ->
  (isroot K -> sl = Some n) -> (sl = Some n \/ sl = None) -> inv (start n K sl s).
Proof.
  intros [[ch C] H] F NW R SL. destruct (fresh_unused _ _ _ _ C ltac:(discriminate) F) as (U1 & U2 & U3 & U4 & U5).
  split; [now apply core_start with (ch := ch)|now apply hands_start].
Qed.

Lemma start_all_inv fs : forall s s', start_all fs s = Some s' -> inv s ->
  inv s' /\ comb s' = comb s /\
  (forall m, st s m <> Fresh -> st s' m = st s m /\ knd s' m = knd s m) /\
  (forall f, In f fs -> knd s' f = KFork /\ st s' f <> Fresh) /\
  (forall m t, st s' m = Waiting t -> st s m = Waiting t).
Proof.
  induction fs as [|f r IH]; intros s s'; cbn [start_all].
  - intros E; injection E as <-. intros I. split; [exact I|]. split; [reflexivity|]. split; [auto|]. split; [intros f []|auto].
  - destruct (is_fresh s f) eqn:Ff; [|discriminate]. apply is_fresh_iff in Ff. intros E I.
    destruct (IH _ _ E) as (I1 & I2 & I3 & I4 & I5).
    { apply inv_start; auto; discriminate. }
    split; [exact I1|]. split; [exact I2|]. split; [|split].
    + intros m Hm. assert (m <> f) by congruence. destruct (I3 m) as [A B].
      * cbn [start st]. now rewrite upd_other.
      * rewrite A, B. cbn [start st knd]. now rewrite !upd_other.
    + intros g [->|Hg]; [|now apply I4]. destruct (I3 g) as [A B].
      * cbn [start st]. rewrite upd_same. discriminate.
      * rewrite A, B. cbn [start st knd]. rewrite !upd_same. split; [reflexivity|discriminate].
    + intros m t W. apply I5 in W. cbn [start st] in W. unfold upd in W. destruct (Nat.eqb m f); [discriminate|exact W].
Qed.

Lemma inv_await s n t : inv s -> st s n = Running -> ready s n t ->
  inv (match puts t with Some h => put n (Some h) (set_st n (Waiting t) (takes n t s)) | None => set_st n (Waiting t) (takes n t s) end).
Proof.
  intros [[ch C] H] R RD. pose proof (core_await _ _ _ _ C R RD) as C'. split.
  - exists ch. destruct (puts t); [now apply core_put|exact C'].
  - eapply hands_await; [exact C'|exact H|exact R|now destruct t..].
Qed.

Lemma step_inv s l s' : inv s -> step s l = Some s' -> inv s'.
Proof.
  intros I. destruct l as [n c|n t|n|n|n f]; cbn [step].
  - destruct (is_fresh s n) eqn:F; [|discriminate]. intros E; injection E as <-. apply is_fresh_iff in F.
    apply inv_start; auto; try discriminate; destruct c; auto. intros [X|X]; discriminate.
  - destruct (st s n) eqn:R; try discriminate. destruct t as [d|d|d|g fs|o|o|].
    + destruct (knd s d) as [[]| | |] eqn:K; try discriminate.
      assert (G : live s d -> aw s d = None -> (if Nat.eqb d n then None else
        Some (match puts (TCo d) with Some h => put n (Some h) (set_st n (Waiting (TCo d)) (set_aw d (Some n) s)) | None => set_st n (Waiting (TCo d)) (set_aw d (Some n) s) end)) = Some s' -> inv s').
      { intros L A. destruct (Nat.eqb_spec d n); [discriminate|]. intros E; injection E as <-.
        apply (inv_await s n (TCo d) I R). repeat split; auto; apply L. }
      destruct (st s d) eqn:Sd; try discriminate; destruct (aw s d) eqn:A; try discriminate; apply G; auto; unfold live; rewrite Sd; split; discriminate.
    + destruct (is_fresh s d) eqn:F; [|discriminate]. apply is_fresh_iff in F. intros E; injection E as <-.
      destruct I as [[ch C] H]. split; [now apply core_with with (ch := ch)|].
      destruct (core_with _ _ _ _ C R F) as [ch' C']. destruct (fresh_unused _ _ _ _ C ltac:(discriminate) F) as (U1 & U2 & _).
      assert (d <> n) by congruence.
      apply (hands_await _ _ (start d KWith (slot s n) s) _ n (TWith d) C'); try reflexivity.
      * now apply hands_start.
      * cbn [start st]. rewrite upd_other; [exact R|auto].
    + destruct (is_fresh s d) eqn:F; [|discriminate]. apply is_fresh_iff in F. intros E; injection E as <-.
      assert (d <> n) by congruence.
      apply (inv_await (start d KComp None s) n (TComp d)).
      * apply inv_start; auto; try discriminate. intros [X|X]; discriminate.
      * cbn [start st]. rewrite upd_other; [exact R|auto].
      * unfold ready, live. cbn [start st aw]. rewrite !upd_same. repeat split; auto; discriminate.
    + destruct (comb s g) eqn:G; try discriminate. destruct (start_all fs s) as [s1|] eqn:SA; [|discriminate].
      intros E; injection E as <-. destruct (start_all_inv _ _ _ SA I) as (I1 & I2 & I3 & I4 & I5).
      assert (NG : forall m gs, st s m <> Waiting (TComb g gs)).
      { intros m gs W. destruct I as [[ch C] _]. destruct (i_comb _ _ _ C _ _ _ W). congruence. }
      apply (inv_await (set_comb g CLive s1) n (TComb g fs)).
      * destruct I1 as [[ch C1] H1]. split; [exists ch|now apply (hands_ext s1)].
        destruct C1 as [A1 A2 A3 A4 A5 A6 A7 A8 A9 A10 A11]. constructor; try assumption.
        -- intros k. apply linked_ext with (s := s1); [reflexivity|apply A5].
        -- intros m g' fs' W. destruct (A10 m g' fs' W) as [B1 B2]. split; [|exact B2]. cbn [set_comb comb]. unfold upd.
           destruct (Nat.eqb g' g); [reflexivity|exact B1].
      * cbn [set_comb st]. destruct (I3 n) as [X _]; [rewrite R; discriminate|]. now rewrite X.
      * cbn [ready set_comb comb st knd]. rewrite upd_same. repeat split; try reflexivity; try (apply I4; assumption).
        intros m gs W. apply I5 in W. now elim (NG m gs).
    + intros E; injection E as <-. now apply (inv_await s n (TOp o) I R).
    + intros E; injection E as <-. now apply (inv_await s n (TChan o) I R).
    + intros E; injection E as <-. now apply (inv_await s n TNone I R).
  - destruct I as [[ch C] H].
    assert (G : (forall d, st s n <> Waiting (TWith d)) -> Some (resume n s) = Some s' -> inv s').
    { intros N E; injection E as <-. split; [exists ch|now apply hands_resume with (x := None) (ch := ch)].
      apply core_resume with (x := None); [exact C| |discriminate]. intros d W. now elim (N d). }
    destruct (st s n) as [| |t|] eqn:W; try discriminate. destruct t; try discriminate; try (apply G; discriminate).
    destruct (forallb _ _); [apply G|]; discriminate.
  - destruct (st s n) eqn:R; try discriminate. intros E; injection E as <-. destruct I as [[ch C] H].
    destruct (core_end _ _ _ C R) as [ch' C']. pose proof (hands_end _ _ _ C H R) as H'.
    set (w := match knd s n with KFork => put n None (set_st n Ended s) | _ => set_st n Ended s end) in *.
    assert (Cw : core (match aw s n with Some _ => Some n | None => None end) ch' w).
    { unfold w. destruct (knd s n); try exact C'. now apply core_put. }
    assert (Aw : aw w = aw s) by (unfold w; destruct (knd s n); try reflexivity; now rewrite put_aw).
    assert (Sw : st w n = Ended). { unfold w; destruct (knd s n); rewrite ?put_st; cbn [set_st st]; apply upd_same. }
    clearbody w. destruct (aw s n) as [m|] eqn:A.
    + split; [exists ch'|now apply hands_resume with (x := Some n) (ch := ch')].
      assert (Wm : waits w m n). { apply (i_aw _ _ _ Cw). now rewrite Aw. }
      apply core_resume with (x := Some n); [exact Cw| |].
      * intros d W [_ L]. unfold waits in Wm. rewrite W in Wm. assert (d = n) by (destruct Wm as [X|[X|X]]; congruence). congruence.
      * intros n' E; injection E as <-. exact Wm.
    + split; [now exists ch'|exact H'].
  - destruct (st s n) eqn:R; try discriminate. destruct (knd s n) eqn:K; try discriminate. intros E; injection E as <-.
    destruct I as [[ch C] H].
    set (w := mk (knd s) (st s) (upd (filt s) n f) (slot s) (hand s) (aw s) (comb s)).
    assert (Cw : core None ch w) by (apply (core_ext None ch s w); auto).
    split; [exists ch; now apply core_put|]. apply hands_clear with (x := None) (ch := ch); [exact Cw| |exact R].
    now apply (hands_ext s).
Qed.

Lemma run_inv ls : forall s s', inv s -> run s ls = Some s' -> inv s'.
Proof.
  induction ls as [|l r IH]; intros s s' I; cbn [run]; [intros E; now injection E as <-|].
  destruct (step s l) as [s1|] eqn:E; [|discriminate]. apply IH. now apply step_inv with (s := s) (l := l).
Qed.

Lemma reach_inv ls s : run init ls = Some s -> inv s.
Proof. apply run_inv, init_inv. Qed.
