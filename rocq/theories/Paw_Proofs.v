(** * Invariant of polite histories *)
From Coq Require Import List Bool Arith Lia.
From Verif Require Import Paw_Model Paw_Spec.
Import ListNotations.

Lemma upd_same {A} (f : nat -> A) k v : upd f k v k = v.
Proof. unfold upd. now rewrite Nat.eqb_refl. Qed.
Lemma upd_other {A} (f : nat -> A) k v n : n <> k -> upd f k v n = f n.
Proof. intros H. unfold upd. destruct (Nat.eqb_spec n k); congruence. Qed.

Lemma nth_set_nth i x l j : nth_error (set_nth i x l) j =
  if Nat.eqb j i then option_map (fun h => mkh (hp h) (hi h) x) (nth_error l i) else nth_error l j.
Proof.
  revert i j. induction l as [|h r IH]; intros i j.
  - cbn. destruct i, j; cbn; try reflexivity. now destruct (Nat.eqb j i).
  - destruct i, j; cbn; try reflexivity. apply IH.
Qed.

Lemma in_set_nth i x l h : In h (set_nth i x l) ->
  In h l \/ exists h0, nth_error l i = Some h0 /\ h = mkh (hp h0) (hi h0) x.
Proof.
  intros H. apply In_nth_error in H. destruct H as [j H]. rewrite nth_set_nth in H.
  destruct (Nat.eqb_spec j i) as [J|N].
  - destruct (nth_error l i) as [h0|]; [|discriminate]. injection H as <-. right. eauto.
  - left. now apply nth_error_In in H.
Qed.

Definition okh (s : state) k h := hs h = HWait \/ right s k h.

(** [inv0]: without the claim that a waiting coroutine has something to wait for *)
Record inv0 (s : state) : Prop := Inv0
  { v_awr : forall p c i, awr s p = Some (c, i) -> exists k g l h,
      co s c = Busy k g l /\ nth_error l i = Some h /\ hp h = p /\ hs h = HWait /\ (In p (group s) -> g = true);
    v_wait : forall c k g l i h, co s c = Busy k g l -> nth_error l i = Some h -> hs h = HWait ->
      awr s (hp h) = Some (c, i) /\ done s (hp h) = None /\ dead s (hp h) = false;
    v_busy : forall c k g l, co s c = Busy k g l -> forall h, In h l ->
      okh s k h /\ (k = KRace -> hs h = HWait) /\ (k = KRace -> g = true -> nth_error (group s) (hi h) = Some (hp h));
    v_gone : forall c, co s c <> Gone;
    v_kind : forall c k g l, co s c = Busy k g l -> g = true -> k <> KDirect;
    v_one : forall c c' k k' l l', co s c = Busy k true l -> co s c' = Busy k' true l' -> c = c';
    v_grp : NoDup (group s) /\ forall p, In p (group s) -> dead s p = false }.

Definition some (s : state) := forall c k g l, co s c = Busy k g l -> existsb is_wait l = true.
Definition inv (s : state) := inv0 s /\ some s.

Lemma init_inv : inv init.
Proof.
  split; [|intros c k g l; discriminate]. constructor; cbn; try discriminate; try congruence. split; [constructor|intros p []].
Qed.

Lemma inv0_ext s s' : (forall p, done s' p = done s p) -> (forall p, awr s' p = awr s p) -> (forall p, dead s' p = dead s p) ->
  group s' = group s -> (forall c, co s' c = co s c) -> inv0 s -> inv0 s'.
Proof.
  intros E1 E2 E3 E4 E5 [A1 A2 A3 A4 A5 A6 A7]. constructor.
  - intros p c i. rewrite E2, E5, E4. apply A1.
  - intros c k g l i h. rewrite E5, E2, E1, E3. apply A2.
  - intros c k g l. rewrite E5, E4. intros H h I. destruct (A3 c k g l H h I) as (O & B). split; [|exact B].
    unfold okh, right in *. now rewrite E1.
  - intros c. rewrite E5. apply A4.
  - intros c k g l. rewrite E5. apply A5.
  - intros c c' k k' l l'. rewrite !E5. apply A6.
  - rewrite E4. split; [apply A7|]. intros p. rewrite E3. apply A7.
Qed.

Lemma done_awr s p b : inv0 s -> done s p = Some b -> awr s p = None.
Proof.
  intros I D. destruct (awr s p) as [[c i]|] eqn:A; [|reflexivity].
  destruct (v_awr _ I _ _ _ A) as (k & g & l & h & E1 & E2 & E3 & E4 & _).
  destruct (v_wait _ I _ _ _ _ _ _ E1 E2 E4) as (_ & X & _). congruence.
Qed.

Lemma right_mono s s' k h : (forall p b, done s p = Some b -> done s' p = Some b) -> right s k h -> right s' k h.
Proof. intros M. unfold right. destruct (hs h) as [|[]|]; auto. Qed.
Lemma proper_mono s s' e : (forall p b, done s p = Some b -> done s' p = Some b) -> proper s e -> proper s' e.
Proof. intros M. destruct e; cbn; auto. intros H h I. apply right_mono with (s := s); auto. Qed.
Lemma right_done s s' k h : done s' = done s -> right s k h -> right s' k h.
Proof. intros E. apply right_mono. now rewrite E. Qed.

(** ** Destroying promises that nobody awaits *)

Lemma destroy_none p s : awr s p = None -> destroy p s = (set_dead p (set_awr p None s), []).
Proof. intros A. unfold destroy. now rewrite A. Qed.

Lemma inv0_destroy s p : inv0 s -> awr s p = None -> ~ In p (group s) -> inv0 (set_dead p (set_awr p None s)).
Proof.
  intros [A1 A2 A3 A4 A5 A6 A7] N G. constructor; cbn [set_dead set_awr done awr dead group co]; try assumption.
  - intros q c i. unfold upd. destruct (Nat.eqb_spec q p); [discriminate|]. apply A1.
  - intros c k g l i h E1 E2 E3. destruct (A2 _ _ _ _ _ _ E1 E2 E3) as (B1 & B2 & B3).
    assert (hp h <> p) by congruence. rewrite !upd_other by assumption. auto.
  - split; [apply A7|]. intros q I. rewrite upd_other by (intros ->; contradiction). now apply A7.
Qed.

Lemma inv0_group s l : inv0 s -> (forall c k t, co s c <> Busy k true t) -> NoDup l -> incl l (group s) -> inv0 (set_group l s).
Proof.
  intros [A1 A2 A3 A4 A5 A6 A7] N D I. constructor; cbn [set_group done awr dead group co]; try assumption.
  - intros p c i E. destruct (A1 p c i E) as (k & g & t & h & B1 & B2 & B3 & B4 & B5). exists k, g, t, h. repeat split; auto.
  - intros c k g t E h Ih. destruct (A3 c k g t E h Ih) as (B1 & B2 & B3). repeat split; auto.
    intros -> ->. now elim (N c KRace t).
  - split; [exact D|]. intros p Ip. apply A7. now apply I.
Qed.

Lemma destroy_all_inv ps : forall s, inv0 s -> (forall p, In p ps -> awr s p = None) -> (forall p, In p ps -> ~ In p (group s)) ->
  exists s', destroy_all ps s = (s', []) /\ inv0 s' /\ done s' = done s /\ co s' = co s.
Proof.
  induction ps as [|p r IH]; intros s I A G; cbn [destroy_all]; [exists s; auto|].
  rewrite destroy_none by (apply A; now left).
  destruct (IH (set_dead p (set_awr p None s))) as (s' & E1 & E2 & E3 & E4).
  - apply inv0_destroy; [exact I|apply A; now left|apply G; now left].
  - intros q Hq. cbn [set_dead set_awr awr]. unfold upd. destruct (Nat.eqb q p); [reflexivity|]. apply A. now right.
  - intros q Hq. apply G. now right.
  - rewrite E1. exists s'. auto.
Qed.

Lemma nodup_erase (l : list nat) i p : NoDup l -> nth_error l i = Some p ->
  NoDup (firstn i l ++ skipn (S i) l) /\ ~ In p (firstn i l ++ skipn (S i) l) /\ incl (firstn i l ++ skipn (S i) l) l.
Proof.
  intros ND E. assert (S1 : l = firstn i l ++ p :: skipn (S i) l).
  { clear ND. revert i E. induction l as [|x r IH]; intros [|i] E; try discriminate; cbn in *.
    - now injection E as ->.
    - now rewrite <- IH. }
  rewrite S1 in ND. split; [now apply NoDup_remove_1 in ND|]. split; [now apply NoDup_remove_2 in ND|].
  intros x Hx. rewrite S1. apply in_or_app. apply in_app_or in Hx. destruct Hx; [now left|right; now right].
Qed.

(** ** The end of an await *)

Lemma existsb_false {A} (f : A -> bool) l : (forall x, In x l -> f x = false) -> existsb f l = false.
Proof.
  induction l as [|x r IH]; [reflexivity|]. intros H. cbn. rewrite H by now left. apply IH. intros y Hy. apply H. now right.
Qed.

Lemma right_not_lost s k h : right s k h -> is_lost h = false.
Proof. unfold right, is_lost. destruct (hs h); auto; contradiction. Qed.

Lemma finish_inv c k g l s s' es :
  inv0 (set_co c Idle s) -> (forall h, In h l -> right s k h) ->
  (g = true -> forall c' k' t, co (set_co c Idle s) c' <> Busy k' true t) ->
  (k = KRace -> g = true -> forall h, In h l -> nth_error (group s) (hi h) = Some (hp h)) ->
  finish c k g l s = (s', es) ->
  inv0 s' /\ (forall e, In e es -> proper s' e) /\ done s' = done s /\ co s' = upd (co s) c Idle.
Proof.
  intros I R N X F. unfold finish in F.
  assert (P : forall t, done t = done s -> proper t (EGot c k l)).
  { intros t E h Hh. apply right_done with (s := s); auto. }
  assert (NA : g = true -> forall p, In p (group s) -> awr s p = None).
  { intros -> p Hp. destruct (awr s p) as [[c' i]|] eqn:A; [|reflexivity].
    destruct (v_awr _ I p c' i A) as (k' & g' & l' & h & E1 & _ & _ & _ & E5).
    rewrite (E5 Hp) in E1. now elim (N eq_refl c' k' l'). }
  assert (B : inv0 (set_co c Idle s) /\ (forall e, In e [EGot c k l] -> proper (set_co c Idle s) e) /\ done (set_co c Idle s) = done s /\ co (set_co c Idle s) = upd (co s) c Idle).
  { split; [exact I|]. split; [|split; reflexivity]. intros e [<-|[]]. now apply P. }
  destruct k.
  - injection F as <- <-. exact B.
  - assert (L : existsb is_lost l = false) by (apply existsb_false; intros h Hh; apply right_not_lost with (s := s) (k := KGather); auto).
    rewrite L in F. destruct g; [|injection F as <- <-; exact B].
    destruct (destroy_all_inv (group s) (set_group [] (set_co c Idle s))) as (s2 & E1 & E2 & E3 & E4).
    + apply inv0_group; [exact I|now apply N|constructor|intros x []].
    + intros p Hp. cbn [set_group set_co awr]. now apply NA.
    + intros p Hp. cbn [set_group group]. tauto.
    + rewrite E1 in F. injection F as <- <-. split; [exact E2|]. split; [|split; assumption].
      intros e [<-|[]]. now apply P.
  - destruct g; [|injection F as <- <-; exact B].
    destruct (group s) as [|p0 gr] eqn:G; [injection F as <- <-; exact B|].
    destruct (winner l) as [h|] eqn:W; [|injection F as <- <-; exact B].
    assert (Ih : In h l) by (unfold winner in W; now apply find_some in W).
    pose proof (X eq_refl eq_refl h Ih) as Nth. rewrite <- G in *.
    pose proof (R h Ih) as Rh. unfold right in Rh.
    destruct (hs h) as [|[]|] eqn:Hh; try contradiction; try (injection F as <- <-; exact B).
    rewrite Nth in F.
    destruct (nodup_erase (group s) (hi h) (hp h)) as (Q1 & Q2 & Q3); [apply (v_grp _ I)|exact Nth|].
    remember (firstn (hi h) (group s) ++ skipn (S (hi h)) (group s)) as gr'.
    rewrite destroy_none in F by (cbn [set_group set_co awr]; apply NA; [reflexivity|now apply nth_error_In in Nth]).
    injection F as <- <-. split; [|split; [|split; reflexivity]].
    + apply inv0_destroy; [|cbn [set_group set_co awr]; apply NA; [reflexivity|now apply nth_error_In in Nth]|exact Q2].
      apply inv0_group; [exact I|now apply N|exact Q1|exact Q3].
    + intros e [<-|[]]. now apply P.
Qed.

(** ** Forgetting awaiters *)

Lemma awr_forget l s q : awr (forget l s) q = if existsb (fun h => is_wait h && Nat.eqb q (hp h)) l then None else awr s q.
Proof.
  induction l as [|h r IH]; [reflexivity|]. cbn [forget fold_right existsb].
  change (fold_right (fun h s => if is_wait h then set_awr (hp h) None s else s) s r) with (forget r s).
  destruct (is_wait h); cbn [andb orb]; [|exact IH]. cbn [set_awr awr]. unfold upd. destruct (Nat.eqb q (hp h)); [reflexivity|exact IH].
Qed.
Lemma forget_same l s : done (forget l s) = done s /\ dead (forget l s) = dead s /\ group (forget l s) = group s /\ co (forget l s) = co s.
Proof.
  induction l as [|h r IH]; [auto|]. cbn [forget fold_right].
  change (fold_right (fun h s => if is_wait h then set_awr (hp h) None s else s) s r) with (forget r s).
  destruct (is_wait h); exact IH.
Qed.

(** [c] stops waiting: its promises have no awaiter any more. *)
Lemma inv0_idle s s' c k g l : inv0 s -> co s c = Busy k g l ->
  (forall p b, done s p = Some b -> done s' p = Some b) ->
  (forall p, done s p = None -> done s' p <> None -> exists h, In h l /\ hp h = p /\ hs h = HWait) ->
  (forall p, awr s' p = match awr s p with Some (c', i) => if Nat.eqb c' c then None else Some (c', i) | None => None end) ->
  (forall p, dead s' p = dead s p) -> group s' = group s -> (forall c', c' <> c -> co s' c' = co s c') -> co s' c = Idle -> inv0 s'.
Proof.
  intros I B M D A De G C Cc. pose proof I as [A1 A2 A3 A4 A5 A6 A7].
  assert (NB : forall c' k' g' l', co s' c' = Busy k' g' l' -> c' <> c /\ co s c' = Busy k' g' l').
  { intros c' k' g' l' E. assert (c' <> c) by (intros ->; congruence). split; [assumption|]. now rewrite <- C. }
  constructor.
  - intros p c' i E. rewrite A in E. destruct (awr s p) as [[c2 i2]|] eqn:Ap; [|discriminate].
    destruct (Nat.eqb_spec c2 c); [discriminate|]. injection E as <- <-. rewrite C by assumption. rewrite G. now apply A1.
  - intros c' k' g' l' i h E1 E2 E3. destruct (NB _ _ _ _ E1) as [N E1'].
    destruct (A2 _ _ _ _ _ _ E1' E2 E3) as (B1 & B2 & B3). rewrite A, B1, De.
    destruct (Nat.eqb_spec c' c); [contradiction|]. repeat split; auto.
    destruct (done s' (hp h)) eqn:Dh; [|reflexivity]. exfalso. destruct (D (hp h) B2) as (h' & I' & P' & W'); [congruence|].
    apply In_nth_error in I'. destruct I' as [i' I']. destruct (A2 _ _ _ _ _ _ B I' W') as (Z & _). rewrite P' in Z. congruence.
  - intros c' k' g' l' E h Ih. destruct (NB _ _ _ _ E) as [N E']. destruct (A3 _ _ _ _ E' h Ih) as (B1 & B2 & B3).
    rewrite G. repeat split; auto. destruct B1 as [B1|B1]; [now left|right]. now apply right_mono with (s := s).
  - intros c'. destruct (Nat.eq_dec c' c) as [->|N]; [rewrite Cc; discriminate|]. rewrite C by assumption. apply A4.
  - intros c' k' g' l' E. destruct (NB _ _ _ _ E) as [_ E']. now apply A5 with (1 := E').
  - intros c1 c2 k1 k2 l1 l2 E1 E2. destruct (NB _ _ _ _ E1) as [_ E1']. destruct (NB _ _ _ _ E2) as [_ E2']. eapply A6; eauto.
  - rewrite G. split; [apply A7|]. intros p. rewrite De. apply A7.
Qed.

(** ** Delivering a result *)

Lemma nth_unique s c k g l i j h h' : inv0 s -> co s c = Busy k g l -> nth_error l i = Some h -> nth_error l j = Some h' ->
  hs h = HWait -> hs h' = HWait -> hp h = hp h' -> i = j.
Proof.
  intros I B E E' W W' P. destruct (v_wait _ I _ _ _ _ _ _ B E W) as (X & _). destruct (v_wait _ I _ _ _ _ _ _ B E' W') as (X' & _).
  rewrite P, X' in X. congruence.
Qed.

(** [t] is [s] without the awaiter of [p], perhaps with [p] ended *)
Definition after (p : nat) (s t : state) :=
  (forall q b, done s q = Some b -> done t q = Some b) /\ (forall q, q <> p -> done t q = done s q) /\
  awr t = upd (awr s) p None /\ dead t = dead s /\ group t = group s /\ co t = co s.

Lemma is_wait_true h : is_wait h = true <-> hs h = HWait.
Proof. unfold is_wait. destruct (hs h); split; congruence. Qed.

Lemma deliver_inv s t p c i r s' es : inv s -> awr s p = Some (c, i) -> after p s t ->
  (forall k g l x, co s c = Busy k g l -> right t k (mkh p x (HEnd r))) ->
  deliver c i r t = (s', es) ->
  inv s' /\ (forall e, In e es -> proper s' e) /\ done s' = done t /\ (forall c', c' <> c -> co s' c' = co s c').
Proof.
  intros [I So] A (T1 & T2 & T3 & T4 & T5 & T6) R D.
  destruct (v_awr _ I _ _ _ A) as (k & g & l & h & B & Ni & Ph & Wh & Gh).
  pose proof (R _ _ _ (hi h) B) as Rh. unfold deliver in D. rewrite T6, B in D.
  set (l1 := set_nth i (HEnd r) l) in *.
  assert (L1 : forall h', In h' l1 -> (exists j, j <> i /\ nth_error l j = Some h') \/ h' = mkh p (hi h) (HEnd r)).
  { intros h' H. apply In_nth_error in H. destruct H as [j H]. unfold l1 in H. rewrite nth_set_nth in H.
    destruct (Nat.eqb_spec j i) as [J|N]; [|eauto]. rewrite Ni in H. injection H as <-. right. now rewrite Ph. }
  assert (SG : forall c' k' t', co s c' = Busy k' true t' -> g = true -> c' = c).
  { intros c' k' t' E ->. eapply v_one; eauto. }
  (* ending the await *)
  assert (FIN : forall l2 u, inv0 (set_co c Idle u) -> done u = done t -> group u = group t -> co u = co t ->
     (forall h', In h' l2 -> right t k h' /\ (k = KRace -> g = true -> nth_error (group t) (hi h') = Some (hp h'))) ->
     finish c k g l2 u = (s', es) ->
     inv s' /\ (forall e, In e es -> proper s' e) /\ done s' = done t /\ (forall c', c' <> c -> co s' c' = co s c')).
  { intros l2 u Iu E1 E2 E3 Q F. apply finish_inv in F; auto.
    - destruct F as (F1 & F2 & F3 & F4).
      assert (C : forall c', c' <> c -> co s' c' = co s c') by (intros c' N; rewrite F4, E3, T6; now apply upd_other).
      split; [|split; [exact F2|split; [congruence|exact C]]]. split; [exact F1|].
      intros c' k' g' l' E. destruct (Nat.eq_dec c' c) as [->|N]; [rewrite F4, upd_same in E; discriminate|].
      rewrite C in E by assumption. now apply So in E.
    - intros h' H. apply right_done with (s := t); [exact E1|]. now apply Q.
    - intros G c' k' t'. cbn [set_co co]. rewrite E3, T6. destruct (Nat.eq_dec c' c) as [->|N]; [rewrite upd_same; discriminate|].
      rewrite upd_other by assumption. intros E. apply N. now apply (SG c' k' t').
    - intros K G h' H. rewrite E2. now apply Q. }
  assert (DN : forall q, done s q = None -> done t q <> None -> exists h', In h' l /\ hp h' = q /\ hs h' = HWait).
  { intros q N1 N2. destruct (Nat.eq_dec q p) as [->|N]; [|rewrite T2 in N2 by assumption; contradiction].
    exists h. repeat split; auto. now apply nth_error_In in Ni. }
  assert (ONLY : forall q j, awr s q = Some (c, j) -> exists h', nth_error l j = Some h' /\ hp h' = q /\ hs h' = HWait).
  { intros q j E. destruct (v_awr _ I _ _ _ E) as (k2 & g2 & l2 & h2 & B2 & X2 & Y2 & Z2 & _). rewrite B in B2. injection B2 as <- <- <-. eauto. }
  assert (NR : k <> KRace -> (if existsb is_wait l1 then (set_co c (Busy k g l1) t, []) else finish c k g l1 t) = (s', es) ->
     inv s' /\ (forall e, In e es -> proper s' e) /\ done s' = done t /\ (forall c', c' <> c -> co s' c' = co s c')).
  { intros K D'. destruct (existsb is_wait l1) eqn:W.
    - injection D' as <- <-. split; [|split; [intros e []|split; [reflexivity|]]].
      2:{ intros c' N. cbn [set_co co]. rewrite T6. now apply upd_other. }
      assert (NB : forall c' k' g' l', co (set_co c (Busy k g l1) t) c' = Busy k' g' l' ->
                (c' = c /\ k' = k /\ g' = g /\ l' = l1) \/ (c' <> c /\ co s c' = Busy k' g' l')).
      { intros c' k' g' l'. cbn [set_co co]. rewrite T6. unfold upd. destruct (Nat.eqb_spec c' c) as [->|N]; [|auto].
        injection 1 as <- <- <-. auto. }
      split.
      + constructor.
        * intros q c' j. cbn [set_co awr group co]. rewrite T3. unfold upd at 1. destruct (Nat.eqb_spec q p) as [|Nq]; [discriminate|].
          intros E. destruct (v_awr _ I _ _ _ E) as (k2 & g2 & l2 & h2 & B2 & X2 & Y2 & Z2 & G2). rewrite T5, T6.
          destruct (Nat.eq_dec c' c) as [->|N]; [|rewrite upd_other by assumption; exists k2, g2, l2, h2; auto].
          rewrite upd_same. rewrite B in B2. injection B2 as <- <- <-.
          assert (j <> i) by (intros ->; congruence).
          exists k, g, l1, h2. repeat split; auto. unfold l1. rewrite nth_set_nth. destruct (Nat.eqb_spec j i); [contradiction|exact X2].
        * intros c' k' g' l' j h' E X Y. cbn [set_co awr done dead]. rewrite T3, T4.
          destruct (NB _ _ _ _ E) as [(-> & -> & -> & ->)|(N & E')].
          -- unfold l1 in X. rewrite nth_set_nth in X. destruct (Nat.eqb_spec j i) as [J|J].
             ++ rewrite Ni in X. injection X as <-. cbn in Y. discriminate.
             ++ destruct (v_wait _ I _ _ _ _ _ _ B X Y) as (Z1 & Z2 & Z3).
                assert (hp h' <> p) by (intros Q; apply J; eapply nth_unique; eauto; congruence).
                rewrite upd_other by assumption. rewrite T2 by assumption. auto.
          -- destruct (v_wait _ I _ _ _ _ _ _ E' X Y) as (Z1 & Z2 & Z3).
             assert (hp h' <> p) by (intros Q; rewrite Q, A in Z1; congruence).
             rewrite upd_other by assumption. rewrite T2 by assumption. auto.
        * intros c' k' g' l' E h' H. cbn [set_co group]. rewrite T5.
          destruct (NB _ _ _ _ E) as [(-> & -> & -> & ->)|(N & E')].
          -- destruct (L1 h' H) as [(j & J & X)|X].
             ++ destruct (v_busy _ I _ _ _ _ B h' (nth_error_In _ _ X)) as (Y1 & Y2 & Y3). repeat split; auto.
                destruct Y1 as [Y1|Y1]; [now left|right]. apply right_mono with (s := s); auto.
             ++ subst h'. split; [right; exact Rh|]. split; intros; contradiction.
          -- destruct (v_busy _ I _ _ _ _ E' h' H) as (Y1 & Y2 & Y3). repeat split; auto.
             destruct Y1 as [Y1|Y1]; [now left|right]. apply right_mono with (s := s); auto.
        * intros c' E. destruct (Nat.eq_dec c' c) as [->|N]; cbn [set_co co] in E; [rewrite upd_same in E; discriminate|].
          rewrite upd_other, T6 in E by assumption. now apply (v_gone _ I c').
        * intros c' k' g' l' E. destruct (NB _ _ _ _ E) as [(-> & -> & -> & ->)|(N & E')]; [now apply (v_kind _ I _ _ _ _ B)|now apply (v_kind _ I _ _ _ _ E')].
        * intros c1 c2 k1 k2 t1 t2 E1 E2.
          destruct (NB _ _ _ _ E1) as [(-> & -> & G1 & ->)|(N1 & E1')]; destruct (NB _ _ _ _ E2) as [(-> & -> & G2 & ->)|(N2 & E2')]; auto.
          -- symmetry. eapply SG; eauto.
          -- eapply SG; eauto.
          -- eapply v_one; eauto.
        * cbn [set_co group dead]. rewrite T5, T4. apply (v_grp _ I).
      + intros c' k' g' l' E. destruct (NB _ _ _ _ E) as [(-> & -> & -> & ->)|(N & E')]; [exact W|now apply So in E'].
    - apply (FIN l1 t); auto.
      + eapply inv0_idle with (s := s) (c := c); eauto.
        * intros q. cbn [set_co awr]. rewrite T3. unfold upd. destruct (Nat.eqb_spec q p) as [->|Nq].
          { now rewrite A, Nat.eqb_refl. }
          destruct (awr s q) as [[c' j]|] eqn:E; [|reflexivity]. destruct (Nat.eqb_spec c' c) as [->|N]; [|reflexivity].
          exfalso. destruct (ONLY q j E) as (h' & X1 & X2 & X3).
          assert (j <> i) by (intros ->; congruence).
          assert (In h' l1). { apply nth_error_In with (n := j). unfold l1. rewrite nth_set_nth. now destruct (Nat.eqb_spec j i). }
          assert (existsb is_wait l1 = true) by (apply existsb_exists; exists h'; split; [assumption|now apply is_wait_true]). congruence.
        * intros q. cbn [set_co dead]. now rewrite T4.
        * intros c' N. cbn [set_co co]. rewrite T6. now apply upd_other.
        * cbn [set_co co]. now rewrite upd_same.
      + intros h' H. split; [|intros; contradiction]. destruct (L1 h' H) as [(j & J & X)|X]; [|now subst h'].
        destruct (v_busy _ I _ _ _ _ B h' (nth_error_In _ _ X)) as ([Y1|Y1] & _).
        * assert (existsb is_wait l1 = true) by (apply existsb_exists; exists h'; split; [assumption|now apply is_wait_true]). congruence.
        * apply right_mono with (s := s); auto. }
  destruct k; [now apply NR|now apply NR|].
  (* race *)
  assert (W : forall h', In h' l -> hs h' = HWait) by (intros h' H; now apply (v_busy _ I _ _ _ _ B h' H)).
  assert (L : existsb is_lost l1 = false).
  { apply existsb_false. intros h' H. destruct (L1 h' H) as [(j & J & X)|X]; [|now subst h'].
    unfold is_lost. now rewrite (W h') by now apply nth_error_In in X. }
  rewrite L in D. destruct (finish c KRace g (map detach l1) (forget l1 t)) as [s1 e1] eqn:F. injection D as <- <-. cbn [app].
  destruct (forget_same l1 t) as (F1 & F2 & F3 & F4).
  apply (FIN (map detach l1) (forget l1 t)); auto.
  - eapply inv0_idle with (s := s) (c := c); eauto.
    + cbn [set_co done]. now rewrite F1.
    + cbn [set_co done]. now rewrite F1.
    + intros q. cbn [set_co awr]. rewrite awr_forget, T3. unfold upd. destruct (Nat.eqb_spec q p) as [->|Nq].
      { rewrite A, Nat.eqb_refl. match goal with |- (if ?b then _ else _) = _ => now destruct b end. }
      destruct (existsb (fun h0 => is_wait h0 && Nat.eqb q (hp h0)) l1) eqn:Ex.
      * apply existsb_exists in Ex. destruct Ex as (h' & H & Q). apply andb_prop in Q. destruct Q as [Q1 Q2].
        apply Nat.eqb_eq in Q2. subst q. destruct (L1 h' H) as [(j & J & X)|X]; [|now subst h'].
        apply is_wait_true in Q1. destruct (v_wait _ I _ _ _ _ _ _ B X Q1) as (Z & _). now rewrite Z, Nat.eqb_refl.
      * destruct (awr s q) as [[c' j]|] eqn:E; [|reflexivity]. destruct (Nat.eqb_spec c' c) as [->|N]; [|reflexivity].
        exfalso. destruct (ONLY q j E) as (h' & X1 & X2 & X3).
        assert (j <> i) by (intros ->; congruence).
        assert (In h' l1). { apply nth_error_In with (n := j). unfold l1. rewrite nth_set_nth. now destruct (Nat.eqb_spec j i). }
        assert (existsb (fun h0 => is_wait h0 && Nat.eqb q (hp h0)) l1 = true); [|congruence].
        apply existsb_exists. exists h'. split; [assumption|]. apply andb_true_intro. split; [now apply is_wait_true|now apply Nat.eqb_eq].
    + intros q. cbn [set_co dead]. now rewrite F2, T4.
    + cbn [set_co group]. now rewrite F3, T5.
    + intros c' N. cbn [set_co co]. rewrite F4, T6. now apply upd_other.
    + cbn [set_co co]. now rewrite upd_same.
  - intros h' H. apply in_map_iff in H. destruct H as (h0 & <- & H).
    destruct (L1 h0 H) as [(j & J & X)|X].
    + pose proof (nth_error_In _ _ X) as Il. unfold detach. rewrite (proj2 (is_wait_true h0) (W h0 Il)).
      destruct (v_busy _ I _ _ _ _ B h0 Il) as (_ & _ & Y3). cbn [hi hp]. rewrite T5. split; [unfold right; cbn; discriminate|exact Y3].
    + subst h0. cbn [detach is_wait hs hi hp]. rewrite T5. split; [exact Rh|].
      destruct (v_busy _ I _ _ _ _ B h (nth_error_In _ _ Ni)) as (_ & _ & Y3). now rewrite Ph in Y3.
Qed.

(** ** Starting a gather or a plain await *)

Record started (c pos : nat) (l : list (nat * nat)) (s s1 : state) (t : list helper) : Prop := Started
  { g_same : done s1 = done s /\ dead s1 = dead s /\ group s1 = group s /\ co s1 = co s;
    g_map : map hp t = map snd l;
    g_stat : forall h, In h t -> match hs h with
        | HWait => done s (hp h) = None /\ awr s (hp h) = None
        | HEnd RAlready => done s (hp h) = None /\ awr s (hp h) <> None
        | HEnd r => exists b, done s (hp h) = Some b /\ r = result_of b
        | HLost => False end;
    g_new : forall j h, nth_error t j = Some h -> hs h = HWait -> awr s1 (hp h) = Some (c, pos + j);
    g_old : forall q, awr s1 q = awr s q \/ exists j h, nth_error t j = Some h /\ hs h = HWait /\ hp h = q }.

Lemma start_gather_spec c l : forall pos s s1 t, NoDup (map snd l) -> start_gather c pos l s = (s1, t) -> started c pos l s s1 t.
Proof.
  induction l as [|[i p] r IH]; intros pos s s1 t ND E; cbn [start_gather] in E.
  - injection E as <- <-. constructor; auto; [intros h []|intros [|j] h; discriminate].
  - cbn [map snd] in ND. inversion ND as [|? ? NI ND' ]; subst.
    assert (KEEP : forall u t0 x, start_gather c (S pos) r s = (u, t0) ->
       match x with HWait => False | HEnd RAlready => done s p = None /\ awr s p <> None | HEnd rr => exists b, done s p = Some b /\ rr = result_of b | HLost => False end ->
       started c pos ((i, p) :: r) s u (mkh p i x :: t0)).
    { intros u t0 x F X. destruct (IH (S pos) s u t0 ND' F) as [B1 B2 B3 B4 B5]. constructor; auto.
      - cbn [map snd hp]. now rewrite B2.
      - intros h [<-|H]; [|now apply B3]. cbn [hs hp]. destruct x as [|[]|]; auto; contradiction.
      - intros [|j] h N W; cbn in N; [injection N as <-; cbn in W; subst x; contradiction|]. rewrite (B4 j h N W). do 2 f_equal; lia.
      - intros q. destruct (B5 q) as [Q|(j & h & Q)]; [now left|right]. exists (S j), h. exact Q. }
    destruct (done s p) as [b|] eqn:D.
    + destruct (start_gather c (S pos) r s) as [u t0] eqn:F. injection E as <- <-. apply KEEP; [reflexivity|]. destruct b; cbn [result_of]; eauto.
    + destruct (awr s p) as [w|] eqn:A.
      * destruct (start_gather c (S pos) r s) as [u t0] eqn:F. injection E as <- <-. apply KEEP; [reflexivity|]. split; [reflexivity|congruence].
      * destruct (start_gather c (S pos) r (set_awr p (Some (c, pos)) s)) as [u t0] eqn:F. injection E as <- <-.
        destruct (IH _ _ _ _ ND' F) as [B1 B2 B3 B4 B5]. cbn [set_awr done dead group co awr] in *.
        assert (NP : forall h, In h t0 -> hp h <> p).
        { intros h H Q. apply NI. rewrite <- B2, <- Q. now apply in_map. }
        constructor; auto.
        -- cbn [map snd hp]. now rewrite B2.
        -- intros h [<-|H]; [cbn; auto|]. specialize (B3 h H). now rewrite upd_other in B3 by now apply NP.
        -- intros [|j] h N W; cbn in N; [|rewrite (B4 j h N W); do 2 f_equal; lia].
           injection N as <-. cbn [hp]. destruct (B5 p) as [Q|(j & h & Q1 & Q2 & Q3)].
           ++ rewrite Q, upd_same. do 2 f_equal; lia.
           ++ exfalso. apply (NP h); [now apply nth_error_In in Q1|exact Q3].
        -- intros q. destruct (B5 q) as [Q|(j & h & Q)]; [|right; exists (S j), h; exact Q].
           destruct (Nat.eq_dec q p) as [->|N]; [right; exists 0; eexists; cbn; repeat split|left; rewrite Q; now apply upd_other].
Qed.

Lemma gather_inv c k g l s s' es : inv s -> co s c = Idle -> k <> KRace -> NoDup (map snd l) ->
  (forall p, In p (map snd l) -> dead s p = false) -> (g = false -> forall p, In p (map snd l) -> ~ In p (group s)) ->
  (g = true -> k <> KDirect /\ forall c' k' t, co s c' <> Busy k' true t) ->
  gather c k g l s = (s', es) ->
  inv s' /\ (forall e, In e es -> proper s' e) /\ done s' = done s /\ (forall c', c' <> c -> co s' c' = co s c').
Proof.
  intros [I So] C K ND De Gf Gt G. unfold gather in G. destruct (start_gather c 0 l s) as [s1 t] eqn:S.
  destruct (start_gather_spec _ _ _ _ _ _ ND S) as [(B1 & B1a & B1b & B1c) B2 B3 B4 B5].
  assert (Tl : forall h, In h t -> In (hp h) (map snd l)) by (intros h H; rewrite <- B2; now apply in_map).
  assert (NC : forall q j, awr s q <> Some (c, j)).
  { intros q j E. destruct (v_awr _ I _ _ _ E) as (k2 & g2 & l2 & h2 & X & _). congruence. }
  assert (RT : forall h, In h t -> hs h <> HWait -> right s k h).
  { intros h H N. specialize (B3 h H). unfold right. destruct (hs h) as [|[]|]; try contradiction; auto;
    destruct B3 as (b & X & Y); destruct b; cbn in Y; try discriminate; exact X. }
  destruct (existsb is_wait t) eqn:W.
  - injection G as <- <-. split; [|split; [intros e []|split; [exact B1|]]].
    2:{ intros c' N. cbn [set_co co]. rewrite B1c. now apply upd_other. }
    assert (NB : forall c' k' g' l', co (set_co c (Busy k g t) s1) c' = Busy k' g' l' ->
              (c' = c /\ k' = k /\ g' = g /\ l' = t) \/ (c' <> c /\ co s c' = Busy k' g' l')).
    { intros c' k' g' l'. cbn [set_co co]. rewrite B1c. unfold upd. destruct (Nat.eqb_spec c' c) as [->|N]; [|auto].
      injection 1 as <- <- <-. auto. }
    split.
    + constructor.
      * intros p c' i. cbn [set_co awr group co]. rewrite B1b, B1c. intros E.
        destruct (B5 p) as [Q|(j & h & Q1 & Q2 & Q3)].
        -- rewrite Q in E. destruct (v_awr _ I _ _ _ E) as (k2 & g2 & l2 & h2 & X).
           assert (c' <> c) by (intros ->; now apply (NC p i)). rewrite upd_other by assumption. eauto 6.
        -- pose proof (B4 j h Q1 Q2) as Z. rewrite Q3, E in Z. injection Z as -> ->. rewrite upd_same.
           exists k, g, t, h. repeat split; auto. intros Ig. destruct g; [reflexivity|].
           exfalso. apply (Gf eq_refl p); [|exact Ig]. rewrite <- Q3. apply Tl. now apply nth_error_In in Q1.
      * intros c' k' g' l' j h E X Y. cbn [set_co awr done dead]. rewrite B1, B1a.
        destruct (NB _ _ _ _ E) as [(-> & -> & -> & ->)|(N & E')].
        -- pose proof (nth_error_In _ _ X) as H. specialize (B3 h H). rewrite Y in B3. split; [now apply (B4 j h)|]. split; [apply B3|]. apply De. now apply Tl.
        -- destruct (v_wait _ I _ _ _ _ _ _ E' X Y) as (Z1 & Z2 & Z3). repeat split; auto.
           destruct (B5 (hp h)) as [Q|(j' & h' & Q1 & Q2 & Q3)]; [congruence|].
           pose proof (B3 h' (nth_error_In _ _ Q1)) as Z. rewrite Q2, Q3 in Z. destruct Z. congruence.
      * intros c' k' g' l' E h H. cbn [set_co group]. rewrite B1b.
        destruct (NB _ _ _ _ E) as [(-> & -> & -> & ->)|(N & E')].
        -- split; [|split; intros; contradiction]. destruct (hs h) as [| |] eqn:Hh; [now left|right|right];
           (apply right_done with (s := s); [exact B1|apply RT; [exact H|congruence]]).
        -- destruct (v_busy _ I _ _ _ _ E' h H) as (Y1 & Y2 & Y3). repeat split; auto.
           destruct Y1 as [Y1|Y1]; [now left|right]. now apply right_done with (s := s).
      * intros c' E. destruct (Nat.eq_dec c' c) as [->|N]; cbn [set_co co] in E; [rewrite upd_same in E; discriminate|].
        rewrite upd_other, B1c in E by assumption. now apply (v_gone _ I c').
      * intros c' k' g' l' E Gg. destruct (NB _ _ _ _ E) as [(-> & -> & -> & ->)|(N & E')]; [now apply Gt|now apply (v_kind _ I _ _ _ _ E')].
      * intros c1 c2 k1 k2 t1 t2 E1 E2.
        destruct (NB _ _ _ _ E1) as [(-> & -> & G1 & ->)|(N1 & E1')]; destruct (NB _ _ _ _ E2) as [(-> & -> & G2 & ->)|(N2 & E2')]; auto.
        -- exfalso. destruct (Gt (eq_sym G1)) as [_ Z]. now apply (Z c2 k2 t2).
        -- exfalso. destruct (Gt (eq_sym G2)) as [_ Z]. now apply (Z c1 k1 t1).
        -- eapply v_one; eauto.
      * cbn [set_co group dead]. rewrite B1b, B1a. apply (v_grp _ I).
    + intros c' k' g' l' E. destruct (NB _ _ _ _ E) as [(-> & -> & -> & ->)|(N & E')]; [exact W|now apply So in E'].
  - assert (NW : forall h, In h t -> hs h <> HWait).
    { intros h H Q. assert (existsb is_wait t = true) by (apply existsb_exists; exists h; split; [assumption|now apply is_wait_true]). congruence. }
    assert (AW : forall q, awr s1 q = awr s q).
    { intros q. destruct (B5 q) as [Q|(j & h & Q1 & Q2 & Q3)]; [exact Q|]. apply nth_error_In in Q1. now apply NW in Q1. }
    assert (CI : forall c', upd (co s) c Idle c' = co s c').
    { intros c'. unfold upd. destruct (Nat.eqb_spec c' c); congruence. }
    apply finish_inv in G.
    + destruct G as (F1 & F2 & F3 & F4). split; [|split; [exact F2|split; [congruence|]]].
      * split; [exact F1|]. intros c' k' g' l'. rewrite F4, B1c, CI. apply So.
      * intros c' N. now rewrite F4, B1c, CI.
    + apply inv0_ext with (s := s); auto; cbn [set_co done awr dead group co]; try (intros; congruence).
    + intros h H. apply right_done with (s := s); auto.
    + intros Gg c' k' t'. cbn [set_co co]. rewrite B1c, CI. now apply Gt.
    + intros; contradiction.
Qed.

(** ** Starting a race *)

Lemma stop_inv c g acc i p x s s' es : inv0 (set_co c (Busy KRace g acc) s) -> some s -> co s c = Idle ->
  (g = true -> forall c' k' t, co s c' <> Busy k' true t) ->
  awr s p = None -> right s KRace (mkh p i (HEnd x)) -> (g = true -> nth_error (group s) i = Some p) ->
  stop c g acc i p x s = (s', es) ->
  inv s' /\ (forall e, In e es -> proper s' e) /\ done s' = done s /\ (forall c', c' <> c -> co s' c' = co s c').
Proof.
  intros I So C Gt A R Gp S. unfold stop in S.
  set (low := fun h => hi h <? i) in *.
  set (acc1 := map (fun h => if hi h <? i then detach h else h) acc) in *.
  set (s1 := set_co c (Busy KRace g (acc1 ++ [mkh p i HWait])) (forget (filter low acc) s)) in *.
  assert (Bc : co (set_co c (Busy KRace g acc) s) c = Busy KRace g acc) by (cbn [set_co co]; apply upd_same).
  destruct (forget_same (filter low acc) s) as (F1 & F2 & F3 & F4).
  assert (A1 : awr s1 p = None).
  { cbn [s1 set_co awr]. rewrite awr_forget, A. match goal with |- (if ?b then _ else _) = _ => now destruct b end. }
  rewrite A1 in S. replace (co s1 c) with (Busy KRace g (acc1 ++ [mkh p i HWait])) in S by (cbn [s1 set_co co]; now rewrite upd_same).
  assert (FN : firstn (length acc) (acc1 ++ [mkh p i HWait]) = acc1).
  { replace (length acc) with (length acc1) by apply map_length. rewrite firstn_app, Nat.sub_diag, firstn_all. cbn. apply app_nil_r. }
  rewrite FN in S.
  assert (W : forall h, In h acc -> hs h = HWait) by (intros h H; now apply (v_busy _ I _ _ _ _ Bc h H)).
  assert (IA : forall h, In h acc1 -> exists h0, In h0 acc /\ hp h = hp h0 /\ hi h = hi h0 /\ detach h = mkh (hp h0) (hi h0) (HEnd RDetached)
              /\ hs h <> HLost /\ (is_wait h = true <-> low h0 = false)).
  { intros h H. apply in_map_iff in H. destruct H as (h0 & <- & H). exists h0.
    pose proof (W h0 H) as Q. pose proof (proj2 (is_wait_true h0) Q) as Q'.
    change (hi h0 <? i) with (low h0). unfold detach. rewrite Q'. destruct (low h0); cbn [hs hp hi].
    - unfold is_wait. cbn [hs]. split; [exact H|]. do 4 (split; [easy|]). split; discriminate.
    - rewrite Q'. split; [exact H|]. do 3 (split; [easy|]). split; [congruence|easy]. }
  assert (NL : existsb is_lost acc1 = false).
  { apply existsb_false. intros h H. destruct (IA h H) as (h0 & _ & _ & _ & _ & Q & _). unfold is_lost. destruct (hs h); congruence. }
  rewrite NL in S. destruct (finish c KRace g (map detach acc1 ++ [mkh p i (HEnd x)]) (forget acc1 s1)) as [s3 e3] eqn:F.
  injection S as <- <-. cbn [app].
  destruct (forget_same acc1 s1) as (H1 & H2 & H3 & H4). cbn [s1 set_co done dead group co] in H1, H2, H3, H4.
  assert (CI : forall c', c' <> c -> upd (upd (co (forget (filter low acc) s)) c (Busy KRace g (acc1 ++ [mkh p i HWait]))) c Idle c' = co s c').
  { intros c' N. rewrite !upd_other by assumption. now rewrite F4. }
  apply finish_inv in F.
  - destruct F as (Q1 & Q2 & Q3 & Q4). rewrite H1, F1 in Q3. rewrite H4 in Q4.
    assert (Cs : forall c', c' <> c -> co s3 c' = co s c') by (intros c' N; rewrite Q4; now apply CI).
    split; [split; [exact Q1|]|split; [exact Q2|split; [exact Q3|exact Cs]]].
    intros c' k' g' l' E. destruct (Nat.eq_dec c' c) as [->|N]; [rewrite Q4, upd_same in E; discriminate|].
    rewrite Cs in E by assumption. now apply So in E.
  - eapply inv0_idle with (c := c); [exact I|exact Bc|..]; cbn [set_co done awr dead group co].
    + intros q b. now rewrite H1, F1.
    + intros q X Y. rewrite H1, F1 in Y. contradiction.
    + intros q. rewrite awr_forget. cbn [s1 set_co awr]. rewrite awr_forget.
      destruct (awr s q) as [[c' j]|] eqn:E.
      2:{ repeat match goal with |- (if ?b then _ else _) = _ => destruct b end; reflexivity. }
      destruct (Nat.eqb_spec c' c) as [->|N].
      * destruct (v_awr _ I q c j E) as (k2 & g2 & l2 & h2 & X1 & X2 & X3 & X4 & _). rewrite Bc in X1. injection X1 as <- <- <-.
        apply nth_error_In in X2. destruct (low h2) eqn:Lo.
        -- assert (Z : existsb (fun h => is_wait h && Nat.eqb q (hp h)) (filter low acc) = true).
           { apply existsb_exists. exists h2. split; [now apply filter_In|]. apply andb_true_intro. split; [now apply is_wait_true|apply Nat.eqb_eq; auto]. }
           rewrite Z. match goal with |- (if ?b then _ else _) = _ => now destruct b end.
        -- assert (Z : existsb (fun h => is_wait h && Nat.eqb q (hp h)) acc1 = true).
           { apply existsb_exists. exists h2. split; [|apply andb_true_intro; split; [now apply is_wait_true|apply Nat.eqb_eq; auto]].
             apply in_map_iff. exists h2. change (hi h2 <? i) with (low h2). now rewrite Lo. }
           now rewrite Z.
      * assert (Z : forall h, In h acc -> q <> hp h).
        { intros h H ->. apply In_nth_error in H as Hn. destruct Hn as [n Hn]. destruct (v_wait _ I _ _ _ _ _ _ Bc Hn (W h H)) as (Z & _).
          cbn [set_co awr] in Z. congruence. }
        rewrite !existsb_false; [reflexivity| |].
        -- intros h H. apply filter_In in H. destruct (Nat.eqb_spec q (hp h)) as [->|]; [now elim (Z h (proj1 H))|]. apply andb_false_r.
        -- intros h H. destruct (IA h H) as (h0 & X1 & X2 & _). destruct (Nat.eqb_spec q (hp h)) as [Q|]; [|apply andb_false_r].
           exfalso. apply (Z h0 X1). congruence.
    + intros q. now rewrite H2, F2.
    + now rewrite H3, F3.
    + intros c' N. rewrite H4, CI by assumption. now rewrite upd_other.
    + now rewrite upd_same.
  - intros h H. apply right_done with (s := s); [now rewrite H1, F1|]. apply in_app_or in H. destruct H as [H|[<-|[]]]; [|exact R].
    apply in_map_iff in H. destruct H as (h1 & <- & H). destruct (IA h1 H) as (h0 & _ & _ & _ & -> & _). unfold right. cbn. discriminate.
  - intros Gg c' k' t'. cbn [set_co co]. rewrite H4. destruct (Nat.eq_dec c' c) as [->|N]; [rewrite upd_same; discriminate|].
    rewrite CI by assumption. now apply Gt.
  - intros _ Gg h H. rewrite H3, F3. apply in_app_or in H. destruct H as [H|[<-|[]]]; [|now apply Gp].
    apply in_map_iff in H. destruct H as (h1 & <- & H). destruct (IA h1 H) as (h0 & X1 & _ & _ & -> & _). cbn [hi hp].
    now apply (v_busy _ I _ _ _ _ Bc h0 X1).
Qed.

Lemma nth_app_one {A} (l : list A) x j y : nth_error (l ++ [x]) j = Some y -> nth_error l j = Some y \/ (j = length l /\ y = x).
Proof.
  intros H. destruct (Nat.lt_ge_cases j (length l)) as [L|L].
  - rewrite nth_error_app1 in H by assumption. now left.
  - rewrite nth_error_app2 in H by assumption. destruct (j - length l) as [|n] eqn:D.
    + cbn in H. injection H as <-. right. split; [lia|reflexivity].
    + cbn in H. now destruct n.
Qed.

Lemma race_inv c g l : forall acc s s' es, inv0 (set_co c (Busy KRace g acc) s) -> some s -> co s c = Idle ->
  (g = true -> forall c' k' t, co s c' <> Busy k' true t) ->
  NoDup (map snd l) -> (acc <> [] \/ l <> []) ->
  (forall p, In p (map snd l) -> dead s p = false /\ (forall h, In h acc -> hp h <> p) /\ awr s p = None) ->
  (forall i p, In (i, p) l -> (g = false -> ~ In p (group s)) /\ (g = true -> nth_error (group s) i = Some p)) ->
  start_race c g acc l s = (s', es) ->
  inv s' /\ (forall e, In e es -> proper s' e) /\ done s' = done s /\ (forall c', c' <> c -> co s' c' = co s c').
Proof.
  induction l as [|[i p] r IH]; intros acc s s' es I So C Gt ND NE P Q S; cbn [start_race] in S.
  - injection S as <- <-. split; [split; [exact I|]|split; [intros e []|split; [reflexivity|]]].
    + intros c' k' g' l'. cbn [set_co co]. unfold upd. destruct (Nat.eqb_spec c' c) as [->|N]; [|apply So].
      injection 1 as <- <- <-. destruct NE as [NE|NE]; [|contradiction]. destruct acc as [|h t]; [contradiction|].
      cbn [existsb]. rewrite (proj2 (is_wait_true h)); [reflexivity|].
      apply (v_busy _ I c KRace g (h :: t)); [cbn [set_co co]; apply upd_same|now left|reflexivity].
    + intros c' N. cbn [set_co co]. now apply upd_other.
  - cbn [map snd] in ND. inversion ND as [|? ? NI ND']; subst. destruct (P p) as (P1 & P2 & P3); [now left|].
    destruct (Q i p) as [Q1 Q2]; [now left|]. rewrite P3 in S.
    destruct (done s p) as [b|] eqn:D.
    + eapply stop_inv; eauto. destruct b; cbn; exact D.
    + assert (Bc : co (set_co c (Busy KRace g acc) s) c = Busy KRace g acc) by (cbn [set_co co]; apply upd_same).
      apply IH in S; cbn [set_awr done awr dead group co] in *; auto.
      * set (h := mkh p i HWait) in *.
        assert (NB : forall c' k' g' l', co (set_co c (Busy KRace g (acc ++ [h])) (set_awr p (Some (c, length acc)) s)) c' = Busy k' g' l' ->
           (c' = c /\ k' = KRace /\ g' = g /\ l' = acc ++ [h]) \/ (c' <> c /\ co (set_co c (Busy KRace g acc) s) c' = Busy k' g' l')).
        { intros c' k' g' l'. cbn [set_co set_awr co]. unfold upd. destruct (Nat.eqb_spec c' c) as [->|N]; [|auto].
          injection 1 as <- <- <-. auto. }
        constructor.
        -- intros q c' j. cbn [set_co set_awr awr group co]. unfold upd at 1. destruct (Nat.eqb_spec q p) as [->|N].
           ++ injection 1 as <- <-. rewrite upd_same. exists KRace, g, (acc ++ [h]), h. repeat split; auto.
              ** rewrite nth_error_app2, Nat.sub_diag by lia. reflexivity.
              ** intros Ig. destruct g; [reflexivity|]. now elim Q1.
           ++ intros E. destruct (v_awr _ I q c' j E) as (k2 & g2 & l2 & h2 & X1 & X2 & X3). cbn [set_co co] in X1.
              destruct (Nat.eq_dec c' c) as [->|Nc].
              ** rewrite upd_same in X1. injection X1 as <- <- <-. rewrite upd_same. exists KRace, g, (acc ++ [h]), h2. repeat split; try apply X3.
                 rewrite nth_error_app1; [exact X2|]. apply nth_error_Some. congruence.
              ** rewrite upd_other in * by assumption. exists k2, g2, l2, h2. auto.
        -- intros c' k' g' l' j h' E X Y. cbn [set_co set_awr awr done dead]. destruct (NB _ _ _ _ E) as [(-> & -> & -> & ->)|(N & E')].
           ++ apply nth_app_one in X. destruct X as [X|[-> ->]]; [|cbn [h hp]; rewrite upd_same; auto].
              destruct (v_wait _ I _ _ _ _ _ _ Bc X Y) as (Z1 & Z2 & Z3). cbn [set_co awr done dead] in *.
              rewrite upd_other; [auto|]. apply P2. now apply nth_error_In in X.
           ++ destruct (v_wait _ I _ _ _ _ _ _ E' X Y) as (Z1 & Z2 & Z3). cbn [set_co awr done dead] in *.
              rewrite upd_other; [auto|]. intros Z. rewrite Z in Z1. congruence.
        -- intros c' k' g' l' E h' H. cbn [set_co set_awr group]. destruct (NB _ _ _ _ E) as [(-> & -> & -> & ->)|(N & E')].
           ++ apply in_app_or in H. destruct H as [H|[<-|[]]].
              ** exact (v_busy _ I _ _ _ _ Bc h' H).
              ** repeat split; auto. now left.
           ++ exact (v_busy _ I _ _ _ _ E' h' H).
        -- intros c' E. cbn [set_co set_awr co] in E. apply (v_gone _ I c'). cbn [set_co co]. unfold upd in *. destruct (Nat.eqb c' c); [discriminate|exact E].
        -- intros c' k' g' l' E. destruct (NB _ _ _ _ E) as [(-> & -> & -> & ->)|(N & E')]; [discriminate|exact (v_kind _ I _ _ _ _ E')].
        -- intros c1 c2 k1 k2 t1 t2 E1 E2.
           destruct (NB _ _ _ _ E1) as [(-> & -> & G1 & ->)|(N1 & E1')]; destruct (NB _ _ _ _ E2) as [(-> & -> & G2 & ->)|(N2 & E2')]; auto.
           ++ subst g. eapply v_one; [exact I|exact Bc|exact E2'].
           ++ subst g. eapply v_one; [exact I|exact E1'|exact Bc].
           ++ eapply v_one; [exact I|exact E1'|exact E2'].
        -- exact (v_grp _ I).
      * left. destruct acc; discriminate.
      * intros q Hq. destruct (P q) as (X1 & X2 & X3); [now right|]. assert (Nq : q <> p) by (intros ->; contradiction).
        split; [exact X1|]. split; [|now rewrite upd_other]. intros h H. apply in_app_or in H. destruct H as [H|[<-|[]]]; [now apply X2|]. cbn. congruence.
      * intros i' p' H. apply Q. now right.
Qed.

(** ** Interrupting a gather *)

Lemma interrupt_all_inv c ps : forall j l s s' es, inv s -> co s c = Busy KGather false l ->
  (forall m p, nth_error ps m = Some p -> exists h, nth_error l (j + m) = Some h /\ hp h = p /\ hs h = HWait) ->
  interrupt_all c j ps s = (s', es) ->
  inv s' /\ (forall e, In e es -> proper s' e) /\ done s' = done s /\ (forall c', c' <> c -> co s' c' = co s c').
Proof.
  induction ps as [|p r IH]; intros j l s s' es I B P E; cbn [interrupt_all] in E.
  - injection E as <- <-. split; [exact I|]. split; [intros e []|]. auto.
  - destruct (P 0 p eq_refl) as (h & N & Ph & Wh). rewrite Nat.add_0_r in N.
    destruct (v_wait _ (proj1 I) _ _ _ _ _ _ B N Wh) as (A & Dn & De). rewrite Ph in A, Dn, De.
    rewrite B, De in E. unfold interrupt in E. rewrite A, !Nat.eqb_refl in E. cbn [andb] in E.
    destruct (deliver c j RDetached (set_awr p None s)) as [s1 e1] eqn:D.
    pose proof D as D0. apply deliver_inv with (s := s) (p := p) in D; auto.
    2:{ repeat split; auto. }
    2:{ intros k g l' x B'. rewrite B in B'. injection B' as <- <- <-. unfold right. cbn. discriminate. }
    destruct D as (D1 & D2 & D3 & D4). cbn [set_awr done] in D3.
    destruct r as [|p' r'].
    + cbn [interrupt_all] in E. injection E as <- <-. rewrite app_nil_r. auto.
    + assert (B1 : co s1 c = Busy KGather false (set_nth j (HEnd RDetached) l)).
      { unfold deliver in D0. cbn [set_awr co] in D0. rewrite B in D0.
        destruct (P 1 p' eq_refl) as (h' & N' & P' & W').
        assert (X : existsb is_wait (set_nth j (HEnd RDetached) l) = true).
        { apply existsb_exists. exists h'. split; [|now apply is_wait_true].
          apply nth_error_In with (n := j + 1). rewrite nth_set_nth. destruct (Nat.eqb_spec (j + 1) j); [lia|exact N']. }
        rewrite X in D0. injection D0 as <- <-. cbn [set_co co]. apply upd_same. }
      destruct (interrupt_all c (S j) (p' :: r') s1) as [s2 e2] eqn:F. injection E as <- <-.
      apply IH with (l := set_nth j (HEnd RDetached) l) in F; auto.
      * destruct F as (F1 & F2 & F3 & F4). split; [exact F1|]. split; [|split; [congruence|intros c' N'; rewrite F4 by assumption; now apply D4]].
        intros e H. apply in_app_or in H. destruct H as [H|H]; [|now apply F2].
        apply proper_mono with (s := s1); [now rewrite F3|now apply D2].
      * intros m q H. destruct (P (S m) q H) as (h' & N' & P' & W'). exists h'. split; [|auto].
        rewrite nth_set_nth. replace (S j + m) with (j + S m) by lia. destruct (Nat.eqb_spec (j + S m) j); [lia|exact N'].
Qed.

(** ** All steps *)

Lemma distinct_nodup l : distinct l = true -> NoDup l.
Proof.
  induction l as [|x r IH]; [constructor|]. cbn [distinct]. intros H. apply andb_prop in H. destruct H as [H1 H2].
  constructor; [|now apply IH]. intros Hx. apply negb_true_iff in H1.
  assert (existsb (Nat.eqb x) r = true) by (apply existsb_exists; exists x; split; [assumption|apply Nat.eqb_refl]). congruence.
Qed.
Lemma alive_in s ps p : alive s ps = true -> In p ps -> dead s p = false.
Proof. intros H I. unfold alive in H. rewrite forallb_forall in H. apply negb_true_iff. now apply H. Qed.
Lemma index_snd ps : map snd (index ps) = ps.
Proof.
  unfold index. generalize 0. induction ps as [|p r IH]; intros n; [reflexivity|]. cbn. now rewrite IH.
Qed.

Lemma step_inv s l s' es : inv s -> polite s l -> step s l = Some (s', es) ->
  inv s' /\ (forall e, In e es -> proper s' e) /\ (forall p b, done s p = Some b -> done s' p = Some b).
Proof.
  intros I P S.
  assert (KEEP : forall c, inv s' /\ (forall e, In e es -> proper s' e) /\ done s' = done s /\ (forall c', c' <> c -> co s' c' = co s c') ->
     inv s' /\ (forall e, In e es -> proper s' e) /\ (forall p b, done s p = Some b -> done s' p = Some b)).
  { intros c (X1 & X2 & X3 & _). split; [exact X1|]. split; [exact X2|]. now rewrite X3. }
  destruct l as [c p|c ps|c l|p|c|c order|c|p ok]; cbn [step polite] in *.
  - destruct (co s c) eqn:C; try discriminate. destruct (dead s p) eqn:D; [discriminate|]. injection S as S.
    apply (KEEP c). eapply gather_inv; [exact I|exact C|..|exact S]; try discriminate; cbn [map snd].
    + constructor; [intros []|constructor].
    + intros q [<-|[]]. exact D.
    + intros _ q [<-|[]]. exact P.
  - destruct (co s c) eqn:C; try discriminate. destruct (alive s ps && distinct ps) eqn:D; [|discriminate]. injection S as S.
    apply andb_prop in D. destruct D as [D1 D2].
    apply (KEEP c). eapply gather_inv; [exact I|exact C|..|exact S]; try discriminate; rewrite index_snd.
    + now apply distinct_nodup.
    + intros q. now apply alive_in.
    + intros _. exact P.
  - destruct (co s c) eqn:C; try discriminate. destruct l as [|x r]; [discriminate|]. remember (x :: r) as l.
    destruct (alive s (map snd l) && distinct (map snd l) && shuffles (length l) (map fst l)) eqn:D; [|discriminate]. injection S as S.
    apply andb_prop in D. destruct D as [D _]. apply andb_prop in D. destruct D as [D1 D2]. destruct I as [I So].
    apply (KEEP c). unfold race in S. eapply race_inv; [| exact So|exact C|..|exact S]; try discriminate.
    + assert (U : forall c' k' g' l', upd (co s) c (Busy KRace false []) c' = Busy k' g' l' ->
        (c' = c /\ k' = KRace /\ g' = false /\ l' = []) \/ co s c' = Busy k' g' l').
      { intros c' k' g' l'. unfold upd. destruct (Nat.eqb_spec c' c) as [->|N]; [|auto]. injection 1 as <- <- <-. auto. }
      destruct I as [A1 A2 A3 A4 A5 A6 A7]. constructor; cbn [set_co done awr dead group co]; auto.
      * intros q c' j E. destruct (A1 q c' j E) as (k2 & g2 & l2 & h2 & X & Y). exists k2, g2, l2, h2. split; [|exact Y].
        rewrite upd_other; [exact X|congruence].
      * intros c' k' g' l' j h E X Y. destruct (U _ _ _ _ E) as [(-> & -> & -> & ->)|E']; [now destruct j|]. now apply (A2 c' k' g' l').
      * intros c' k' g' l' E h H. destruct (U _ _ _ _ E) as [(-> & -> & -> & ->)|E']; [contradiction|]. now apply (A3 c' k' g' l').
      * intros c'. unfold upd. destruct (Nat.eqb c' c); [discriminate|apply A4].
      * intros c' k' g' l' E. destruct (U _ _ _ _ E) as [(-> & -> & -> & ->)|E']; [discriminate|]. now apply (A5 c' k' g' l').
      * intros c1 c2 k1 k2 l1 l2 E1 E2. destruct (U _ _ _ _ E1) as [(_ & _ & Q & _)|E1']; [discriminate|].
        destruct (U _ _ _ _ E2) as [(_ & _ & Q & _)|E2']; [discriminate|]. eapply A6; eauto.
    + now apply distinct_nodup.
    + right. subst l. discriminate.
    + intros q H. split; [now apply alive_in with (ps := map snd l)|]. split; [intros h []|]. now apply P.
    + intros i q H. split; [|discriminate]. intros _. apply P. now apply (in_map snd) in H.
  - destruct (awr s p) eqn:A; [discriminate|]. destruct (dead s p) eqn:D; [discriminate|]. cbn [orb] in S.
    destruct (in_dec Nat.eq_dec p (group s)) as [|N]; [discriminate|]. injection S as <- <-. destruct I as [I So].
    split; [split; [|exact So]|split; [intros e []|auto]].
    destruct I as [A1 A2 A3 A4 A5 A6 [A7 A8]]. constructor; cbn [set_group done awr dead group co]; auto.
    + intros q c i E. destruct (A1 q c i E) as (k & g & l & h & X1 & X2 & X3 & X4 & X5). exists k, g, l, h. repeat split; auto.
      intros H. apply in_app_or in H. destruct H as [H|[<-|[]]]; [auto|congruence].
    + intros c k g l E h H. destruct (A3 c k g l E h H) as (Y1 & Y2 & Y3). repeat split; auto. intros K G.
      specialize (Y3 K G). rewrite nth_error_app1; [exact Y3|]. apply nth_error_Some. congruence.
    + split.
      * clear - A7 N. induction (group s) as [|x r IH]; cbn; [constructor; [intros []|constructor]|].
        inversion A7; subst. constructor; [|apply IH; [assumption|intros H; apply N; now right]].
        intros H. apply in_app_or in H. destruct H as [H|[<-|[]]]; [contradiction|]. apply N. now left.
      * intros q H. apply in_app_or in H. destruct H as [H|[<-|[]]]; auto.
  - destruct (co s c) eqn:C; try discriminate. injection S as S.
    apply (KEEP c). eapply gather_inv; [exact I|exact C|..|exact S]; try discriminate; rewrite ?index_snd.
    + apply (v_grp _ (proj1 I)).
    + apply (v_grp _ (proj1 I)).
    + intros _. split; [discriminate|exact P].
  - destruct (co s c) eqn:C; try discriminate. destruct (group s) as [|p0 gr] eqn:G.
    { injection S as <- <-. split; [exact I|]. split; [|auto]. intros e [<-|[]]. intros h []. }
    rewrite <- G in *. destruct (shuffles (length (group s)) order) eqn:Sh; [|discriminate]. injection S as S.
    unfold shuffles in Sh. apply andb_prop in Sh. destruct Sh as [Sh Sh3]. apply andb_prop in Sh. destruct Sh as [Sh1 Sh2].
    apply Nat.eqb_eq in Sh1. apply distinct_nodup in Sh2. rewrite forallb_forall in Sh3.
    destruct I as [I So].
    assert (NG : forall p, In p (group s) -> awr s p = None).
    { intros p H. destruct (awr s p) as [[c' j]|] eqn:A; [|reflexivity]. destruct (v_awr _ I _ _ _ A) as (k & g & l & h & X & _ & _ & _ & Y).
      rewrite (Y H) in X. now elim (P c' k l). }
    assert (NTH : forall i, In i order -> nth_error (group s) i = Some (nth i (group s) 0)).
    { intros i H. apply nth_error_nth'. specialize (Sh3 i H). now apply Nat.ltb_lt in Sh3. }
    assert (SND : map snd (map (fun i => (i, nth i (group s) 0)) order) = map (fun i => nth i (group s) 0) order) by now rewrite map_map.
    apply (KEEP c). unfold race in S. eapply race_inv; [| exact So|exact C|..|exact S]; rewrite ?SND.
    + assert (U : forall c' k' g' l', upd (co s) c (Busy KRace true []) c' = Busy k' g' l' ->
        (c' = c /\ k' = KRace /\ g' = true /\ l' = []) \/ co s c' = Busy k' g' l').
      { intros c' k' g' l'. unfold upd. destruct (Nat.eqb_spec c' c) as [->|N]; [|auto]. injection 1 as <- <- <-. auto. }
      destruct I as [A1 A2 A3 A4 A5 A6 A7]. constructor; cbn [set_co done awr dead group co]; auto.
      * intros q c' j E. destruct (A1 q c' j E) as (k2 & g2 & l2 & h2 & X & Y). exists k2, g2, l2, h2. split; [|exact Y].
        rewrite upd_other; [exact X|congruence].
      * intros c' k' g' l' j h E X Y. destruct (U _ _ _ _ E) as [(-> & -> & -> & ->)|E']; [now destruct j|]. now apply (A2 c' k' g' l').
      * intros c' k' g' l' E h H. destruct (U _ _ _ _ E) as [(-> & -> & -> & ->)|E']; [contradiction|]. now apply (A3 c' k' g' l').
      * intros c'. unfold upd. destruct (Nat.eqb c' c); [discriminate|apply A4].
      * intros c' k' g' l' E. destruct (U _ _ _ _ E) as [(-> & -> & -> & ->)|E']; [discriminate|]. now apply (A5 c' k' g' l').
      * intros c1 c2 k1 k2 l1 l2 E1 E2. destruct (U _ _ _ _ E1) as [(-> & _ & _ & _)|E1']; [|now elim (P c1 k1 l1)].
        destruct (U _ _ _ _ E2) as [(-> & _ & _ & _)|E2']; [reflexivity|now elim (P c2 k2 l2)].
    + intros _. exact P.
    + clear - Sh2 NTH I. assert (ND := proj1 (v_grp _ I)). induction order as [|i r IH]; [constructor|]. cbn [map]. inversion Sh2; subst.
      constructor; [|apply IH; [assumption|intros j H; apply NTH; now right]].
      intros H. apply in_map_iff in H. destruct H as (j & E & H).
      assert (i = j); [|subst; contradiction].
      apply (proj1 (NoDup_nth_error (group s)) ND).
      * apply nth_error_Some. rewrite NTH by now left. discriminate.
      * rewrite !NTH; [now rewrite E|now right|now left].
    + right. destruct order; [rewrite G in Sh1; discriminate|discriminate].
    + intros q H. apply in_map_iff in H. destruct H as (j & <- & H). specialize (NTH j H). apply nth_error_In in NTH.
      split; [now apply (v_grp _ I)|]. split; [intros h []|now apply NG].
    + intros i q H. apply in_map_iff in H. destruct H as (j & E & H). injection E as <- <-. split; [discriminate|]. intros _. now apply NTH.
  - destruct (co s c) as [| |[] [] l] eqn:C; try discriminate. injection S as S.
    apply (KEEP c). eapply interrupt_all_inv; [exact I|exact C|..|exact S].
    intros m p H. cbn [Nat.add]. rewrite nth_error_map in H. destruct (nth_error l m) as [h|] eqn:N; [|discriminate]. injection H as <-.
    exists h. repeat split; auto. apply (P _ _ _ h eq_refl). now apply nth_error_In in N.
  - destruct (done s p) eqn:D; [discriminate|]. destruct (dead s p) eqn:De; [discriminate|]. injection S as S.
    assert (M : forall q b, done s q = Some b -> done (set_done p (Some ok) (set_awr p None s)) q = Some b).
    { intros q b E. cbn [set_done done]. rewrite upd_other; [exact E|congruence]. }
    destruct (awr s p) as [[c i]|] eqn:A.
    + apply deliver_inv with (s := s) (p := p) in S; auto.
      * destruct S as (S1 & S2 & S3 & _). split; [exact S1|]. split; [exact S2|]. rewrite S3. exact M.
      * split; [exact M|]. repeat split; auto. intros q N. cbn [set_done set_awr done]. now apply upd_other.
      * intros k g l x B. unfold right. destruct ok; cbn; apply upd_same.
    + injection S as <- <-. split; [|split; [intros e []|exact M]]. destruct I as [I So]. split; [|exact So].
      destruct I as [A1 A2 A3 A4 A5 A6 A7]. constructor; cbn [set_done set_awr done awr dead group co]; auto.
      * intros q c i. unfold upd. destruct (Nat.eqb q p); [discriminate|apply A1].
      * intros c k g l i h E X Y. destruct (A2 c k g l i h E X Y) as (B1 & B2 & B3). assert (hp h <> p) by congruence.
        rewrite !upd_other by assumption. auto.
      * intros c k g l E h H. destruct (A3 c k g l E h H) as ([Y1|Y1] & Y2). { split; [now left|exact Y2]. }
        split; [right|exact Y2]. apply right_mono with (s := s); auto.
Qed.

Lemma run_inv ls : forall s s' es, inv s -> polite_run s ls -> run s ls = Some (s', es) ->
  inv s' /\ (forall e, In e es -> proper s' e) /\ (forall p b, done s p = Some b -> done s' p = Some b).
Proof.
  induction ls as [|l r IH]; intros s s' es I P R; cbn [run polite_run] in *.
  - injection R as <- <-. split; [exact I|]. split; [intros e []|auto].
  - destruct P as [P1 P2]. destruct (step s l) as [[s1 e1]|] eqn:S; [|discriminate].
    destruct (run s1 r) as [[s2 e2]|] eqn:R2; [|discriminate]. injection R as <- <-.
    destruct (step_inv _ _ _ _ I P1 S) as (X1 & X2 & X3). destruct (IH _ _ _ X1 P2 R2) as (Y1 & Y2 & Y3).
    split; [exact Y1|]. split; [|auto]. intros e H. apply in_app_or in H. destruct H as [H|H]; [|now apply Y2].
    apply proper_mono with (s := s1); auto.
Qed.

(** ** What the end of a promise does for its awaiter *)

Lemma finish_got c k g l s s' es : finish c k g l s = (s', es) -> In (EGot c k l) es.
Proof.
  unfold finish. destruct k.
  - intros E. injection E as <- <-. now left.
  - destruct g; [destruct (destroy_all _ _) as [s2 e]|]; intros E; injection E as <- <-; now left.
  - destruct g; [|intros E; injection E as <- <-; now left].
    destruct (group s); [intros E; injection E as <- <-; now left|].
    destruct (winner l) as [h|]; [|intros E; injection E as <- <-; now left].
    destruct (hs h) as [|[]|]; try (intros E; injection E as <- <-; now left);
    (destruct (nth_error _ _); [destruct (destroy _ _) as [s2 e]|]; intros E; injection E as <- <-; now left).
Qed.

Lemma in_set i x l h : nth_error l i = Some h -> In (mkh (hp h) (hi h) x) (set_nth i x l).
Proof. intros N. apply nth_error_In with (n := i). now rewrite nth_set_nth, Nat.eqb_refl, N. Qed.

Lemma finish_wakes s s' es c k g l i h ok : inv s -> co s c = Busy k g l -> nth_error l i = Some h -> hs h = HWait ->
  (k = KRace \/ forall j h', j <> i -> nth_error l j = Some h' -> hs h' <> HWait) ->
  step s (LFinish (hp h) ok) = Some (s', es) ->
  exists l', In (EGot c k l') es /\ length l' = length l /\ In (mkh (hp h) (hi h) (HEnd (result_of ok))) l'.
Proof.
  intros [I So] B N W O S. destruct (v_wait _ I _ _ _ _ _ _ B N W) as (A & D & De).
  cbn [step] in S. rewrite D, De, A in S. injection S as S. unfold deliver in S. cbn [set_done set_awr co] in S. rewrite B in S.
  set (l1 := set_nth i (HEnd (result_of ok)) l) in *.
  assert (Len : forall l i x, length (set_nth i x l) = length l).
  { clear. induction l as [|y r IH]; intros [|i] x; cbn; auto. }
  assert (I1 : In (mkh (hp h) (hi h) (HEnd (result_of ok))) l1) by now apply in_set.
  assert (NW : k <> KRace -> existsb is_wait l1 = false).
  { intros K. apply existsb_false. intros h' H. apply In_nth_error in H. destruct H as [j H]. unfold l1 in H. rewrite nth_set_nth in H.
    destruct (Nat.eqb_spec j i) as [J|J].
    - rewrite N in H. injection H as <-. reflexivity.
    - destruct O as [O|O]; [contradiction|]. specialize (O j h' J H). unfold is_wait. destruct (hs h'); congruence. }
  destruct k.
  - rewrite NW in S by discriminate. exists l1. apply finish_got in S. split; [exact S|]. split; [apply Len|exact I1].
  - rewrite NW in S by discriminate. exists l1. apply finish_got in S. split; [exact S|]. split; [apply Len|exact I1].
  - match goal with S : (let (_, _) := ?f in _) = _ |- _ => destruct f as [s2 e2] eqn:F end. injection S as <- <-.
    apply finish_got in F. exists (map detach l1). split; [apply in_or_app; now right|]. split; [rewrite map_length; apply Len|].
    apply in_map_iff. eexists; split; [|exact I1]. reflexivity.
Qed.

Lemma erase_remove (l : list nat) i p : NoDup l -> nth_error l i = Some p -> firstn i l ++ skipn (S i) l = remove Nat.eq_dec p l.
Proof.
  revert i. induction l as [|x r IH]; intros [|i] ND N; try discriminate; cbn in N; inversion ND; subst.
  - injection N as ->. cbn. destruct (Nat.eq_dec p p); [|contradiction]. symmetry. now apply notin_remove.
  - cbn [firstn skipn remove app]. destruct (Nat.eq_dec p x) as [->|]; [apply nth_error_In in N; contradiction|].
    f_equal. now apply IH.
Qed.

Lemma winner_detached i r l h : (forall h', In h' l -> hs h' = HWait) -> nth_error l i = Some h -> r <> RDetached ->
  winner (map detach (set_nth i (HEnd r) l)) = Some (mkh (hp h) (hi h) (HEnd r)).
Proof.
  intros W N R. revert i N. induction l as [|x t IH]; intros [|i] N; cbn in N; try discriminate.
  - injection N as ->. cbn. destruct r; try reflexivity. contradiction.
  - cbn [set_nth map]. unfold winner in *. cbn [find]. unfold detach at 1 2. rewrite (proj2 (is_wait_true x)) by (apply W; now left). cbn [hs].
    apply IH; [|exact N]. intros h' H. apply W. now right.
Qed.

Lemma wait_one_erases s s' es c l i h ok : inv s -> co s c = Busy KRace true l -> nth_error l i = Some h ->
  step s (LFinish (hp h) ok) = Some (s', es) ->
  group s' = if ok then remove Nat.eq_dec (hp h) (group s) else group s.
Proof.
  intros [I So] B N S.
  assert (W : forall h', In h' l -> hs h' = HWait) by (intros h' H; now apply (v_busy _ I _ _ _ _ B h' H)).
  pose proof (W h (nth_error_In _ _ N)) as Wh. destruct (v_wait _ I _ _ _ _ _ _ B N Wh) as (A & D & De).
  destruct (v_busy _ I _ _ _ _ B h (nth_error_In _ _ N)) as (_ & _ & Y). specialize (Y eq_refl eq_refl).
  cbn [step] in S. rewrite D, De, A in S. injection S as S. unfold deliver in S. cbn [set_done set_awr co] in S. rewrite B in S.
  set (u := set_done (hp h) (Some ok) (set_awr (hp h) None s)) in *.
  set (l1 := set_nth i (HEnd (result_of ok)) l) in *.
  destruct (finish c KRace true (map detach l1) (forget l1 u)) as [s2 e2] eqn:F. injection S as <- <-.
  unfold finish in F. destruct (forget_same l1 u) as (_ & _ & Gf & _). rewrite Gf in F. cbn [u set_done set_awr group] in F.
  unfold l1 in F. rewrite winner_detached with (h := h) in F; [|exact W|exact N|destruct ok; discriminate]. cbn [hs hi] in F.
  destruct (group s) as [|p0 gr] eqn:G. { now destruct (hi h). }
  rewrite <- G in *. destruct ok; cbn [result_of] in F.
  - rewrite Y in F. rewrite <- erase_remove with (i := hi h); [|apply (v_grp _ I)|exact Y].
    set (gr' := firstn (hi h) (group s) ++ skipn (S (hi h)) (group s)) in *.
    match type of F with (let (_, _) := destroy ?p ?t in _) = _ => set (v := t) in *; unfold destroy in F end.
    destruct (awr v (hp h)) as [[c' j]|]; [destruct (co v c'); [| |destruct (existsb _ _)]|]; injection F as <- <-; reflexivity.
  - injection F as <- <-. cbn [set_co group]. exact Gf.
Qed.

Lemma destroy_group p s : group (fst (destroy p s)) = group s.
Proof. unfold destroy. destruct (awr s p) as [[c i]|]; [destruct (co s c); [| |destruct (existsb _ _)]|]; reflexivity. Qed.
Lemma destroy_all_group ps : forall s, group (fst (destroy_all ps s)) = group s.
Proof.
  induction ps as [|p r IH]; intros s; [reflexivity|]. cbn [destroy_all]. pose proof (destroy_group p s) as E.
  destruct (destroy p s) as [s1 e1]. specialize (IH s1). destruct (destroy_all r s1). cbn [fst] in *. congruence.
Qed.

Lemma wait_empties s s' es c l i h ok : inv s -> co s c = Busy KGather true l -> nth_error l i = Some h -> hs h = HWait ->
  (forall j h', j <> i -> nth_error l j = Some h' -> hs h' <> HWait) ->
  step s (LFinish (hp h) ok) = Some (s', es) -> group s' = [].
Proof.
  intros [I So] B N W O S. destruct (v_wait _ I _ _ _ _ _ _ B N W) as (A & D & De).
  cbn [step] in S. rewrite D, De, A in S. injection S as S. unfold deliver in S. cbn [set_done set_awr co] in S. rewrite B in S.
  set (l1 := set_nth i (HEnd (result_of ok)) l) in *.
  assert (NW : existsb is_wait l1 = false).
  { apply existsb_false. intros h' H. apply In_nth_error in H. destruct H as [j H]. unfold l1 in H. rewrite nth_set_nth in H.
    destruct (Nat.eqb_spec j i) as [J|J].
    - rewrite N in H. injection H as <-. reflexivity.
    - specialize (O j h' J H). unfold is_wait. destruct (hs h'); congruence. }
  rewrite NW in S. unfold finish in S.
  match type of S with (let (_, _) := destroy_all ?ps ?t in _) = _ => pose proof (destroy_all_group ps t) as G; destruct (destroy_all ps t) as [s2 e] end.
  injection S as <- <-. exact G.
Qed.

(** ** Without [polite] *)
Definition helped (s : state) : Prop := forall c k g l, co s c = Busy k g l -> exists h, In h l /\ hs h = HWait.
Lemma init_helped : helped init.
Proof. intros c k g l H. discriminate H. Qed.
Lemma helped_co s s' : co s' = co s -> helped s -> helped s'.
Proof. intros E H c k g l. rewrite E. apply H. Qed.
Lemma helped_not c v s : (forall k g l, v <> Busy k g l) -> helped s -> helped (set_co c v s).
Proof. intros V H c' k g l. cbn [set_co co]. unfold upd. destruct (Nat.eqb c' c); [intro E; destruct (V _ _ _ E)|apply H]. Qed.
Lemma helped_busy c k g l s : existsb is_wait l = true -> helped s -> helped (set_co c (Busy k g l) s).
Proof.
  intros V H c' k' g' l'. cbn [set_co co]. unfold upd. destruct (Nat.eqb c' c); [|apply H]. intro E. injection E as <- <- <-.
  apply existsb_exists in V as (h & I & W). exists h. split; [exact I|]. now apply is_wait_true.
Qed.
Lemma destroy_helped p s s' es : helped s -> destroy p s = (s', es) -> helped s'.
Proof.
  intros H D. unfold destroy in D. assert (H1 : helped (set_dead p (set_awr p None s))) by exact H.
  destruct (awr s p) as [[c i]|]; [destruct (co s c)|]; try (injection D as <- _; exact H1).
  destruct (existsb is_wait _) eqn:X; injection D as <- _.
  - apply helped_busy; assumption.
  - apply helped_not; [discriminate|exact H1].
Qed.
Lemma destroy_all_helped ps : forall s s' es, helped s -> destroy_all ps s = (s', es) -> helped s'.
Proof.
  induction ps as [|p r IH]; intros s s' es H D; cbn [destroy_all] in D.
  - injection D as <- _. exact H.
  - destruct (destroy p s) as [s1 e1] eqn:D1. destruct (destroy_all r s1) as [s2 e2] eqn:D2. injection D as <- _.
    exact (IH _ _ _ (destroy_helped _ _ _ _ H D1) D2).
Qed.
Lemma finish_helped c k g l s s' es : helped s -> finish c k g l s = (s', es) -> helped s'.
Proof.
  intros H F. unfold finish in F. assert (H1 : helped (set_co c Idle s)) by (apply helped_not; [discriminate|exact H]).
  destruct k.
  - injection F as <- _. exact H1.
  - destruct g; [|injection F as <- _; exact H1].
    destruct (destroy_all _ _) as [s2 e2] eqn:D. injection F as <- _. refine (destroy_all_helped _ _ _ _ _ D). exact H1.
  - destruct g; [|injection F as <- _; exact H1].
    destruct (group s); [injection F as <- _; exact H1|]. destruct (winner l) as [h|]; [|injection F as <- _; exact H1].
    destruct (match hs h with HEnd ROk | HEnd RUnfinished => true | _ => false end) eqn:W.
    + assert (F' : (match nth_error (n :: l0) (hi h) with
         | Some p => let (s2, e) := destroy p (set_group (firstn (hi h) (n :: l0) ++ skipn (S (hi h)) (n :: l0)) (set_co c Idle s)) in (s2, EGot c KRace l :: e)
         | None => (set_co c Idle s, [EGot c KRace l; EUb]) end) = (s', es)) by (destruct (hs h) as [|[]|]; try discriminate W; exact F).
      clear F. destruct (nth_error _ _) as [p|]; [|injection F' as <- _; exact H1].
      destruct (destroy p _) as [s2 e2] eqn:D. injection F' as <- _. refine (destroy_helped _ _ _ _ _ D). exact H1.
    + destruct (hs h) as [|[]|]; try discriminate W; injection F as <- _; exact H1.
Qed.
Lemma forget_helped l s : helped s -> helped (forget l s).
Proof. apply helped_co. apply forget_same. Qed.
Lemma deliver_helped c i r s s' es : helped s -> deliver c i r s = (s', es) -> helped s'.
Proof.
  intros H D. unfold deliver in D. destruct (co s c) as [| |k g l] eqn:C; try (injection D as <- _; exact H).
  destruct k.
  1, 2: destruct (existsb is_wait _) eqn:X; [injection D as <- _; apply helped_busy; assumption|exact (finish_helped _ _ _ _ _ _ _ H D)].
  destruct (finish _ _ _ _ _) as [s1 e1] eqn:F. injection D as <- _. exact (finish_helped _ _ _ _ _ _ _ (forget_helped _ _ H) F).
Qed.
Lemma start_gather_co c l : forall pos s s1 t, start_gather c pos l s = (s1, t) -> co s1 = co s.
Proof.
  induction l as [|[i p] r IH]; intros pos s s1 t G; cbn [start_gather] in G.
  - injection G as <- _. reflexivity.
  - destruct (done s p); [|destruct (awr s p)]; destruct (start_gather _ _ _ _) as [s2 t2] eqn:E in G; injection G as <- _; exact (IH _ _ _ _ E).
Qed.
Lemma gather_helped c k g l s s' es : helped s -> gather c k g l s = (s', es) -> helped s'.
Proof.
  intros H G. unfold gather in G. destruct (start_gather c 0 l s) as [s1 t] eqn:E. apply start_gather_co in E.
  assert (H1 : helped s1) by exact (helped_co _ _ E H).
  destruct (existsb is_wait t) eqn:X; [injection G as <- _; apply helped_busy; assumption|exact (finish_helped _ _ _ _ _ _ _ H1 G)].
Qed.
Lemma stop_helped c g acc i p x s s' es : helped s -> stop c g acc i p x s = (s', es) -> helped s'.
Proof.
  intros H G. unfold stop in G.
  match type of G with context [set_co c (Busy KRace g ?L) ?T] => set (s1 := set_co c (Busy KRace g L) T) in G end.
  assert (H1 : helped s1).
  { apply helped_busy; [|apply forget_helped; exact H]. rewrite existsb_app. cbn. apply orb_true_r. }
  destruct (match awr s1 p with Some (c', j) => deliver c' j RUnfinished (set_awr p None s1) | None => (s1, []) end) as [s2 e2] eqn:E.
  assert (H2 : helped s2).
  { destruct (awr s1 p) as [[c' j]|]; [|injection E as <- _; exact H1]. refine (deliver_helped _ _ _ _ _ _ _ E). exact H1. }
  destruct (co s2 c); try (injection G as <- _; exact H2).
  destruct (finish _ _ _ _ _) as [s3 e3] eqn:F in G. injection G as <- _. refine (finish_helped _ _ _ _ _ _ _ _ F). apply forget_helped. exact H2.
Qed.
Lemma start_race_helped c g l : forall acc s s' es, helped s -> (l <> [] \/ existsb is_wait acc = true) -> start_race c g acc l s = (s', es) -> helped s'.
Proof.
  induction l as [|[i p] r IH]; intros acc s s' es H N G; cbn [start_race] in G.
  - injection G as <- _. apply helped_busy; [|exact H]. destruct N as [N|N]; [destruct (N eq_refl)|exact N].
  - destruct (done s p); [exact (stop_helped _ _ _ _ _ _ _ _ _ H G)|]. destruct (awr s p); [exact (stop_helped _ _ _ _ _ _ _ _ _ H G)|].
    refine (IH _ _ _ _ _ _ G); [exact H|]. right. rewrite existsb_app. cbn. apply orb_true_r.
Qed.
Lemma interrupt_all_helped c ps : forall j s s' es, helped s -> interrupt_all c j ps s = (s', es) -> helped s'.
Proof.
  induction ps as [|p r IH]; intros j s s' es H G; cbn [interrupt_all] in G.
  - injection G as <- _. exact H.
  - destruct (match co s c with Busy _ _ _ => if dead s p then (s, [EUb]) else interrupt c j p s | _ => (s, [EUb]) end) as [s1 e1] eqn:E.
    destruct (interrupt_all c (S j) r s1) as [s2 e2] eqn:E2. injection G as <- _. refine (IH _ _ _ _ _ E2).
    destruct (co s c); try (injection E as <- _; exact H). destruct (dead s p); [injection E as <- _; exact H|].
    unfold interrupt in E. destruct (awr s p) as [[c' i]|]; [|injection E as <- _; exact H].
    destruct (_ && _); refine (deliver_helped _ _ _ _ _ _ _ E); exact H.
Qed.
Lemma step_helped s l s' es : helped s -> step s l = Some (s', es) -> helped s'.
Proof.
  intros H S. destruct l as [c p|c ps|c l|p|c|c order|c|p ok]; cbn [step] in S.
  - destruct (co s c); try discriminate. destruct (dead s p); [discriminate|]. injection S as S. exact (gather_helped _ _ _ _ _ _ _ H S).
  - destruct (co s c); try discriminate. destruct (_ && _); [|discriminate]. injection S as S. exact (gather_helped _ _ _ _ _ _ _ H S).
  - destruct (co s c); try discriminate. destruct l; [discriminate|]. destruct (_ && _); [|discriminate]. injection S as S.
    refine (start_race_helped _ _ _ _ _ _ _ H _ S). left. discriminate.
  - destruct (awr s p); [discriminate|]. destruct (_ || _); [discriminate|]. injection S as <- _. exact H.
  - destruct (co s c); try discriminate. injection S as S. exact (gather_helped _ _ _ _ _ _ _ H S).
  - destruct (co s c); try discriminate. destruct (group s) as [|q t]; [injection S as <- _; exact H|].
    destruct (shuffles _ order) eqn:X; [|discriminate]. injection S as S. refine (start_race_helped _ _ _ _ _ _ _ H _ S).
    left. destruct order; [discriminate X|discriminate].
  - destruct (co s c) as [| |[] [] l]; try discriminate. injection S as S. exact (interrupt_all_helped _ _ _ _ _ _ H S).
  - destruct (done s p); [discriminate|]. destruct (dead s p); [discriminate|]. injection S as S.
    destruct (awr s p) as [[c i]|]; [|injection S as <- _; exact H]. refine (deliver_helped _ _ _ _ _ _ _ S). exact H.
Qed.
Lemma run_helped ls : forall s s' es, helped s -> run s ls = Some (s', es) -> helped s'.
Proof.
  induction ls as [|l r IH]; intros s s' es H R; cbn [run] in R.
  - injection R as <- _. exact H.
  - destruct (step s l) as [[s1 e1]|] eqn:S; [|discriminate]. destruct (run s1 r) as [[s2 e2]|] eqn:R2; [|discriminate]. injection R as <- _.
    exact (IH _ _ _ (step_helped _ _ _ _ H S) R2).
Qed.
