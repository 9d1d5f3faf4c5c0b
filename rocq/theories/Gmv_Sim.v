(** * Every step of the machine is a step of at most one generator *)
From Coq Require Import List Bool Arith Lia.
From Verif Require Import Gen_Model Gen_Spec Gen_Inv Gmv_Model Gmv_Spec Gmv_Proofs.
Import ListNotations.

Section Sim.
Context {Y P E : Type} (mf : Y -> Y) (mfp : P -> P) (nv : bool).
Notation mst := (mst Y P E).
Notation mevent := (mevent Y P E).
Notation mlabel := (mlabel Y P E).
Notation recv := (recv Y P E).
Notation state := (state Y P (xt E)).
Notation event := (event Y P (xt E)).
Notation R := (R nv).

(** No undefined behaviour of an object that is no generator. *)
Definition clean (ev : list mevent) : Prop := forall b, ~ In (Ev None (EBad b)) ev.
Definition SIM (m : mst) (S : nat -> state) (m' : mst) (ev : list mevent) : Prop :=
  exists S', R m' S' /\ clean ev /\
    forall g, (S' g = S g /\ history g ev = []) \/
              exists l, ok (S g) l = true /\ step nv l (S g) = Some (S' g, history g ev).

Lemma clean_map g (l : list event) : clean (map (Ev (Some g)) l).
Proof. intros b H. apply in_map_iff in H as (x & X & _). discriminate X. Qed.

Lemma sim_one m S g lg s' ev' m' ev :
  R m' (upd S g s') -> ok (S g) lg = true -> step nv lg (S g) = Some (s', ev') -> ev = map (Ev (Some g)) ev' -> SIM m S m' ev.
Proof.
  intros HR K St ->. exists (upd S g s'). split; auto. split; [apply clean_map|]. intros h. destruct (Nat.eq_dec h g) as [->|N].
  - right. exists lg. rewrite upd_eq, history_map. auto.
  - left. rewrite upd_ne, history_other by assumption. auto.
Qed.
Lemma sim_none m S m' ev : R m' S -> clean ev -> (forall g, history g ev = []) -> SIM m S m' ev.
Proof. intros HR C H. exists S. split; auto. Qed.

(** A step of generator [g] in object [o]. *)
Lemma sim_local m S o k k' rf g r lg s' ev' m' ev :
  R m S -> robj m o = Some r -> r_gid r = Some g -> lifeof (S g) = klife k -> (rf = Some g \/ rf = None /\ done (S g) = true) ->
  ok (S g) lg = true -> step nv lg (S g) = Some (s', ev') -> L m' o k' rf g s' -> F o g m m' -> lifeof s' = klife k' ->
  (lg = LInitial -> cini m' g = true) -> ev = map (Ev (Some g)) ev' -> SIM m S m' ev.
Proof.
  intros HR Ho Hg Hl Hrf K St HL HF Hl' Hi ->. pose proof (step_keeps nv _ _ _ _ St) as (D & _ & Lz).
  eapply sim_one; eauto. eapply R_local; eauto.
  - destruct Hrf as [?|[? ?]]; auto.
  - eapply step_INV; eauto. apply HR.
  - intros Z. destruct lg; try solve [apply (f_inig _ _ _ _ HF); apply (R_ini _ _ _ HR); rewrite <- Lz by discriminate; exact Z]. auto.
Qed.

(** A generator is created. *)
Lemma sim_new m S o g lg s' ev' m' ev rf :
  R m S -> objs m o = OAbsent -> ccst m g = NotYet ->
  ok (S g) lg = true -> step nv lg (S g) = Some (s', ev') -> L m' o KLive rf g s' -> F o g m m' -> lifeof s' = Live ->
  (rf = Some g \/ rf = None /\ done s' = true) -> lg <> LInitial -> ev = map (Ev (Some g)) ev' -> SIM m S m' ev.
Proof.
  intros HR Ho Hc K St HL HF Hl Hrf Nl ->. pose proof (step_keeps nv _ _ _ _ St) as (_ & _ & Lz).
  assert (Hr : robj m o = None) by (unfold robj; now rewrite Ho).
  eapply sim_one; eauto. eapply R_local0; eauto.
  - intros o' r N H1 H2. destruct (R_loc _ _ _ HR _ _ _ H1 H2) as (k & rf' & _ & B & _).
    rewrite (R_cst _ _ _ HR) in Hc. apply (i_notyet _ _ (R_inv _ _ _ HR g)) in Hc. destruct k; cbn in B; congruence.
  - intros g' N Q. destruct (R_own _ _ _ HR _ _ Q) as (r & Q1 & _). congruence.
  - intros w g' tp Q. destruct (R_sus _ _ _ HR _ _ _ _ Q) as (r & Q1 & _). congruence.
  - eapply step_INV; eauto. apply HR.
  - intros Z. apply (f_inig _ _ _ _ HF), (R_ini _ _ _ HR). rewrite <- Lz by assumption. exact Z.
Qed.

Lemma aw_ws (m : mst) (S : nat -> state) g : R m S -> forall w, aw (S g) = Some w -> exists tp, ws (S g) w = WSusp tp.
Proof. intros HR w H. apply (i_aw _ _ (R_inv _ _ _ HR g)) in H. tauto. Qed.

(** ** What a coroutine does that has a generator *)
Lemma sim_co m S c l m' ev o r :
  R m S -> crecp m c = Some o -> robj m o = Some r -> mok m (MCo c l) = true -> mco nv c l (Some (o, r)) m = Some (m', ev) -> SIM m S m' ev.
Proof.
  intros HR Hc Ho K St.
  destruct (R_own _ _ _ HR _ _ Hc) as (r1 & Q1 & Hg). rewrite Ho in Q1. injection Q1 as <-.
  destruct (R_loc _ _ _ HR _ _ _ Ho Hg) as (k & rf & HL & Hlife & Hrf). pose proof HL as [Lo Lc Lr Lw Lk].
  assert (Er : r = recv_of c rf (S c)) by (rewrite (robj_tag _ _ _ _ Lo) in Ho; congruence).
  assert (Rc : rec (S c) = true) by (rewrite Lr in Hc; destruct (rec (S c)); congruence).
  pose proof (aw_ws _ _ c HR) as Aw. pose proof (R_cst _ _ _ HR c) as Cc.
  assert (Fin : forall lg s' ev' , ok (S c) lg = true -> step nv lg (S c) = Some (s', ev') -> lifecycle lg = false -> (lg = LInitial -> cini m' c = true) ->
            L m' o k rf c s' /\ F o c m m' /\ ev = map (Ev (Some c)) ev' -> SIM m S m' ev).
  { intros lg s' ev' K' St' Lf Hi (B1 & B2 & B3). eapply sim_local; eauto. destruct (step_keeps nv _ _ _ _ St') as (_ & Lg & _). rewrite (Lg Lf). exact Hlife. }
  unfold mco in St. rewrite Cc in St.
  destruct l; try discriminate St; destruct (cst (S c)) eqn:Cs; try discriminate St.
  - (* initial *)
    destruct (m_arrive nv c o _) as [m1 ev1] eqn:MA in St. injection St as <- <-.
    destruct (arrive nv (set_lazy true (S c))) as [s' ev'] eqn:GA.
    assert (HLi : L (set_ini c m) o k rf c (S c)) by (destruct HL; constructor; assumption).
    assert (Pr : sr_lazy true r = recv_of c rf (set_lazy true (S c))) by (subst r; reflexivity).
    destruct (put_L (set_ini c m) o k rf c (S c) (sr_lazy true r) (set_lazy true (S c)) HLi Pr) as [HL1 HF1]; auto.
    destruct (arrive_L nv _ _ _ _ _ _ _ _ _ _ HL1 Rc ltac:(unfold yielding; cbn; now rewrite Cs) Aw MA GA) as (B1 & B2 & B3).
    assert (HF0 : F o c m (set_ini c m)).
    { constructor; cbn -[upd]; auto. - intros g' N. now rewrite upd_ne. - intros _. now rewrite upd_eq. }
    assert (HF : F o c m m1) by (eapply F_trans; [exact HF0|eapply F_trans; eauto]).
    eapply (Fin LInitial s' (EInitial :: ev')); auto.
    + cbn in K |- *. unfold awaited in K. rewrite Hc, Ho in K. rewrite Er in K. cbn in K. apply andb_true_iff in K as [K1 K2]. apply negb_true_iff in K1.
      destruct (lazy (S c)) eqn:Lz; [apply (R_ini _ _ _ HR) in Lz; congruence|exact K2].
    + cbn. now rewrite Cs, Rc, GA.
    + intros _. eapply (f_inig _ _ _ _ (F_trans _ _ _ _ _ HF1 B2)). cbn. now rewrite upd_eq.
    + split; [exact B1|split; [exact HF|now rewrite B3]].
  - (* yield *)
    assert (Ms : m_store y r = match store y (S c) with Some s1 => Some (recv_of c rf s1) | None => None end).
    { rewrite Er. unfold m_store, store. cbn. destruct (res (S c)), (buf (S c)); reflexivity. }
    rewrite Ms in St. destruct (store y (S c)) as [s1|] eqn:Gs.
    2:{ injection St as <- <-. eapply (Fin (LYield y) (S c) [EBad BBuffer]); auto; [cbn; now rewrite Cs, Rc, Gs|discriminate|]. split; [exact HL|split; [apply F_refl|reflexivity]]. }
    assert (Ks : cst s1 = cst (S c) /\ rec s1 = rec (S c) /\ ws s1 = ws (S c) /\ aw s1 = aw (S c)).
    { unfold store in Gs. destruct (res (S c)), (buf (S c)); try discriminate Gs; injection Gs as <-; auto. }
    destruct Ks as (Ks1 & Ks2 & Ks3 & Ks4).
    destruct (put_L m o k rf c (S c) (recv_of c rf s1) s1 HL) as [HL1 HF1]; auto.
    destruct (m_arrive nv c o _) as [m1 ev1] eqn:MA in St. injection St as <- <-.
    destruct (arrive nv s1) as [s' ev'] eqn:GA.
    destruct (arrive_L nv _ _ _ _ _ _ _ _ _ _ HL1 ltac:(congruence) ltac:(unfold yielding; cbn; now rewrite Ks1, Cs) ltac:(rewrite Ks3, Ks4; exact Aw) MA GA) as (B1 & B2 & B3).
    eapply (Fin (LYield y) s' (EYield y :: ev')); auto; [cbn; now rewrite Cs, Rc, Gs, GA|discriminate|].
    split; [exact B1|split; [eapply F_trans; eauto|now rewrite B3]].
  - (* return *)
    assert (Ms : m_store y r = match store y (S c) with Some s1 => Some (recv_of c rf s1) | None => None end).
    { rewrite Er. unfold m_store, store. cbn. destruct (res (S c)), (buf (S c)); reflexivity. }
    rewrite Ms in St. destruct (store y (S c)) as [s1|] eqn:Gs.
    2:{ injection St as <- <-. eapply (Fin (LReturn y) (S c) [EBad BBuffer]); auto; [cbn; now rewrite Cs, Rc, Gs|discriminate|]. split; [exact HL|split; [apply F_refl|reflexivity]]. }
    assert (Ks : cst s1 = cst (S c) /\ rec s1 = rec (S c) /\ ws s1 = ws (S c)).
    { unfold store in Gs. destruct (res (S c)), (buf (S c)); try discriminate Gs; injection Gs as <-; auto. }
    destruct Ks as (Ks1 & Ks2 & Ks3).
    destruct (put_L m o k rf c (S c) (recv_of c rf s1) s1 HL) as [HL1 HF1]; auto.
    injection St as <- <-.
    eapply (Fin (LReturn y) (set_cst Returning s1) [EReturn y]); auto; [cbn; now rewrite Cs, Rc, Gs|discriminate|].
    destruct HL1 as [Lo1 Lc1 Lr1 Lw1 Lk1]. split; [|split; [|reflexivity]].
    + constructor; cbn -[upd]; rewrite ?upd_eq; auto. rewrite Lo1. unfold recv_of, yielding. cbn. now rewrite Ks1, Cs.
    + eapply F_trans; [exact HF1|]. constructor; cbn -[upd]; auto. intros g' N. now rewrite upd_ne.
  - (* throw *)
    destruct (m_final c _) as [m1 ev1] eqn:MA in St. injection St as <- <-.
    destruct (final (set_exc (Some (XUser e)) (S c))) as [s' ev'] eqn:GA.
    destruct (put_L m o k rf c (S c) (sr_exc (Some (XUser e)) r) (set_exc (Some (XUser e)) (S c)) HL) as [HL1 HF1]; auto; [now subst r|].
    destruct (final_L _ _ _ _ _ _ _ _ _ _ HL1 Rc ltac:(unfold yielding; cbn; now rewrite Cs) Aw MA GA) as (B1 & B2 & B3).
    eapply (Fin (LThrow e) s' (EThrow e :: ev')); auto; [cbn; now rewrite Cs, Rc, GA|discriminate|].
    split; [exact B1|split; [eapply F_trans; eauto|now rewrite B3]].
  - (* final *)
    injection St as St. destruct (final (S c)) as [s' ev'] eqn:GA.
    destruct (final_L _ _ _ _ _ _ _ _ _ _ HL Rc ltac:(unfold yielding; now rewrite Cs) Aw St GA) as (B1 & B2 & B3).
    eapply (Fin LFinal s' ev'); auto; [cbn; now rewrite Cs, GA|discriminate].
  - (* kill *)
    match type of St with (let (_, _) := m_kill ?a ?b ?n in _) = _ => destruct (m_kill a b n) as [m2 ev2] eqn:MK end. injection St as <- <-.
    set (x := match r_done r, r_exc r with false, None => Some XUnexpected | _, x => x end) in MK.
    set (s1 := set_aw None (set_exc x (set_done true (set_cst Dead (set_rec false (S c)))))).
    destruct (kill_w (aw (S c)) s1) as [s' ev'] eqn:GK.
    rewrite (put_tag (set_ccst c Dead (set_recp c None m)) _ _ _ _ Lo) in MK.
    match type of MK with m_kill _ _ ?n = _ => set (n1 := n) in MK end.
    assert (HL1 : L n1 o k rf c s1).
    { unfold n1, s1. constructor; cbn -[upd]; rewrite ?upd_eq; auto. f_equal. rewrite Er. unfold recv_of, sr_aw, sr_exc, sr_done, yielding. cbn. now rewrite Cs. }
    assert (HF1 : F o c m n1).
    { unfold n1. constructor; cbn -[upd]; intros; rewrite ?upd_ne by assumption; auto. }
    destruct (kill_L n1 o k rf c s1 (aw (S c)) m2 ev2 s' ev' HL1 Aw ltac:(rewrite Er in MK; exact MK) GK) as (B1 & B2 & B3).
    eapply (Fin LKill s' (EKill :: ev')); auto; [|discriminate|].
    + cbn. rewrite Cs, Rc. unfold s1, x in GK. rewrite Er in GK. cbn in GK. now rewrite GK.
    + split; [exact B1|split; [eapply F_trans; eauto|now rewrite B3]].
  - (* job *)
    injection St as St. destruct (continue (S c)) as [s' ev'] eqn:GA.
    assert (Yf : yielding (S c) = false) by (unfold yielding; now rewrite Cs).
    destruct (continue_L m o k rf c (S c) m' ev s' ev') as (B1 & B2 & B3); auto.
    { now rewrite yf_none. } { congruence. } { apply (i_posted _ _ (R_inv _ _ _ HR c) Cs). }
    eapply (Fin LJob s' ev'); auto; [cbn; now rewrite Cs, Rc, GA|discriminate].
Qed.

(** ** What a coroutine does that has none *)
Lemma sim_detached m S c l m' ev :
  R m S -> crecp m c = None -> mok m (MCo c l) = true -> mco nv c l None m = Some (m', ev) -> SIM m S m' ev.
Proof.
  intros HR Hc K St. pose proof (R_cst _ _ _ HR c) as Cc. pose proof (R_rec _ _ _ HR c) as Rc. rewrite Hc in Rc. cbn in Rc.
  assert (Fin : forall lg s' ev' , ok (S c) lg = true -> step nv lg (S c) = Some (s', ev') -> lg <> LInitial \/ cini m' c = true ->
            ccst m c <> Dead -> (forall o, objs m' o = objs m o) -> (forall h, crecp m' h = crecp m h) -> (forall w, mws m' w = mws m w) -> ub m' = ub m ->
            (forall h, h <> c -> ccst m' h = ccst m h) -> ccst m' c = cst s' -> (forall h, cini m h = true -> cini m' h = true) ->
            rec s' = false -> ws s' = ws (S c) -> ev = map (Ev (Some c)) ev' -> SIM m S m' ev).
  { intros lg s' ev' K' St' Hi E0 E1 E2 E3 E4 E5 E6 E7 E8 E9 ->. eapply sim_one; eauto. eapply R_co; eauto.
    - intros Z. destruct Hi as [Hi|Hi]; auto. destruct (step_keeps nv _ _ _ _ St') as (_ & _ & Lz). apply E7, (R_ini _ _ _ HR). rewrite <- Lz; auto.
    - eapply step_INV; eauto. apply HR. }
  assert (Rp : forall h, upd (crecp m) c None h = crecp m h) by (intros h; unfold upd; destruct (Nat.eqb_spec h c); congruence).
  unfold mco in St. rewrite Cc in St.
  destruct l; try discriminate St; destruct (cst (S c)) eqn:Cs; try discriminate St.
  all: cbn -[upd] in St; try (unfold m_final in St; rewrite Hc in St); injection St as <- <-.
  all: [> eapply (Fin LInitial (set_cst Dead (S c)) [EDiscard])
        | eapply (Fin (LYield y) (set_cst Dead (S c)) [ELost y; EDiscard])
        | eapply (Fin (LReturn y) (set_cst Returning (S c)) [ELost y])
        | eapply (Fin (LThrow e) (set_cst Leaked (S c)) [EThrow e; EEscape e])
        | eapply (Fin LFinal (set_cst Dead (set_rec false (S c))) [EFinal])
        | eapply (Fin LKill (set_cst Dead (set_rec false (S c))) [EKill])
        | eapply (Fin LJob (set_cst Dead (S c)) [EDiscard]) ].
  all: try solve [cbn; rewrite ?Cs, ?Rc; unfold final; rewrite ?Rc; reflexivity].
  all: try solve [left; discriminate].
  all: try solve [cbn -[upd]; intros; rewrite ?upd_eq; rewrite ?upd_ne by assumption; auto; try congruence].
  - cbn in K |- *. rewrite Hc in K. apply andb_true_iff in K as [K1 _]. apply negb_true_iff in K1.
    destruct (lazy (S c)) eqn:Lz; [apply (R_ini _ _ _ HR) in Lz; congruence|].
    destruct (aw (S c)) as [w|] eqn:A; [|reflexivity]. apply (i_aw _ _ (R_inv _ _ _ HR c)) in A. destruct A as [A _]. congruence.
  - intros h. cbn -[upd]. unfold upd. destruct (h =? c); auto.
Qed.

(** ** What is done to an object *)
Lemma frame_eq (m : mst) (S : nat -> state) g : R m S -> cframe m g = frame (S g).
Proof. intros HR. unfold cframe, frame. now rewrite (R_cst _ _ _ HR). Qed.

(** ~generator_receiver and the first lines of the move assignment *)
Lemma release_gone (m : mst) (S : nat -> state) o r g k rf m1 m2 ev2 :
  R m S -> robj m o = Some r -> r_gid r = Some g -> L m o k rf g (S g) -> (rf = Some g \/ rf = None /\ done (S g) = true) -> lifeof (S g) = Dying ->
  (objs m1 = objs m /\ ccst m1 = ccst m /\ cini m1 = cini m /\ mws m1 = mws m /\ ub m1 = ub m) ->
  (forall h, h <> g -> crecp m1 h = crecp m h) -> crecp m1 g = None -> release r m1 = (m2, ev2) ->
  exists s' ev', step nv LDestroy2 (S g) = Some (s', EDestroy :: ev') /\ ev2 = map (Ev (Some g)) ev' /\ R (set_obj o OGone m2) (upd S g s').
Proof.
  intros HR Ho Hg HL Hrf Hlf (E1 & E2 & E3 & E4 & E5) E6 E7 Rel. pose proof HL as [Lo Lc Lr Lw Lk].
  assert (Er : r = recv_of g rf (S g)) by (rewrite (robj_tag _ _ _ _ Lo) in Ho; congruence).
  pose proof (R_inv _ _ _ HR g) as I.
  assert (G0 : negb (done (S g)) && negb (frame (S g)) = false).
  { destruct (done (S g)) eqn:D; [reflexivity|]. cbn. assert (Q : rec (S g) = true) by (apply (i_live _ _ I); auto; unfold live; now rewrite Hlf).
    apply (i_rec _ _ I) in Q as (_ & _ & Q). unfold frame. destruct Q as [->|[->|[->| ->]]]; reflexivity. }
  set (s1 := if done (S g) then S g else set_rec false (S g)).
  assert (F1 : rec s1 = false).
  { unfold s1. destruct (done (S g)) eqn:D; [|reflexivity]. destruct (rec (S g)) eqn:Q; [|reflexivity]. apply (i_rec _ _ I) in Q. destruct Q as (_ & Q & _). congruence. }
  assert (F2 : lifeof s1 = Dying /\ aw s1 = aw (S g) /\ ws s1 = ws (S g) /\ cst s1 = cst (S g) /\ lazy s1 = lazy (S g)) by (unfold s1; destruct (done (S g)); auto).
  destruct F2 as (F2 & F3 & F4 & F5 & F6).
  assert (Fy : yielding s1 = yielding (S g)) by (unfold yielding; now rewrite F5).
  assert (St : exists s' ev', step nv LDestroy2 (S g) = Some (s', EDestroy :: ev') /\
     (s', ev') = (let (s2, ev2) := if yielding s1 then (set_cst Dead s1, [EDiscard]) else (s1, []) in
                  let (s3, ev3) := kill_w (aw s2) (set_aw None s2) in (set_life Gone s3, ev2 ++ ev3))).
  { cbn. rewrite Hlf, G0. fold s1. destruct (yielding s1).
    - destruct (kill_w (aw (set_cst Dead s1)) (set_aw None (set_cst Dead s1))) as [s3 ev3] eqn:Q. eauto.
    - destruct (kill_w (aw s1) (set_aw None s1)) as [s3 ev3] eqn:Q. eauto. }
  destruct St as (s' & ev' & St & Eq). exists s', ev'. split; [exact St|].
  assert (I' : INV nv s') by (eapply step_INV; eauto; reflexivity).
  pose proof (aw_ws _ _ g HR) as Aw.
  unfold release in Rel. rewrite Er in Rel. cbn in Rel.
  assert (Em : ev2 = map (Ev (Some g)) ev' /\ m2 = (let a := if yielding (S g) then set_ccst g Dead m1 else m1 in match aw (S g) with Some w => set_mw w MKilled a | None => a end)).
  { rewrite Fy in Eq. destruct (yielding (S g)); cbn in Eq, Rel; rewrite F3 in Eq; destruct (aw (S g)); cbn in Eq, Rel; injection Eq as -> ->; injection Rel as <- <-; auto. }
  destruct Em as [Em1 Em2]. split; [exact Em1|].
  assert (Es : cst s' = (if yielding (S g) then Dead else cst (S g)) /\ rec s' = false /\ lazy s' = lazy (S g) /\ (forall w, ws s' w = match aw (S g) with Some v => if w =? v then WKilled else ws (S g) w | None => ws (S g) w end)).
  { rewrite Fy in Eq. destruct (yielding (S g)); cbn in Eq; rewrite F3 in Eq; destruct (aw (S g)); cbn in Eq; injection Eq as -> _; cbn; rewrite ?F4, ?F5; auto. }
  destruct Es as (Es1 & Es2 & Es3 & Es4).
  assert (Gm : forall w, mws m2 w = match aw (S g) with Some v => if w =? v then MKilled else mws m w | None => mws m w end).
  { intros w. rewrite Em2. destruct (yielding (S g)), (aw (S g)); cbn; unfold upd; now rewrite E4. }
  eapply R_gone; eauto.
  - cbn -[upd]. now rewrite upd_eq.
  - intros o' N. cbn -[upd]. rewrite upd_ne by assumption. rewrite Em2. destruct (yielding (S g)), (aw (S g)); cbn; now rewrite E1.
  - intros h N. cbn. rewrite Em2. destruct (yielding (S g)), (aw (S g)); cbn -[upd]; rewrite ?upd_ne by assumption; now rewrite E2.
  - cbn. rewrite Es1, Em2. destruct (yielding (S g)), (aw (S g)); cbn -[upd]; rewrite ?upd_eq; auto; now rewrite E2.
  - intros h N. cbn. rewrite Em2. destruct (yielding (S g)), (aw (S g)); cbn; auto.
  - cbn. rewrite Em2. destruct (yielding (S g)), (aw (S g)); cbn; auto.
  - intros h. cbn. rewrite Em2. destruct (yielding (S g)), (aw (S g)); cbn; now rewrite E3.
  - intros w. cbn. rewrite Gm. destruct (aw (S g)) as [v|] eqn:A.
    + destruct (Nat.eqb_spec w v) as [->|N].
      * right. split; auto. destruct (Aw v eq_refl) as (tp & W). exists tp. now apply Lw.
      * left. split; auto. intros tp Q. apply Lw in Q. apply (i_ws _ _ I) in Q. congruence.
    + left. split; auto. intros tp Q. apply Lw in Q. apply (i_ws _ _ I) in Q. congruence.
  - intros w. cbn. rewrite Gm, Es4. destruct (aw (S g)) as [v|]; [|apply Lk]. destruct (w =? v); auto.
  - cbn. rewrite Em2. destruct (yielding (S g)), (aw (S g)); cbn; exact E5.
Qed.

(** *** An object that is no generator any more *)
Lemma obj_tag (m : mst) o r : robj m o = Some r -> exists k, objs m o = otag k r.
Proof.
  unfold robj. destruct (objs m o); intros H; try discriminate H; injection H as ->; [exists KLive|exists KDying|exists KAssign]; reflexivity.
Qed.
Lemma R_put_husk (m : mst) (S : nat -> state) o r k r' :
  R m S -> robj m o = Some r -> r_gid r = None -> r_gid r' = None -> r_done r' = true -> r_aw r' = None -> r_yf r' = None ->
  R (set_obj o (otag k r') m) S.
Proof.
  intros HR Ho Hg G1 G2 G3 G4. pose proof HR as [A1 A2 A3 A4 A5 A6 A7 A8 A9 A10 A11].
  set (m' := set_obj o (otag k r') m).
  assert (O1 : robj m' o = Some r') by (eapply robj_tag; unfold m'; cbn -[upd]; apply upd_eq).
  assert (O2 : forall x, x <> o -> objs m' x = objs m x) by (intros x N; unfold m'; cbn -[upd]; now rewrite upd_ne).
  assert (G : forall x y h, robj m' x = Some y -> r_gid y = Some h -> x <> o /\ robj m x = Some y).
  { intros x y h H1 H2. destruct (Nat.eq_dec x o) as [->|N].
    - rewrite O1 in H1. injection H1 as <-. congruence.
    - split; auto. now rewrite (robj_obj m m' x (O2 _ N)) in H1. }
  assert (B : forall x y h, robj m x = Some y -> r_gid y = Some h -> robj m' x = Some y).
  { intros x y h H1 H2. rewrite (robj_obj m m' x); auto. apply O2. intros ->. congruence. }
  constructor; auto.
  - intros x y h H1 H2. destruct (G _ _ _ H1 H2) as [N H3]. destruct (A2 _ _ _ H3 H2) as (k1 & rf & [Lo Lc Lr Lw Lk] & C). exists k1, rf. split; auto.
    constructor; auto. now rewrite O2.
  - intros x1 x2 y1 y2 h H1 H2 H3 H4. destruct (G _ _ _ H1 H2), (G _ _ _ H3 H4). eauto.
  - intros h x Q. destruct (A6 h x Q) as (y & Q1 & Q2). eauto.
  - intros w x h tp Q. destruct (A7 _ _ _ _ Q) as (y & Q1 & Q2). eauto.
  - intros x y H1 H2. destruct (Nat.eq_dec x o) as [->|N].
    + rewrite O1 in H1. injection H1 as <-. auto.
    + rewrite (robj_obj m m' x (O2 _ N)) in H1. eauto.
Qed.
Lemma history_none g (l : list event) : history g (map (Ev None) l : list mevent) = [].
Proof. induction l; cbn; auto. Qed.
Lemma clean_none (l : list event) : (forall b, ~ In (EBad b) l) -> clean (map (Ev None) l).
Proof. intros N b H. apply in_map_iff in H as (x & X & I). injection X as ->. eapply N; eauto. Qed.
Lemma husk_await (m : mst) (S : nat -> state) o r w p m' ev :
  R m S -> robj m o = Some r -> r_gid r = None -> m_await_resume o w (Some p) m = (m', ev) ->
  exists x, R m' S /\ ev = map (Ev None) x /\ forall b, ~ In (EBad b) x.
Proof.
  intros HR Ho Hg S0. destruct (R_husk _ _ _ HR _ _ Ho Hg) as (Hd & Ha & Hy). unfold m_await_resume in S0. rewrite Ho in S0.
  destruct (obj_tag _ _ _ Ho) as (k & Hk).
  destruct (r_exc r) as [e|] eqn:Ex.
  { injection S0 as <- <-. exists [EResult w (RExc e)]. rewrite Hg. split; [|split; [reflexivity|]].
    - rewrite (put_tag _ _ _ _ _ Hk). eapply R_put_husk; eauto.
    - intros b [H|[]]. discriminate H. }
  destruct (r_res r) as [y|] eqn:Er.
  - cbn in S0. rewrite Hy in S0. injection S0 as <- <-.
    exists (match r_pushed r with Some q => [EOverwrite q] | None => [] end ++ [EResult w (RVal y)]).
    rewrite Hg. split; [|split; [reflexivity|]].
    + rewrite (put_tag _ _ _ _ _ Hk). eapply R_put_husk; eauto.
    + intros b H. destruct (r_pushed r); cbn in H; intuition discriminate.
  - injection S0 as <- <-. exists [EResult w (RExc XVoid)]. rewrite Hg. split; [|split; [reflexivity|]].
    + exact HR.
    + intros b [H|[]]. discriminate H.
Qed.

(** *** The object of a generator *)
Lemma sim_ob m (S : nat -> state) o l m' ev :
  R m S -> mok m (MOb o l) = true -> mstep mf mfp nv (MOb o l) m = Some (m', ev) -> SIM m S m' ev.
Proof.
  intros HR K St. unfold mstep in St. rewrite (R_ub _ _ _ HR) in St.
  destruct (objs m o) as [|r|r|r|] eqn:Oo; try (destruct l; discriminate St).
  - (* alive *)
    assert (Ho : robj m o = Some r) by (unfold robj; now rewrite Oo).
    destruct (r_gid r) as [g|] eqn:Hg.
    + destruct (R_loc _ _ _ HR _ _ _ Ho Hg) as (k & rf & HL & Hlife & Hrf). pose proof HL as [Lo Lc Lr Lw Lk].
      assert (k = KLive) by (rewrite Oo in Lo; destruct k; cbn in Lo; congruence). subst k.
      assert (Er : r = recv_of g rf (S g)) by (rewrite Oo in Lo; cbn in Lo; congruence).
      pose proof (R_inv _ _ _ HR g) as I.
      assert (Fin : forall lg s' ev', ok (S g) lg = true -> step nv lg (S g) = Some (s', ev') -> lifecycle lg = false -> lg <> LInitial ->
            L m' o KLive rf g s' /\ F o g m m' /\ ev = map (Ev (Some g)) ev' -> SIM m S m' ev).
      { intros lg s' ev' K' St' Lf Hi (B1 & B2 & B3). destruct (step_keeps nv _ _ _ _ St') as (_ & Lg & _).
        eapply (sim_local m S o KLive KLive rf g r lg s' ev'); eauto; try congruence. rewrite (Lg Lf). exact Hlife. }
      assert (Can : forall t, m_cancel o t r m = (m, map (Ev (Some g)) (snd (cancel t (S g)))) /\ cancel t (S g) = (S g, snd (cancel t (S g)))).
      { intros t. unfold m_cancel, cancel. rewrite Er. cbn. destruct (done (S g)) eqn:D; [auto|].
        destruct Hrf as [->|[_ Hrf]]; [|congruence]. rewrite (frame_eq _ _ _ HR).
        assert (Q : rec (S g) = true) by (apply (i_live _ _ I); auto; unfold live; now rewrite Hlife).
        assert (Fr : frame (S g) = true) by (apply (i_rec _ _ I) in Q as (_ & _ & Q); unfold frame; destruct Q as [->|[->|[->| ->]]]; reflexivity).
        rewrite Fr, Lr, Q, Nat.eqb_refl. auto. }
      destruct l; try discriminate St.
      * (* await *)
        destruct (mws m w) eqn:Mw; try discriminate St.
        assert (Ww : ws (S g) w = WIdle).
        { destruct (ws (S g) w) eqn:W; [reflexivity|apply Lw in W; congruence|apply Lk in W; congruence]. }
        assert (Rd : rready r = ready (S g)) by (rewrite Er; reflexivity). rewrite Rd in St.
        destruct (ready (S g)) eqn:Re.
        -- destruct (m_await_resume o w (Some p) m) as [m1 ev1] eqn:MA. injection St as <- <-.
           destruct (await_resume w (Some p) (S g)) as [s1 x1] eqn:GA.
           destruct (await_resume_L _ _ _ _ _ _ _ _ _ _ _ _ HL MA GA) as (B1 & B2 & B3).
           eapply (Fin (LAwait w p) s1 (EAwait w p :: x1)); auto; [|discriminate|]. { cbn. now rewrite Ww, Hlife, Re, GA. } split; [exact B1|split; [exact B2|rewrite B3; reflexivity]].
        -- rewrite Er in St. cbn in St. destruct (aw (S g)) as [v|] eqn:Aw.
           { injection St as <- <-. eapply (Fin (LAwait w p) (S g) [EReject w]); auto; [|discriminate|].
             - cbn. now rewrite Ww, Hlife, Re, Aw.
             - split; [exact HL|split; [apply F_refl|reflexivity]]. }
           assert (Nd : done (S g) = false) by (unfold ready in Re; destruct (done (S g)); auto; now rewrite orb_true_r in Re).
           destruct Hrf as [->|[_ Hrf]]; [|congruence].
           assert (Rc : rec (S g) = true) by (apply (i_live _ _ I); auto; unfold live; now rewrite Hlife).
           set (push := lazy (S g) && negb (is_some (pushed (S g)))) in *.
           set (s1 := set_aw (Some w) (set_w w (WSusp (if push then None else Some p)) (S g))).
           set (s2 := if push then set_pushed (Some p) s1 else s1).
           set (m1 := set_mw w (MSusp o g (if push then None else Some p)) m) in *.
           assert (Ks : cst s2 = cst (S g) /\ rec s2 = true /\ ws s2 = upd (ws (S g)) w (WSusp (if push then None else Some p)) /\ lazy s2 = lazy (S g)) by (unfold s2, s1; destruct push; auto).
           destruct Ks as (Ks1 & Ks2 & Ks3 & Ks4).
           assert (Hrv : forall z, sr_yf z (sr_aw (Some w) (if push then sr_pushed (Some p) (recv_of g (Some g) (S g)) else recv_of g (Some g) (S g))) =
                         sr_yf z (recv_of g (Some g) s2)) by (intros z; unfold s2, s1; destruct push; reflexivity).
           assert (Hws : forall v tp, ws s2 v = WSusp tp <-> mws m1 v = MSusp o g tp).
           { intros v tp. rewrite Ks3. unfold m1. cbn -[upd]. unfold upd. destruct (Nat.eqb_spec v w) as [->|N]; [split; intros Q; congruence|apply Lw]. }
           assert (Hkl : forall v, ws s2 v = WKilled -> mws m1 v = MKilled).
           { intros v. rewrite Ks3. unfold m1. cbn -[upd]. unfold upd. destruct (Nat.eqb_spec v w) as [->|N]; [discriminate|apply Lk]. }
           assert (HF1 : forall x, F o g m (set_obj o x m1)).
           { intros x. constructor; cbn -[upd]; auto. - intros o' N. now rewrite upd_ne. - intros v. unfold upd. destruct (Nat.eqb_spec v w) as [->|N]; [|auto]. right. split; [now left|]. right. right. eexists. reflexivity. }
           destruct (yielding (S g)) eqn:Ye.
           ++ assert (Pt : put o (sr_yf None (sr_aw (Some w) (if push then sr_pushed (Some p) (recv_of g (Some g) (S g)) else recv_of g (Some g) (S g)))) m1
                         = set_obj o (OLive (sr_yf None (recv_of g (Some g) s2))) m1).
              { rewrite Hrv. exact (put_tag m1 o KLive _ _ Lo). }
              rewrite Pt in St. destruct (m_continue g _) as [m2 ev2] eqn:MC in St. injection St as <- <-.
              destruct (continue s2) as [s3 x3] eqn:GC.
              assert (Pu : pushed s2 <> None).
              { pose proof (i_yield _ _ I) as J. unfold yielding in Ye. destruct (cst (S g)) eqn:Cs; try discriminate Ye. destruct (J eq_refl) as [_ J2].
                unfold ready in Re. destruct (res (S g)) eqn:Rs; [now rewrite orb_true_r in Re|].
                destruct (lazy (S g)) eqn:Lz; [|exfalso; now apply J2]. unfold s2, push. cbn. destruct (pushed (S g)) eqn:Ps; cbn; [now rewrite Ps|discriminate]. }
              destruct (continue_L (set_obj o (OLive (sr_yf None (recv_of g (Some g) s2))) m1) o KLive (Some g) g s2 m2 ev2 s3 x3) as (B1 & B2 & B3); auto.
              { cbn -[upd]. now rewrite upd_eq. } { cbn. now rewrite Lc, Ks1. } { cbn. now rewrite Lr, Rc. }
              eapply (Fin (LAwait w p) s3 (EAwait w p :: x3)); auto; [|discriminate|].
              ** cbn. rewrite Ww, Hlife, Re, Aw. fold push. fold s1. fold s2. now rewrite Ye, GC.
              ** split; [exact B1|split; [eapply F_trans; [apply HF1|exact B2]|rewrite B3; reflexivity]].
           ++ assert (Pt : put o (sr_aw (Some w) (if push then sr_pushed (Some p) (recv_of g (Some g) (S g)) else recv_of g (Some g) (S g))) m1
                         = set_obj o (OLive (recv_of g (Some g) s2)) m1).
              { rewrite (put_tag m1 o KLive _ _ Lo). unfold s2, s1. destruct push; reflexivity. }
              rewrite Pt in St. injection St as <- <-. eapply (Fin (LAwait w p) s2 [EAwait w p]); auto; [|discriminate|].
              ** cbn. rewrite Ww, Hlife, Re, Aw. fold push. fold s1. fold s2. now rewrite Ye.
              ** split; [|split; [apply HF1|reflexivity]]. constructor; auto.
                 --- cbn -[upd]. now rewrite upd_eq.
                 --- cbn. now rewrite Lc, Ks1.
                 --- cbn. now rewrite Lr, Rc, Ks2.
      * (* get *)
        rewrite Er in St. cbn in St.
        assert (K' : ok (S g) LGet = true).
        { cbn in K |- *. rewrite Ho, Er in K. cbn in K. destruct (yielding (S g)); exact K. }
        destruct (exc (S g)) as [e|] eqn:Ex.
        { injection St as <- <-. eapply (Fin LGet (S g) [EGet (RExc e)]); auto; [cbn; now rewrite Hlife, Ex|discriminate|split; [exact HL|split; [apply F_refl|reflexivity]]]. }
        destruct (res (S g)) as [y|] eqn:Rs.
        { injection St as <- <-. eapply (Fin LGet (get_result (S g)) [EGet (RVal y)]); auto; [cbn; now rewrite Hlife, Ex, Rs|discriminate|].
          destruct (put_L m o KLive rf g (S g) (rget_result (recv_of g rf (S g))) (get_result (S g)) HL) as [B1 B2]; auto. }
        cbn in K'. rewrite Ex, Rs in K'. discriminate K'.
      * (* cancel *)
        destruct (Can t) as [C1 C2]. rewrite C1 in St. injection St as <- <-. eapply (Fin (LCancel t) (S g)); auto; [cbn; rewrite Hlife, C2; reflexivity|discriminate|].
        split; [exact HL|split; [apply F_refl|reflexivity]].
      * (* destroy *)
        destruct (Can ct_all) as [C1 C2]. rewrite C1 in St. injection St as <- <-.
        eapply sim_local with (k := KLive) (k' := KDying) (lg := LDestroy1) (s' := set_life Dying (S g)); eauto.
        -- cbn. rewrite Hlife, C2. reflexivity.
        -- constructor; cbn -[upd]; rewrite ?upd_eq; auto. now rewrite Er.
        -- constructor; cbn -[upd]; auto. intros o' N. now rewrite upd_ne.
        -- discriminate.
    + (* moved from *)
      destruct (R_husk _ _ _ HR _ _ Ho Hg) as (Hd & Ha & Hy).
      assert (Can : forall t, m_cancel o t r m = (m, [])) by (intros t; unfold m_cancel; now rewrite Hd).
      destruct l; try discriminate St.
      * destruct (mws m w); try discriminate St. unfold rready in St. rewrite Hd, orb_true_r in St.
        destruct (m_await_resume o w (Some p) m) as [m1 ev1] eqn:MA. injection St as <- <-.
        destruct (husk_await _ _ _ _ _ _ _ _ HR Ho Hg MA) as (x & B1 & -> & B3). rewrite ?Hg.
        change (Ev None (EAwait w p) :: map (Ev None) x) with (map (Ev None) (EAwait w p :: x) : list mevent).
        apply sim_none; auto; [|intros; apply history_none]. apply clean_none. intros b [H|H]; [discriminate H|eapply B3; eauto].
      * cbn in K. rewrite Ho in K. destruct (r_exc r) as [e|] eqn:Ex.
        { injection St as <- <-. rewrite ?Hg. apply sim_none; auto. intros b [H|[]]. discriminate H. }
        destruct (r_res r) as [y|] eqn:Rs; [|discriminate K]. injection St as <- <-. rewrite ?Hg. apply sim_none; auto.
        -- rewrite (put_tag m o KLive r _ Oo). eapply R_put_husk; eauto.
        -- intros b [H|[]]. discriminate H.
      * rewrite Can in St. injection St as <- <-. apply sim_none; auto. intros b [].
      * rewrite Can in St. injection St as <- <-. apply sim_none; auto; [|intros b []]. exact (R_put_husk _ _ _ _ KDying r HR Ho Hg Hg Hd Ha Hy).
  - (* in its destructor *)
    assert (Ho : robj m o = Some r) by (unfold robj; now rewrite Oo).
    destruct l; try discriminate St.
    destruct (r_gid r) as [g|] eqn:Hg.
    + destruct (R_loc _ _ _ HR _ _ _ Ho Hg) as (k & rf & HL & Hlife & Hrf). pose proof HL as [Lo Lc Lr Lw Lk].
      assert (k = KDying) by (rewrite Oo in Lo; destruct k; cbn in Lo; congruence). subst k. cbn in Hlife.
      assert (Er : r = recv_of g rf (S g)) by (rewrite Oo in Lo; cbn in Lo; congruence).
      pose proof (R_inv _ _ _ HR g) as I.
      assert (Dn : done (S g) = true -> rec (S g) = false).
      { intros D. destruct (rec (S g)) eqn:Q; [|reflexivity]. apply (i_rec _ _ I) in Q as (_ & Q & _). congruence. }
      assert (X : exists m1, (if r_done r then Some m else match r_ref r with Some c => if cframe m c then Some (unref o c m) else None | None => None end) = Some m1 /\
          (objs m1 = objs m /\ ccst m1 = ccst m /\ cini m1 = cini m /\ mws m1 = mws m /\ ub m1 = ub m) /\ (forall h, h <> g -> crecp m1 h = crecp m h) /\ crecp m1 g = None).
      { rewrite Er. cbn. destruct (done (S g)) eqn:D.
        - exists m. repeat split; auto. rewrite Lr, (Dn eq_refl). reflexivity.
        - destruct Hrf as [->|[_ Hrf]]; [|congruence]. rewrite (frame_eq _ _ _ HR).
          assert (Q : rec (S g) = true) by (apply (i_live _ _ I); auto; unfold live; now rewrite Hlife).
          assert (Fr : frame (S g) = true) by (apply (i_rec _ _ I) in Q as (_ & _ & Q); unfold frame; destruct Q as [->|[->|[->| ->]]]; reflexivity).
          rewrite Fr. eexists. split; [reflexivity|]. unfold unref. rewrite Lr, Q, Nat.eqb_refl. cbn -[upd]. repeat split; auto.
          + intros h N. now rewrite upd_ne.
          + now rewrite upd_eq. }
      destruct X as (m1 & X1 & X2 & X3 & X4). rewrite X1 in St. destruct (release r m1) as [m2 ev2] eqn:Rel. injection St as <- <-.
      destruct (release_gone m S o r g KDying rf m1 m2 ev2 HR Ho Hg HL Hrf Hlife X2 X3 X4 Rel) as (s' & ev' & B1 & -> & B3).
      eapply (sim_one m S g LDestroy2 s' (EDestroy :: ev')); eauto.
    + destruct (R_husk _ _ _ HR _ _ Ho Hg) as (Hd & Ha & Hy). rewrite Hd in St. unfold release in St. rewrite Hy, Ha in St. cbn in St. injection St as <- <-. rewrite ?Hg.
      apply sim_none; auto. * eapply R_drop; eauto. * intros b [H|[]]. discriminate H.
Qed.

(** *** The rest *)
Theorem sim_step m (S : nat -> state) l m' ev :
  R m S -> mok m l = true -> mstep mf mfp nv l m = Some (m', ev) -> SIM m S m' ev.
Proof.
  intros HR K St. destruct l as [o g|o g y|c l|o l|w|w t|o o'|o'|o' o].
  - (* new *)
    unfold mstep in St. rewrite (R_ub _ _ _ HR) in St. destruct (objs m o) eqn:Oo; try discriminate St. destruct (ccst m g) eqn:Cg; try discriminate St. injection St as <- <-.
    pose proof (R_cst _ _ _ HR g) as Cs. rewrite Cg in Cs. symmetry in Cs. pose proof (i_notyet _ _ (R_inv _ _ _ HR g) Cs) as Ab.
    destruct (i_absent _ _ (R_inv _ _ _ HR g) Ab) as (I1 & I2 & I3 & I4 & I5 & I6 & I7 & I8 & I9).
    eapply (sim_new m S o g LStart (set_life Live (set_cst Running (set_rec true (S g)))) []) with (rf := Some g); eauto.
    + cbn. now rewrite Ab, Cs.
    + constructor; cbn -[upd]; rewrite ?upd_eq; auto.
      * unfold recv_of, yielding. cbn. now rewrite I1, I2, I3, I4, I5, I6, I7.
      * intros w tp. split; intros Q.
        -- apply (i_ws _ _ (R_inv _ _ _ HR g)) in Q. congruence.
        -- destruct (R_sus _ _ _ HR _ _ _ _ Q) as (r & Q1 & _). unfold robj in Q1. now rewrite Oo in Q1.
      * intros w. apply (R_kill _ _ _ HR).
    + constructor; cbn -[upd]; intros; rewrite ?upd_ne by assumption; auto.
    + discriminate.
  - (* noop *)
    unfold mstep in St. rewrite (R_ub _ _ _ HR) in St. destruct (objs m o) eqn:Oo; try discriminate St. destruct (ccst m g) eqn:Cg; try discriminate St. injection St as <- <-.
    pose proof (R_cst _ _ _ HR g) as Cs. rewrite Cg in Cs. symmetry in Cs. pose proof (i_notyet _ _ (R_inv _ _ _ HR g) Cs) as Ab.
    destruct (i_absent _ _ (R_inv _ _ _ HR g) Ab) as (I1 & I2 & I3 & I4 & I5 & I6 & I7 & I8 & I9).
    eapply (sim_new m S o g (LNoop y) (set_life Live (set_done true (set_cst Dead (set_vals (Some y) None (S g))))) [EReturn y; EFinal]) with (rf := None); eauto.
    + cbn. now rewrite Ab, Cs.
    + constructor; cbn -[upd]; rewrite ?upd_eq; auto.
      * unfold recv_of, yielding. cbn. now rewrite I3, I5, I6, I7.
      * rewrite I9. pose proof (R_rec _ _ _ HR g) as Q. rewrite I9 in Q. destruct (crecp m g); [discriminate Q|reflexivity].
      * intros w tp. split; intros Q.
        -- apply (i_ws _ _ (R_inv _ _ _ HR g)) in Q. congruence.
        -- destruct (R_sus _ _ _ HR _ _ _ _ Q) as (r & Q1 & _). unfold robj in Q1. now rewrite Oo in Q1.
      * intros w. apply (R_kill _ _ _ HR).
    + constructor; cbn -[upd]; intros; rewrite ?upd_ne by assumption; auto.
    + discriminate.
  - (* coroutine *)
    unfold mstep in St. rewrite (R_ub _ _ _ HR) in St. destruct (crecp m c) as [o|] eqn:Cr.
    + destruct (R_own _ _ _ HR _ _ Cr) as (r & Ho & Hg). rewrite Ho in St. eapply sim_co; eauto.
    + eapply sim_detached; eauto.
  - eapply sim_ob; eauto.
  - (* interrupt *)
    unfold mstep in St. rewrite (R_ub _ _ _ HR) in St. destruct (mws m w) as [|o c tp|] eqn:Mw; try discriminate St.
    destruct (R_sus _ _ _ HR _ _ _ _ Mw) as (r & Ho & Hg). rewrite Ho in St.
    destruct (R_loc _ _ _ HR _ _ _ Ho Hg) as (k & rf & HL & Hlife & Hrf). pose proof HL as [Lo Lc Lr Lw Lk].
    assert (Er : r = recv_of c rf (S c)) by (rewrite (robj_tag _ _ _ _ Lo) in Ho; congruence).
    destruct (r_aw r) as [v|] eqn:Aw; try discriminate St. destruct (Nat.eqb_spec v w) as [->|]; try discriminate St. injection St as <- <-.
    assert (W : ws (S c) w = WSusp tp) by now apply Lw.
    destruct (wake_L _ _ _ _ _ _ _ _ HL W) as [HL1 HF1].
    destruct (put_L (set_mw w MIdle m) o k rf c (set_w w WIdle (S c)) (sr_aw None r) (set_aw None (set_w w WIdle (S c))) HL1) as [HL2 HF2]; auto. { now rewrite Er. }
    eapply (sim_local m S o k k rf c r (LInterrupt w)); eauto.
    + cbn. rewrite W. unfold live. rewrite Hlife. destruct k; reflexivity.
    + eapply F_trans; eauto.
    + discriminate.
    + now rewrite Hg.
  - (* signal *)
    unfold mstep in St. rewrite (R_ub _ _ _ HR) in St. destruct (mws m w) as [|o c tp|] eqn:Mw; try discriminate St. injection St as <- <-.
    destruct (R_sus _ _ _ HR _ _ _ _ Mw) as (r & Ho & Hg).
    destruct (R_loc _ _ _ HR _ _ _ Ho Hg) as (k & rf & HL & Hlife & Hrf). pose proof HL as [Lo Lc Lr Lw Lk].
    eapply (sim_local m S o k k rf c r (LSignal w t) (S c) [if frame (S c) then ESignal t else EBad BFrame]); eauto.
    + cbn. apply Lw in Mw. rewrite Mw. now destruct (frame (S c)).
    + apply F_refl.
    + discriminate.
    + rewrite (frame_eq _ _ _ HR). reflexivity.
  - (* move *)
    unfold mstep in St. rewrite (R_ub _ _ _ HR) in St. destruct (objs m o) as [|r|r|r|] eqn:Oo; try discriminate St. destruct (objs m o') eqn:Oo'; try discriminate St.
    assert (Ho : robj m o = Some r) by (unfold robj; now rewrite Oo).
    assert (Haw : r_aw r = None).
    { cbn in K. unfold awaited in K. rewrite Ho in K. destruct (r_aw r); [discriminate K|reflexivity]. }
    destruct (take_over o' r m) as [m1|] eqn:T.
    + injection St as <- <-. apply sim_none; auto. * eapply R_move; eauto. unfold robj. now rewrite Oo'. * intros b [H|[]]. discriminate H.
    + exfalso. unfold take_over in T. destruct (r_gid r) as [g|] eqn:Hg.
      * destruct (R_loc _ _ _ HR _ _ _ Ho Hg) as (k & rf & HL & Hlife & Hrf). pose proof HL as [Lo Lc Lr Lw Lk].
        assert (Er : r = recv_of g rf (S g)) by (rewrite (robj_tag _ _ _ _ Lo) in Ho; congruence). rewrite Er in T. cbn in T.
        destruct (done (S g)) eqn:D; [discriminate T|]. destruct Hrf as [->|[_ Hrf]]; [|congruence]. rewrite (frame_eq _ _ _ HR) in T.
        pose proof (R_inv _ _ _ HR g) as I.
        assert (Q : rec (S g) = true) by (apply (i_live _ _ I); auto; unfold live; rewrite Hlife; now destruct k).
        assert (Fr : frame (S g) = true) by (apply (i_rec _ _ I) in Q as (_ & _ & Q); unfold frame; destruct Q as [->|[->|[->| ->]]]; reflexivity).
        rewrite Fr in T. discriminate T.
      * destruct (R_husk _ _ _ HR _ _ Ho Hg) as (Hd & _). rewrite Hd in T. discriminate T.
  - (* assign: cancel *)
    unfold mstep in St. rewrite (R_ub _ _ _ HR) in St. destruct (objs m o') as [|r|r|r|] eqn:Oo; try discriminate St.
    assert (Ho : robj m o' = Some r) by (unfold robj; now rewrite Oo).
    destruct (r_gid r) as [g|] eqn:Hg.
    + destruct (R_loc _ _ _ HR _ _ _ Ho Hg) as (k & rf & HL & Hlife & Hrf). pose proof HL as [Lo Lc Lr Lw Lk].
      assert (k = KLive) by (rewrite Oo in Lo; destruct k; cbn in Lo; congruence). subst k.
      assert (Er : r = recv_of g rf (S g)) by (rewrite Oo in Lo; cbn in Lo; congruence).
      pose proof (R_inv _ _ _ HR g) as I.
      assert (Can : m_cancel o' ct_all r m = (m, map (Ev (Some g)) (snd (cancel ct_all (S g)))) /\ cancel ct_all (S g) = (S g, snd (cancel ct_all (S g)))).
      { unfold m_cancel, cancel. rewrite Er. cbn. destruct (done (S g)) eqn:D; [auto|].
        destruct Hrf as [->|[_ Hrf]]; [|congruence]. rewrite (frame_eq _ _ _ HR).
        assert (Q : rec (S g) = true) by (apply (i_live _ _ I); auto; unfold live; now rewrite Hlife).
        assert (Fr : frame (S g) = true) by (apply (i_rec _ _ I) in Q as (_ & _ & Q); unfold frame; destruct Q as [->|[->|[->| ->]]]; reflexivity).
        rewrite Fr, Lr, Q, Nat.eqb_refl. auto. }
      destruct Can as [C1 C2]. rewrite C1 in St. injection St as <- <-.
      eapply sim_local with (k := KLive) (k' := KAssign) (lg := LDestroy1) (s' := set_life Dying (S g)); eauto.
      * cbn. rewrite Hlife, C2. reflexivity.
      * constructor; cbn -[upd]; rewrite ?upd_eq; auto. now rewrite Er.
      * constructor; cbn -[upd]; auto. intros x N. now rewrite upd_ne.
      * discriminate.
    + destruct (R_husk _ _ _ HR _ _ Ho Hg) as (Hd & Ha & Hy). unfold m_cancel in St. rewrite Hd in St. injection St as <- <-.
      apply sim_none; auto; [|intros b []]. exact (R_put_husk _ _ _ _ KAssign r HR Ho Hg Hg Hd Ha Hy).
  - (* assign *)
    unfold mstep in St. rewrite (R_ub _ _ _ HR) in St. destruct (objs m o') as [|r'|r'|r'|] eqn:Oo'; try discriminate St. destruct (objs m o) as [|r|r|r|] eqn:Oo; try discriminate St.
    assert (Ho : robj m o = Some r) by (unfold robj; now rewrite Oo). assert (Ho' : robj m o' = Some r') by (unfold robj; now rewrite Oo').
    assert (No : o <> o') by congruence.
    cbn in K. apply andb_true_iff in K as [K1 K2]. unfold awaited in K1. unfold has_coroutine in K2. rewrite Ho in K1. rewrite Ho' in K2.
    assert (Haw : r_aw r = None) by (destruct (r_aw r); [discriminate K1|reflexivity]).
    assert (X : exists m1, match r_ref r' with Some c => if cframe m c then Some (unref o' c m) else None | None => Some m end = Some m1 /\
        (objs m1 = objs m /\ ccst m1 = ccst m /\ cini m1 = cini m /\ mws m1 = mws m /\ ub m1 = ub m) /\
        (match r_gid r' with Some g => (forall h, h <> g -> crecp m1 h = crecp m h) /\ crecp m1 g = None | None => m1 = m end)).
    { destruct (r_gid r') as [g|] eqn:Hg'.
      - destruct (R_loc _ _ _ HR _ _ _ Ho' Hg') as (k & rf & HL & Hlife & Hrf). pose proof HL as [Lo Lc Lr Lw Lk].
        assert (Er : r' = recv_of g rf (S g)) by (rewrite (robj_tag _ _ _ _ Lo) in Ho'; congruence). rewrite Er in K2 |- *. cbn in K2 |- *.
        destruct Hrf as [->|[-> Hd]].
        + rewrite K2. eexists. split; [reflexivity|]. unfold unref. rewrite Lr. destruct (rec (S g)) eqn:Rg.
          * rewrite Nat.eqb_refl. cbn -[upd]. repeat split; auto. -- intros h N. now rewrite upd_ne. -- now rewrite upd_eq.
          * repeat split; auto.
        + exists m. repeat split; auto. rewrite Lr. destruct (rec (S g)) eqn:Rg; auto. apply (i_rec _ _ (R_inv _ _ _ HR g)) in Rg as (_ & Q & _). congruence.
      - destruct (r_ref r') as [c|] eqn:Rf; [|exists m; repeat split; auto]. rewrite K2. exists m. split; [|repeat split; auto].
        unfold unref. destruct (crecp m c) as [x|] eqn:Cr; [|reflexivity]. destruct (Nat.eqb_spec x o') as [->|]; [|reflexivity].
        destruct (R_own _ _ _ HR _ _ Cr) as (z & Z1 & Z2). congruence. }
    destruct X as (m1 & X1 & X2 & X3). rewrite X1 in St. destruct (release r' m1) as [m2 ev2] eqn:Rel.
    (* the target is destroyed *)
    assert (D : exists S1, R (set_obj o' OGone m2) S1 /\ clean (Ev (r_gid r') EDestroy :: ev2) /\
       forall g, (S1 g = S g /\ history g (Ev (r_gid r') EDestroy :: ev2) = []) \/
              exists l, ok (S g) l = true /\ step nv l (S g) = Some (S1 g, history g (Ev (r_gid r') EDestroy :: ev2))).
    { destruct (r_gid r') as [g|] eqn:Hg'.
      - destruct (R_loc _ _ _ HR _ _ _ Ho' Hg') as (k & rf & HL & Hlife & Hrf). pose proof (l_obj _ _ _ _ _ _ HL) as Lo.
        assert (k = KAssign) by (rewrite Oo' in Lo; destruct k; cbn in Lo; congruence). subst k.
        destruct X3 as [X3 X4].
        destruct (release_gone m S o' r' g KAssign rf m1 m2 ev2 HR Ho' Hg' HL Hrf Hlife X2 X3 X4 Rel) as (s' & ev' & B1 & -> & B3).
        exact (sim_one m S g LDestroy2 s' (EDestroy :: ev') _ _ B3 eq_refl B1 eq_refl).
      - subst m1. destruct (R_husk _ _ _ HR _ _ Ho' Hg') as (Hd & Ha & Hy). unfold release in Rel. rewrite Hy, Ha in Rel. cbn in Rel. injection Rel as <- <-.
        apply (sim_none m S (set_obj o' OGone m) [Ev None EDestroy]); auto. + eapply R_drop; eauto. + intros b [H|[]]. discriminate H. }
    destruct D as (S1 & HR1 & Cl & Hist).
    assert (Om : objs (set_obj o' OGone m2) o = OLive r).
    { cbn -[upd]. rewrite upd_ne by assumption. destruct X2 as (X2 & _). rewrite <- X2 in Oo.
      unfold release, m_kill in Rel. destruct (r_yf r'), (r_aw r'); injection Rel as <- <-; exact Oo. }
    assert (Rn : robj (set_obj o' OGone m2) o' = None) by (unfold robj; cbn -[upd]; now rewrite upd_eq).
    destruct (take_over o' r m2) as [m3|] eqn:T.
    + injection St as <- <-.
      assert (T' : take_over o' r (set_obj o' OGone m2) = Some (set_obj o' OGone m3)).
      { unfold take_over in *. destruct (r_done r); [now injection T as <-|]. destruct (r_ref r) as [c|]; [|discriminate T].
        unfold cframe in *. cbn -[upd]. destruct (ccst m2 c); try discriminate T; now injection T as <-. }
      pose proof (R_move mf mfp nv _ _ _ _ _ _ HR1 Om Haw Rn T') as HR2.
      exists S1. split; [|split].
      * eapply R_ext; [exact HR2|..]; try reflexivity. intros x. cbn -[upd]. unfold upd. destruct (x =? o'), (x =? o); reflexivity.
      * intros b H. destruct H as [H|H]; [discriminate H|]. apply in_app_or in H as [H|[H|[]]]; [|discriminate H]. apply (Cl b). now right.
      * intros g. assert (Hh : history g (Ev (r_gid r') EDestroy :: ev2 ++ [EvMove o o']) = history g (Ev (r_gid r') EDestroy :: ev2)).
        { change (Ev (r_gid r') EDestroy :: ev2 ++ [EvMove o o']) with ((Ev (r_gid r') EDestroy :: ev2) ++ [EvMove o o']). unfold history. rewrite flat_map_app. cbn [flat_map]. now rewrite !app_nil_r. }
        rewrite Hh. apply Hist.
    + exfalso. unfold take_over in T. 
      assert (Hr1 : robj (set_obj o' OGone m2) o = Some r) by (unfold robj; now rewrite Om).
      destruct (r_gid r) as [g|] eqn:Hg.
      * destruct (R_loc _ _ _ HR1 _ _ _ Hr1 Hg) as (k & rf & HL & Hlife & Hrf). pose proof HL as [Lo Lc Lr Lw Lk].
        assert (Er : r = recv_of g rf (S1 g)) by (rewrite (robj_tag _ _ _ _ Lo) in Hr1; congruence). rewrite Er in T. cbn in T.
        destruct (done (S1 g)) eqn:D; [discriminate T|]. destruct Hrf as [->|[_ Hrf]]; [|congruence].
        change (cframe m2 g) with (cframe (set_obj o' OGone m2) g) in T. rewrite (frame_eq _ _ _ HR1) in T.
        pose proof (R_inv _ _ _ HR1 g) as I.
        assert (Q : rec (S1 g) = true) by (apply (i_live _ _ I); auto; unfold live; rewrite Hlife; now destruct k).
        assert (Fr : frame (S1 g) = true) by (apply (i_rec _ _ I) in Q as (_ & _ & Q); unfold frame; destruct Q as [->|[->|[->| ->]]]; reflexivity).
        rewrite Fr in T. discriminate T.
      * destruct (R_husk _ _ _ HR1 _ _ Hr1 Hg) as (Hd & _). rewrite Hd in T. discriminate T.
Qed.
End Sim.
