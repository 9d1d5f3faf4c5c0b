(** * A generator that is moved behaves as one that is not *)
From Coq Require Import List Bool Arith Lia.
From Verif Require Import Gen_Model Gen_Spec Gen_Inv Gmv_Model Gmv_Spec.
Import ListNotations.

Section Proofs.
Context {Y P E : Type} (mf : Y -> Y) (mfp : P -> P) (nv : bool).
Notation mst := (mst Y P E).
Notation mevent := (mevent Y P E).
Notation mlabel := (mlabel Y P E).
Notation recv := (recv Y P E).
Notation state := (state Y P (xt E)).
Notation event := (event Y P (xt E)).
Notation ostate := (@ostate Y P E).

Definition recv_of (g : nat) (rf : option nat) (s : state) : recv :=
  mkR (Some g) (res s) (buf s) (exc s) (done s) (aw s) (if yielding s then Some g else None) (lazy s) (pushed s) rf.

Inductive kind := KLive | KDying | KAssign.
Definition otag (k : kind) (r : recv) : ostate := match k with KLive => OLive r | KDying => ODying r | KAssign => OAssign r end.
Definition klife (k : kind) : life := match k with KLive => Live | _ => Dying end.

(** Object [o] is generator [g] with state [s], as far as the awaiters and the object are concerned. *)
Record L (m : mst) (o : nat) (k : kind) (rf : option nat) (g : nat) (s : state) : Prop := {
  l_obj : objs m o = otag k (recv_of g rf s);
  l_cst : ccst m g = cst s;
  l_rec : crecp m g = if rec s then Some o else None;
  l_ws : forall w tp, ws s w = WSusp tp <-> mws m w = MSusp o g tp;
  l_kill : forall w, ws s w = WKilled -> mws m w = MKilled }.

(** [m'] differs from [m] only at object [o], coroutine [g] and its awaiters. *)
Record F (o g : nat) (m m' : mst) : Prop := {
  f_obj : forall o', o' <> o -> objs m' o' = objs m o';
  f_cst : forall g', g' <> g -> ccst m' g' = ccst m g';
  f_rec : forall g', g' <> g -> crecp m' g' = crecp m g';
  f_ini : forall g', g' <> g -> cini m' g' = cini m g';
  f_inig : cini m g = true -> cini m' g = true;
  f_ws : forall w, mws m' w = mws m w \/
            ((mws m w = MIdle \/ exists tp, mws m w = MSusp o g tp) /\
             (mws m' w = MIdle \/ mws m' w = MKilled \/ exists tp, mws m' w = MSusp o g tp));
  f_ub : ub m' = ub m }.

Lemma F_refl o g m : F o g m m.
Proof. constructor; auto. Qed.
Lemma F_trans o g m1 m2 m3 : F o g m1 m2 -> F o g m2 m3 -> F o g m1 m3.
Proof.
  intros [A1 A2 A3 A4 A5 A6 A7] [B1 B2 B3 B4 B5 B6 B7]. constructor; auto; try congruence.
  - intros o' N. now rewrite B1, A1.
  - intros o' N. now rewrite B2, A2.
  - intros o' N. now rewrite B3, A3.
  - intros o' N. now rewrite B4, A4.
  - intros w. destruct (B6 w) as [e|[X Z]].
    + rewrite e. apply A6.
    + destruct (A6 w) as [e'|[X' Z']]; [rewrite e' in X|]; auto.
Qed.

Lemma robj_tag (m : mst) o k r : objs m o = otag k r -> robj m o = Some r.
Proof. unfold robj. intros ->. now destruct k. Qed.
Lemma put_tag (m : mst) o k r r' : objs m o = otag k r -> put o r' m = set_obj o (otag k r') m.
Proof. unfold put. intros ->. now destruct k. Qed.

Ltac pt Lo S := match type of S with context [put _ _ ?n] => rewrite (put_tag n _ _ _ _ Lo) in S end.
Ltac stp := cbn -[upd] in *; rewrite ?upd_eq in *.
Ltac mkF := constructor; cbn -[upd]; intros; rewrite ?upd_ne by assumption; auto.

Lemma await_resume_L m o k rf g s w tp m' ev s' ev' :
  L m o k rf g s -> m_await_resume o w tp m = (m', ev) -> await_resume w tp s = (s', ev') ->
  L m' o k rf g s' /\ F o g m m' /\ ev = map (Ev (Some g)) ev'.
Proof.
  intros [Lo Lc Lr Lw Lk] S S'. unfold m_await_resume in S. rewrite (robj_tag _ _ _ _ Lo) in S.
  unfold await_resume in S'. cbn -[upd put] in S.
  destruct (exc s) as [e|] eqn:Ex.
  { pt Lo S. injection S as <- <-. injection S' as <- <-. split; [|split; [mkF|reflexivity]].
    constructor; cbn -[upd]; rewrite ?upd_eq; auto. }
  destruct (res s) as [y|] eqn:Er.
  2:{ injection S as <- <-. injection S' as <- <-. split; [now constructor|split; [apply F_refl|reflexivity]]. }
  destruct tp as [p|]; cbn -[upd put] in S, S'; change (yielding (set_pushed _ s)) with (yielding s) in S';
    destruct (yielding s) eqn:Ey; cbn -[upd put] in S, S'; try rewrite Ey in S; cbn -[upd put] in S;
    [destruct (lazy s) eqn:El; cbn -[upd put] in S, S'| |destruct (lazy s) eqn:El; cbn -[upd put] in S, S'|].
  all: pt Lo S; injection S as <- <-; injection S' as <- <-.
  all: split; [|split; [mkF|now destruct (pushed s)]].
  all: constructor; cbn -[upd]; rewrite ?upd_eq; auto; f_equal; unfold recv_of, sr_vals, yielding in *; cbn in *; now rewrite ?Ex, ?Ey, ?El.
Qed.

Lemma wake_L m o k rf g s w tp : L m o k rf g s -> ws s w = WSusp tp -> L (set_mw w MIdle m) o k rf g (set_w w WIdle s) /\ F o g m (set_mw w MIdle m).
Proof.
  intros [Lo Lc Lr Lw Lk] W. split.
  - constructor; cbn -[upd]; auto.
    + intros v tq. unfold upd. destruct (Nat.eqb_spec v w); [split; discriminate|apply Lw].
    + intros v. unfold upd. destruct (Nat.eqb_spec v w); [discriminate|apply Lk].
  - mkF. unfold upd. destruct (Nat.eqb_spec w0 w) as [->|]; auto. right. split; eauto. right. exists tp. now apply Lw.
Qed.

Lemma resume_L m o k rf g s w m' ev s' ev' :
  L m o k rf g s -> (exists tp, ws s w = WSusp tp) -> m_resume (Some g) w m = (m', ev) -> resume w s = (s', ev') ->
  L m' o k rf g s' /\ F o g m m' /\ ev = map (Ev (Some g)) ev'.
Proof.
  intros HL (tp & W) S S'. unfold m_resume in S. unfold resume in S'. rewrite W in S'.
  rewrite (proj1 (l_ws _ _ _ _ _ _ HL w tp) W) in S.
  destruct (wake_L _ _ _ _ _ _ _ _ HL W) as [HL1 HF].
  destruct (await_resume_L _ _ _ _ _ _ _ _ _ _ _ _ HL1 S S') as (A & B & C). repeat split; auto; try apply A.
  all: eapply F_trans; eauto.
Qed.

(** The coroutine goes on; its handle has been taken from yield_from. *)
Lemma continue_L m o k rf g s m' ev s' ev' :
  objs m o = otag k (sr_yf None (recv_of g rf s)) -> ccst m g = cst s -> crecp m g = Some o -> rec s = true ->
  (forall w tp, ws s w = WSusp tp <-> mws m w = MSusp o g tp) -> (forall w, ws s w = WKilled -> mws m w = MKilled) ->
  pushed s <> None -> m_continue g m = (m', ev) -> continue s = (s', ev') ->
  L m' o k rf g s' /\ F o g m m' /\ ev = map (Ev (Some g)) ev'.
Proof.
  intros Lo Lc Lr Rc Lw Lk Pu S S'. unfold m_continue in S. rewrite Lr, (robj_tag _ _ _ _ Lo) in S. unfold continue in S'.
  cbn -[put] in S. destruct (pushed s) as [p|] eqn:Ep; [|congruence].
  pt Lo S. injection S as <- <-. injection S' as <- <-.
  split; [|split; [mkF|reflexivity]].
  constructor; cbn -[upd]; rewrite ?upd_eq; auto. now rewrite Rc.
Qed.
Lemma yf_none g rf (s : state) : yielding s = false -> sr_yf None (recv_of g rf s) = recv_of g rf s.
Proof. unfold recv_of, sr_yf. cbn. now intros ->. Qed.

Lemma arrive_L m o k rf g s m' ev s' ev' :
  L m o k rf g s -> rec s = true -> yielding s = false -> (forall w, aw s = Some w -> exists tp, ws s w = WSusp tp) ->
  m_arrive nv g o m = (m', ev) -> arrive nv s = (s', ev') ->
  L m' o k rf g s' /\ F o g m m' /\ ev = map (Ev (Some g)) ev'.
Proof.
  intros HL Rc Ye Aw S S'. pose proof HL as [Lo Lc Lr Lw Lk]. unfold m_arrive in S. rewrite (robj_tag _ _ _ _ Lo) in S.
  unfold arrive in S'. cbn -[put] in S. destruct (is_some (pushed s) && (nv || negb (is_some (res s)))) eqn:Ec.
  - eapply continue_L; eauto. 1: now rewrite yf_none. 1: now rewrite Lr, Rc. destruct (pushed s); discriminate.
  - pt Lo S.
    match type of S with match _ with Some w => m_resume _ w ?m1 | None => _ end = _ => set (n1 := m1) in S end.
    set (s1 := set_aw None (set_cst Yielding s)) in S'.
    assert (HL1 : L n1 o k rf g s1).
    { unfold n1, s1. constructor; cbn -[upd]; rewrite ?upd_eq; auto. }
    assert (HF1 : F o g m n1) by (unfold n1; mkF).
    destruct (aw s) as [w|] eqn:Ea.
    + destruct (resume_L _ _ _ _ _ _ _ _ _ _ _ HL1 (Aw w eq_refl) S S') as (A & B & C). split; [exact A|split; [eapply F_trans; eauto|exact C]].
    + injection S as <- <-. injection S' as <- <-. auto.
Qed.

Lemma final_L m o k rf g s m' ev s' ev' :
  L m o k rf g s -> rec s = true -> yielding s = false -> (forall w, aw s = Some w -> exists tp, ws s w = WSusp tp) ->
  m_final g m = (m', ev) -> final s = (s', ev') ->
  L m' o k rf g s' /\ F o g m m' /\ ev = map (Ev (Some g)) ev'.
Proof.
  intros HL Rc Ye Aw S S'. pose proof HL as [Lo Lc Lr Lw Lk]. unfold m_final in S. rewrite Lr, Rc, (robj_tag _ _ _ _ Lo) in S.
  unfold final in S'. rewrite Rc in S'. cbn -[put set_ccst set_recp] in S.
  rewrite (put_tag (set_ccst g Dead (set_recp g None m)) _ _ _ _ Lo) in S.
  match type of S with match _ with Some w => let (_, _) := m_resume _ w ?m1 in _ | None => _ end = _ => set (n1 := m1) in S end.
  set (s1 := set_aw None (set_done true (set_cst Dead (set_rec false s)))) in S'.
  assert (HL1 : L n1 o k rf g s1).
  { unfold n1, s1. constructor; cbn -[upd]; rewrite ?upd_eq; auto. f_equal. unfold recv_of, sr_aw, sr_done. cbn. now rewrite Ye. }
  assert (HF1 : F o g m n1) by (unfold n1; mkF).
  destruct (aw s) as [w|] eqn:Ea.
  - destruct (m_resume (Some g) w n1) as [m3 e3] eqn:M3. destruct (resume w s1) as [s3 x3] eqn:S3.
    injection S as <- <-. injection S' as <- <-.
    destruct (resume_L _ _ _ _ _ _ _ _ _ _ _ HL1 (Aw w eq_refl) M3 S3) as (A & B & C). split; [exact A|split; [eapply F_trans; eauto|cbn; now rewrite C]].
  - injection S as <- <-. injection S' as <- <-. auto.
Qed.

Lemma put_L m o k rf g s r s1 :
  L m o k rf g s -> r = recv_of g rf s1 -> cst s1 = cst s -> rec s1 = rec s -> ws s1 = ws s ->
  L (put o r m) o k rf g s1 /\ F o g m (put o r m).
Proof.
  intros [Lo Lc Lr Lw Lk] -> C1 C2 C3. rewrite (put_tag _ _ _ _ _ Lo). split; [|mkF].
  constructor; cbn -[upd]; rewrite ?upd_eq, ?C1, ?C2, ?C3; auto.
Qed.

Lemma kill_L m o k rf g s x m' ev s' ev' :
  L m o k rf g s -> (forall w, x = Some w -> exists tp, ws s w = WSusp tp) -> m_kill (Some g) x m = (m', ev) -> kill_w x s = (s', ev') ->
  L m' o k rf g s' /\ F o g m m' /\ ev = map (Ev (Some g)) ev'.
Proof.
  intros HL W S S'. pose proof HL as [Lo Lc Lr Lw Lk]. destruct x as [w|]; cbn -[upd] in S, S'; injection S as <- <-; injection S' as <- <-.
  - destruct (W w eq_refl) as (tp & W'). split; [|split; [|reflexivity]].
    + constructor; cbn -[upd]; auto.
      * intros v tq. unfold upd. destruct (Nat.eqb_spec v w); [split; discriminate|apply Lw].
      * intros v. unfold upd. destruct (Nat.eqb_spec v w); [auto|apply Lk].
    + mkF. unfold upd. destruct (Nat.eqb_spec w0 w) as [->|]; auto. right. split; eauto. right. exists tp. now apply Lw.
  - split; [exact HL|split; [apply F_refl|reflexivity]].
Qed.

(** ** The relation between the machine and the states of the generators *)
Record R (m : mst) (S : nat -> state) : Prop := {
  R_inv : forall g, INV nv (S g);
  R_loc : forall o r g, robj m o = Some r -> r_gid r = Some g ->
            exists k rf, L m o k rf g (S g) /\ lifeof (S g) = klife k /\ (rf = Some g \/ rf = None /\ done (S g) = true);
  R_uniq : forall o o' r r' g, robj m o = Some r -> r_gid r = Some g -> robj m o' = Some r' -> r_gid r' = Some g -> o = o';
  R_cst : forall g, ccst m g = cst (S g);
  R_rec : forall g, rec (S g) = is_some (crecp m g);
  R_own : forall g o, crecp m g = Some o -> exists r, robj m o = Some r /\ r_gid r = Some g;
  R_sus : forall w o g tp, mws m w = MSusp o g tp -> exists r, robj m o = Some r /\ r_gid r = Some g;
  R_husk : forall o r, robj m o = Some r -> r_gid r = None -> r_done r = true /\ r_aw r = None /\ r_yf r = None;
  R_ini : forall g, lazy (S g) = true -> cini m g = true;
  R_kill : forall g w, ws (S g) w = WKilled -> mws m w = MKilled;
  R_ub : ub m = false }.

Lemma R_init : R minit (fun _ => init).
Proof. constructor; try (cbn; intros; discriminate || reflexivity). intros. apply init_INV. Qed.

Lemma robj_obj (m m' : mst) o : objs m' o = objs m o -> robj m' o = robj m o.
Proof. unfold robj. now intros ->. Qed.

(** The main step: something happened to generator [g] in object [o]. *)
Lemma R_local0 m S o k rf g m' s' :
  R m S ->
  (forall o' r, o' <> o -> robj m o' = Some r -> r_gid r <> Some g) ->
  (forall g', g' <> g -> crecp m g' <> Some o) ->
  (forall w g' tp, mws m w = MSusp o g' tp -> g' = g) ->
  F o g m m' ->
  L m' o k rf g s' -> lifeof s' = klife k -> (rf = Some g \/ rf = None /\ done s' = true) -> INV nv s' ->
  (lazy s' = true -> cini m' g = true) -> R m' (upd S g s').
Proof.
  intros HR X1 X2 X3 HF HL Hlife Hrf HI Hini.
  destruct HR as [A1 A2 A3 A4 A5 A6 A7 A8 A9 A10 A11]. pose proof HF as [F1 F2 F3 F4 F5 F6 F7].
  assert (Ro : robj m' o = Some (recv_of g rf s')) by (eapply robj_tag; apply HL).
  assert (Rn : forall o', o' <> o -> robj m' o' = robj m o') by (intros; apply robj_obj; auto).
  assert (Gid : forall o' r g', robj m' o' = Some r -> r_gid r = Some g' -> (o' = o /\ g' = g /\ r = recv_of g rf s') \/ (o' <> o /\ g' <> g /\ robj m o' = Some r)).
  { intros o' r g' H1 H2. destruct (Nat.eq_dec o' o) as [->|N].
    - left. rewrite Ro in H1. injection H1 as <-. cbn in H2. injection H2 as <-. auto.
    - right. rewrite Rn in H1 by assumption. split; [|split]; auto. intros ->. eapply X1; eauto. }
  assert (Kmono : forall w, mws m w = MKilled -> mws m' w = MKilled).
  { intros w K. destruct (F6 w) as [e|[[X|[tp X]] _]]; congruence. }
  constructor.
  - intros h. unfold upd. destruct (Nat.eqb_spec h g); auto.
  - intros o' r g' H1 H2. destruct (Gid _ _ _ H1 H2) as [(-> & -> & ->)|(N1 & N2 & H3)].
    + exists k, rf. rewrite upd_eq. auto.
    + rewrite upd_ne by assumption. destruct (A2 _ _ _ H3 H2) as (k1 & rf1 & [Lo Lc Lr Lw Lk] & B & C). exists k1, rf1. split; [|auto].
      constructor; try (rewrite ?F1, ?F2, ?F3 by assumption; assumption).
      * intros w tp. rewrite Lw. destruct (F6 w) as [->|[X Z]]; [reflexivity|].
        split; intros Q; exfalso.
        -- destruct X as [X|[tq X]]; congruence.
        -- destruct Z as [Z|[Z|[tq Z]]]; congruence.
      * intros w Q. apply Kmono. auto.
  - intros o1 o2 r1 r2 g' H1 H2 H3 H4. destruct (Gid _ _ _ H1 H2) as [(-> & -> & ->)|(N1 & N2 & H5)]; destruct (Gid _ _ _ H3 H4) as [(-> & Q & _)|(N3 & N4 & H6)]; try congruence.
    eapply A3; eauto.
  - intros h. unfold upd. destruct (Nat.eqb_spec h g) as [->|N]; [apply HL|]. now rewrite F2.
  - intros h. unfold upd. destruct (Nat.eqb_spec h g) as [->|N]; [|now rewrite F3].
    rewrite (l_rec _ _ _ _ _ _ HL). now destruct (rec s').
  - intros h o' Q. destruct (Nat.eq_dec h g) as [->|N].
    + rewrite (l_rec _ _ _ _ _ _ HL) in Q. destruct (rec s'); [|discriminate]. injection Q as <-. eexists. split; [exact Ro|reflexivity].
    + rewrite F3 in Q by assumption. destruct (A6 _ _ Q) as (r & Q1 & Q2). exists r. split; auto. rewrite Rn; auto.
      intros ->. eapply X2; eauto.
  - intros w o' g' tp Q. destruct (F6 w) as [e|[_ [Z|[Z|[tq Z]]]]]; try congruence.
    + rewrite e in Q. destruct (A7 _ _ _ _ Q) as (r & Q1 & Q2). destruct (Nat.eq_dec o' o) as [->|N].
      * exists (recv_of g rf s'). split; [exact Ro|]. cbn. now rewrite (X3 _ _ _ Q).
      * exists r. rewrite Rn; auto.
    + rewrite Z in Q. injection Q as <- <- <-. eexists. split; [exact Ro|reflexivity].
  - intros o' r Q1 Q2. destruct (Nat.eq_dec o' o) as [->|N].
    + rewrite Ro in Q1. injection Q1 as <-. discriminate Q2.
    + rewrite Rn in Q1 by assumption. eauto.
  - intros h. unfold upd. destruct (Nat.eqb_spec h g) as [->|N]; auto. rewrite F4; auto.
  - intros h w. unfold upd. destruct (Nat.eqb_spec h g) as [->|N].
    + apply HL.
    + intros Q. apply Kmono. eauto.
  - congruence.
Qed.

Lemma history_map g (l : list event) : history g (map (Ev (Some g)) l : list mevent) = l.
Proof. induction l; cbn; [reflexivity|]. rewrite Nat.eqb_refl. cbn. now f_equal. Qed.
Lemma history_other g g' (l : list event) : g' <> g -> history g' (map (Ev (Some g)) l : list mevent) = [].
Proof. intros N. induction l; cbn; [reflexivity|]. destruct (Nat.eqb_spec g g'); [congruence|]. apply IHl. Qed.

Lemma R_local m S o k rf g r0 m' s' :
  R m S -> robj m o = Some r0 -> r_gid r0 = Some g -> F o g m m' ->
  L m' o k rf g s' -> lifeof s' = klife k -> (rf = Some g \/ rf = None /\ done s' = true) -> INV nv s' ->
  (lazy s' = true -> cini m' g = true) -> R m' (upd S g s').
Proof.
  intros HR Ho Hg. apply R_local0; auto.
  - intros o' r N H1 H2. apply N. eapply (R_uniq _ _ HR); eauto.
  - intros g' N Q. destruct (R_own _ _ HR _ _ Q) as (r & Q1 & Q2). congruence.
  - intros w g' tp Q. destruct (R_sus _ _ HR _ _ _ _ Q) as (r & Q1 & Q2). congruence.
Qed.

(** What a step of a generator does not change. *)
Definition lifecycle (l : label Y P (xt E)) : bool :=
  match l with LStart | LNoop _ | LDestroy1 | LDestroy2 => true | _ => false end.
Lemma step_keeps l (s s' : state) ev :
  step nv l s = Some (s', ev) ->
  (done s = true -> done s' = true) /\ (lifecycle l = false -> lifeof s' = lifeof s) /\ (l <> LInitial -> lazy s' = lazy s).
Proof.
  intros S. destruct s as [lf r b x d a lz pu c rc w]. destruct l; open_step S; injection S as <- <-; cbn; repeat split; auto; try discriminate; try congruence.
Qed.

(** The coroutine [g] has no generator. *)
Lemma R_co m S g m' s' :
  R m S -> crecp m g = None -> ccst m g <> Dead -> 
  (forall o, objs m' o = objs m o) -> (forall h, crecp m' h = crecp m h) -> (forall w, mws m' w = mws m w) -> ub m' = ub m ->
  (forall h, h <> g -> ccst m' h = ccst m h) -> ccst m' g = cst s' -> (forall h, cini m h = true -> cini m' h = true) ->
  rec s' = false -> ws s' = ws (S g) -> (lazy s' = true -> cini m' g = true) -> INV nv s' -> R m' (upd S g s').
Proof.
  intros HR N Nd E1 E2 E3 E4 E5 E6 E7 E8 E9 E10 HI.
  assert (G : forall o r, robj m o = Some r -> r_gid r <> Some g).
  { intros o r H1 H2. destruct (R_loc _ _ HR _ _ _ H1 H2) as (k & rf & HL & B & _). pose proof (R_inv _ _ HR g) as I. pose proof (R_rec _ _ HR g) as Rr. rewrite N in Rr.
    pose proof (i_live _ _ I) as J. unfold live in J. rewrite B in J. destruct (done (S g)) eqn:D.
    - apply (i_done _ _ I) in D. rewrite <- (R_cst _ _ HR g) in D. congruence.
    - destruct k; cbn in J, Rr; rewrite J in Rr; auto; discriminate. }
  assert (Ro : forall o, robj m' o = robj m o) by (intros; apply robj_obj; auto).
  destruct HR as [A1 A2 A3 A4 A5 A6 A7 A8 A9 A10 A11].
  constructor.
  - intros h. unfold upd. destruct (Nat.eqb_spec h g); auto.
  - intros o r h H1 H2. rewrite Ro in H1. assert (h <> g) by (intros ->; eapply G; eauto). rewrite upd_ne by assumption.
    destruct (A2 _ _ _ H1 H2) as (k & rf & [Lo Lc Lr Lw Lk] & B). exists k, rf. split; auto.
    constructor; rewrite ?E1, ?E2, ?E5 by assumption; auto; intros; rewrite E3; auto.
  - intros o o' r r' h. rewrite !Ro. apply A3.
  - intros h. unfold upd. destruct (Nat.eqb_spec h g) as [->|N']; [auto|]. now rewrite E5.
  - intros h. rewrite E2. unfold upd. destruct (Nat.eqb_spec h g) as [->|N']; auto. now rewrite N, E8.
  - intros h o. rewrite E2, Ro. apply A6.
  - intros w o h tp. rewrite E3, Ro. apply A7.
  - intros o r. rewrite Ro. apply A8.
  - intros h. unfold upd. destruct (Nat.eqb_spec h g) as [->|N']; auto.
  - intros h w. rewrite E3. unfold upd. destruct (Nat.eqb_spec h g) as [->|N']; [rewrite E9|]; apply A10.
  - congruence.
Qed.

Lemma R_ext m m' S :
  R m S -> (forall o, objs m' o = objs m o) -> (forall h, ccst m' h = ccst m h) -> (forall h, crecp m' h = crecp m h) ->
  (forall h, cini m' h = cini m h) -> (forall w, mws m' w = mws m w) -> ub m' = ub m -> R m' S.
Proof.
  intros [A1 A2 A3 A4 A5 A6 A7 A8 A9 A10 A11] E1 E2 E3 E4 E5 E6.
  assert (Ro : forall o, robj m' o = robj m o) by (intros; apply robj_obj; auto).
  constructor; auto.
  - intros o r g. rewrite Ro. intros H1 H2. destruct (A2 _ _ _ H1 H2) as (k & rf & [Lo Lc Lr Lw Lk] & B). exists k, rf. split; auto.
    constructor; rewrite ?E1, ?E2, ?E3; auto; intros; rewrite E5; auto.
  - intros o o' r r' g. rewrite !Ro. apply A3.
  - intros g. now rewrite E2.
  - intros g. now rewrite E3.
  - intros g o. rewrite E3, Ro. apply A6.
  - intros w o g tp. rewrite E5, Ro. apply A7.
  - intros o r. rewrite Ro. apply A8.
  - intros g. rewrite E4. apply A9.
  - intros g w. rewrite E5. apply A10.
  - congruence.
Qed.

(** Object [o] without generator is destroyed. *)
Lemma R_drop m S o r : R m S -> robj m o = Some r -> r_gid r = None -> R (set_obj o OGone m) S.
Proof.
  intros HR Ho Hg. pose proof HR as [A1 A2 A3 A4 A5 A6 A7 A8 A9 A10 A11].
  assert (Ro : forall o' x, robj (set_obj o OGone m) o' = Some x -> o' <> o /\ robj m o' = Some x).
  { intros o' x. unfold robj. cbn -[upd]. unfold upd. destruct (Nat.eqb_spec o' o); [discriminate|auto]. }
  assert (Rn : forall o', o' <> o -> robj (set_obj o OGone m) o' = robj m o').
  { intros o' N. apply robj_obj. cbn -[upd]. now rewrite upd_ne. }
  constructor; auto.
  - intros o' x g H1 H2. apply Ro in H1 as [N H1]. destruct (A2 _ _ _ H1 H2) as (k & rf & [Lo Lc Lr Lw Lk] & B). exists k, rf. split; auto.
    constructor; auto. cbn -[upd]. now rewrite upd_ne.
  - intros o1 o2 r1 r2 g H1 H2 H3 H4. apply Ro in H1 as [_ H1]. apply Ro in H3 as [_ H3]. eauto.
  - intros g o' Q. cbn in Q. destruct (A6 _ _ Q) as (x & Q1 & Q2). exists x. rewrite Rn; auto. intros ->. congruence.
  - intros w o' g tp Q. cbn in Q. destruct (A7 _ _ _ _ Q) as (x & Q1 & Q2). exists x. rewrite Rn; auto. intros ->. congruence.
  - intros o' x H1. apply Ro in H1 as [_ H1]. eauto.
Qed.

(** Object [o] with generator [g] is destroyed, which changes the state of [g] to [s']. *)
Lemma R_gone m S o r g m' s' :
  R m S -> robj m o = Some r -> r_gid r = Some g ->
  objs m' o = OGone -> (forall o', o' <> o -> objs m' o' = objs m o') ->
  (forall h, h <> g -> ccst m' h = ccst m h) -> ccst m' g = cst s' ->
  (forall h, h <> g -> crecp m' h = crecp m h) -> crecp m' g = None -> rec s' = false ->
  (forall h, cini m' h = cini m h) -> lazy s' = lazy (S g) ->
  (forall w, mws m' w = mws m w /\ (forall tp, mws m w <> MSusp o g tp) \/ mws m' w = MKilled /\ exists tp, mws m w = MSusp o g tp) ->
  (forall w, ws s' w = WKilled -> mws m' w = MKilled) -> ub m' = ub m -> INV nv s' -> R m' (upd S g s').
Proof.
  intros HR Ho Hg E1 E2 E3 E4 E5 E6 E7 E8 E9 E10 E11 E12 HI. pose proof HR as [A1 A2 A3 A4 A5 A6 A7 A8 A9 A10 A11].
  assert (Ro : forall o' x, robj m' o' = Some x -> o' <> o /\ robj m o' = Some x).
  { intros o' x H. destruct (Nat.eq_dec o' o) as [->|N].
    - unfold robj in H. rewrite E1 in H. discriminate H.
    - split; auto. now rewrite <- (robj_obj m m' o' (E2 _ N)). }
  assert (Rn : forall o', o' <> o -> robj m' o' = robj m o') by (intros; apply robj_obj; auto).
  constructor.
  - intros h. unfold upd. destruct (Nat.eqb_spec h g); auto.
  - intros o' x h H1 H2. apply Ro in H1 as [N H1]. assert (h <> g) by (intros ->; apply N; eapply A3; eauto).
    rewrite upd_ne by assumption. destruct (A2 _ _ _ H1 H2) as (k & rf & [Lo Lc Lr Lw Lk] & B). exists k, rf. split; auto.
    constructor; rewrite ?E2, ?E3, ?E5 by assumption; auto.
    + intros w tp. rewrite Lw. destruct (E10 w) as [[-> _]|[X [tq Z]]]; [reflexivity|]. split; congruence.
    + intros w Q. destruct (E10 w) as [[-> _]|[X _]]; auto.
  - intros o1 o2 r1 r2 h H1 H2 H3 H4. apply Ro in H1 as [_ H1]. apply Ro in H3 as [_ H3]. eauto.
  - intros h. unfold upd. destruct (Nat.eqb_spec h g) as [->|N]; [auto|]. now rewrite E3.
  - intros h. unfold upd. destruct (Nat.eqb_spec h g) as [->|N]; [now rewrite E6, E7|]. now rewrite E5.
  - intros h o' Q. assert (N : h <> g) by (intros ->; congruence). rewrite E5 in Q by assumption. destruct (A6 _ _ Q) as (x & Q1 & Q2).
    exists x. rewrite Rn; auto. intros ->. rewrite Ho in Q1. injection Q1 as <-. congruence.
  - intros w o' h tp Q. destruct (E10 w) as [[e Z]|[X _]]; [|congruence]. rewrite e in Q. destruct (A7 _ _ _ _ Q) as (x & Q1 & Q2).
    exists x. rewrite Rn; auto. intros ->. rewrite Ho in Q1. injection Q1 as <-. rewrite Hg in Q2. injection Q2 as <-. now apply (Z tp).
  - intros o' x H1. apply Ro in H1 as [_ H1]. eauto.
  - intros h. rewrite E8. unfold upd. destruct (Nat.eqb_spec h g) as [->|N]; [rewrite E9|]; auto.
  - intros h w. unfold upd. destruct (Nat.eqb_spec h g) as [->|N]; [auto|]. intros Q. destruct (E10 w) as [[-> _]|[X _]]; eauto.
  - congruence.
Qed.

(** A generator moves from object [o] to the free object [o']. *)
Lemma R_move m S o o' r m1 :
  R m S -> objs m o = OLive r -> r_aw r = None -> robj m o' = None -> take_over o' r m = Some m1 ->
  R (set_obj o' (OLive r) (set_obj o (OLive (husk mf mfp r)) m1)) S.
Proof.
  intros HR Ho Haw Ho' T. pose proof HR as [A1 A2 A3 A4 A5 A6 A7 A8 A9 A10 A11].
  assert (No : o <> o') by (intros ->; unfold robj in Ho'; rewrite Ho in Ho'; discriminate).
  assert (Hr : robj m o = Some r) by (unfold robj; now rewrite Ho).
  set (m2 := set_obj o' _ _).
  assert (O1 : objs m2 o' = OLive r) by (unfold m2; cbn -[upd]; apply upd_eq).
  assert (O2 : objs m2 o = OLive (husk mf mfp r)) by (unfold m2; cbn -[upd]; rewrite upd_ne by assumption; apply upd_eq).
  assert (Q0 : (forall x, objs m1 x = objs m x) /\ (forall h, ccst m1 h = ccst m h) /\ (forall h, cini m1 h = cini m h) /\ (forall w, mws m1 w = mws m w) /\ ub m1 = ub m /\
          (forall h, r_gid r <> Some h -> crecp m1 h = crecp m h) /\
          (forall h, r_gid r = Some h -> crecp m1 h = if rec (S h) then Some o' else None)).
  { unfold take_over in T. destruct (r_gid r) as [g|] eqn:Hg.
    - destruct (A2 _ _ _ Hr Hg) as (k & rf & [Lo Lc Lr Lw Lk] & B1 & B2). assert (r = recv_of g rf (S g)) by (rewrite Ho in Lo; destruct k; cbn in Lo; congruence).
      subst r. cbn in T. destruct (done (S g)) eqn:D.
      + injection T as <-. repeat split; auto. intros h H. injection H as <-. destruct (rec (S g)) eqn:Rg; auto.
        apply (i_rec _ _ (A1 g)) in Rg. destruct Rg as (_ & Rg & _). congruence.
      + destruct B2 as [->|[_ B2]]; [|congruence]. destruct (cframe m g) eqn:Cf; [|discriminate]. injection T as <-. cbn -[upd]. repeat split; auto.
        * intros h H. rewrite upd_ne by congruence. reflexivity.
        * intros h H. injection H as <-. rewrite upd_eq. rewrite (i_live _ _ (A1 g)); auto. unfold live. rewrite B1. now destruct k.
    - rewrite (proj1 (A8 _ _ Hr Hg)) in T. injection T as <-. repeat split; auto. intros h H. discriminate H. }
  destruct Q0 as (Q1 & Q2 & Q3 & Q4 & Q5 & Q6 & Q7).
  assert (O3 : forall x, x <> o -> x <> o' -> objs m2 x = objs m x).
  { intros x N1 N2. unfold m2. cbn -[upd]. rewrite !upd_ne by assumption. auto. }
  assert (C1 : forall h, ccst m2 h = ccst m h) by exact Q2.
  assert (C2 : forall h, crecp m2 h = crecp m1 h) by reflexivity.
  assert (C4 : forall h, cini m2 h = cini m h) by exact Q3.
  assert (C3 : forall w, mws m2 w = mws m w) by exact Q4.
  assert (C5 : ub m2 = ub m) by exact Q5.
  clearbody m2.
  assert (G : forall x y h, robj m2 x = Some y -> r_gid y = Some h -> (x = o' /\ y = r /\ r_gid r = Some h) \/ (x <> o /\ x <> o' /\ robj m x = Some y /\ r_gid r <> Some h)).
  { intros x y h H1 H2. destruct (Nat.eq_dec x o') as [->|N1].
    - unfold robj in H1. rewrite O1 in H1. injection H1 as <-. auto.
    - destruct (Nat.eq_dec x o) as [->|N2].
      + unfold robj in H1. rewrite O2 in H1. injection H1 as <-. discriminate H2.
      + right. rewrite (robj_obj m m2 x (O3 _ N2 N1)) in H1. repeat split; auto. intros Q. apply N2. eapply A3; eauto. }
  assert (NS : forall w g tp, mws m w <> MSusp o g tp).
  { intros w g tp Q. destruct (A7 _ _ _ _ Q) as (x & X1 & X2). rewrite Hr in X1. injection X1 as <-.
    destruct (A2 _ _ _ Hr X2) as (k & rf & [Lo Lc Lr Lw Lk] & B1 & B2). assert (r = recv_of g rf (S g)) by (rewrite Ho in Lo; destruct k; cbn in Lo; congruence).
    subst r. apply Lw in Q. apply (i_ws _ _ (A1 g)) in Q. cbn in Haw. congruence. }
  constructor; auto.
  - intros x y h H1 H2. destruct (G _ _ _ H1 H2) as [(-> & -> & Q)|(N1 & N2 & H3 & N3)].
    + destruct (A2 _ _ _ Hr Q) as (k & rf & [Lo Lc Lr Lw Lk] & B1 & B2). rewrite Ho in Lo. destruct k; cbn in Lo; try discriminate. injection Lo as Lo.
      exists KLive, rf. split; auto. constructor; cbn -[upd].
      * now rewrite O1, Lo.
      * now rewrite C1.
      * rewrite C2. auto.
      * intros w tp. rewrite Lw, C3. split; intros X.
        -- exfalso. eapply NS; eauto.
        -- exfalso. destruct (A7 _ _ _ _ X) as (z & Z1 & _). congruence.
      * intros w. rewrite C3. auto.
    + destruct (A2 _ _ _ H3 H2) as (k & rf & [Lo Lc Lr Lw Lk] & B). exists k, rf. split; auto.
      constructor; rewrite ?O3, ?C1, ?C2 by assumption; auto.
      * now rewrite Q6.
      * intros w tp. now rewrite C3.
      * intros w. rewrite C3. auto.
  - intros x1 x2 y1 y2 h H1 H2 H3 H4. destruct (G _ _ _ H1 H2) as [(-> & -> & Q)|(N1 & N2 & H5 & N3)]; destruct (G _ _ _ H3 H4) as [(-> & -> & Q')|(N4 & N5 & H6 & N6)]; try congruence.
    eapply A3; eauto.
  - intros h. now rewrite C1.
  - intros h. rewrite C2. destruct (r_gid r) as [g|] eqn:Hg.
    + destruct (Nat.eq_dec h g) as [->|N]; [rewrite Q7 by reflexivity; now destruct (rec (S g))|]. rewrite Q6 by congruence. auto.
    + rewrite Q6 by discriminate. auto.
  - intros h x Q. rewrite C2 in Q.
    assert (D : r_gid r = Some h \/ r_gid r <> Some h) by (destruct (r_gid r) as [g|]; [destruct (Nat.eq_dec g h); [left|right]; congruence|right; discriminate]).
    destruct D as [D|D].
    + rewrite (Q7 _ D) in Q. destruct (rec (S h)); [|discriminate]. injection Q as <-. exists r. split; auto. unfold robj. now rewrite O1.
    + rewrite (Q6 _ D) in Q. destruct (A6 _ _ Q) as (y & X1 & X2). exists y. split; auto. rewrite (robj_obj m m2 x); auto. apply O3; intros ->; congruence.
  - intros w x h tp Q. rewrite C3 in Q. destruct (A7 _ _ _ _ Q) as (y & X1 & X2). exists y. split; auto. rewrite (robj_obj m m2 x); auto. apply O3; intros ->; [eapply NS; eauto|congruence].
  - intros x y H1 H2. destruct (Nat.eq_dec x o') as [->|N1].
    + unfold robj in H1. rewrite O1 in H1. injection H1 as <-. eauto.
    + destruct (Nat.eq_dec x o) as [->|N2].
      * unfold robj in H1. rewrite O2 in H1. injection H1 as <-. auto.
      * rewrite (robj_obj m m2 x (O3 _ N2 N1)) in H1. eauto.
  - intros h. rewrite C4. auto.
  - intros h w. rewrite C3. eauto.
  - congruence.
Qed.
End Proofs.
