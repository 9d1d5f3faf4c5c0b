(** Invariants of correct task use. *)
From Coq Require Import List Bool Arith Lia.
From Verif Require Import Task_Model Task_Spec.
Import ListNotations.

Section Inv.
Context {V E : Type}.
Notation event := (event V E).
Notation state := (state V E).
Notation view := (view V E).

(** A handle [h] that stands for coroutine [c]. *)
Definition Owned (s : state) (v : view) h c : Prop :=
  (done (hs s h) = false /\ exc (hs s h) = None /\ res (hs s h) = None /\ rec (co s c) = Some h /\ fate v c = None /\
    match cs (co s c) with Ready => aw (hs s h) = None | Queued => aw (hs s h) <> None | Running => True | _ => False end)
  \/ (done (hs s h) = true /\
      match fate v c with
      | Some (FRet x) => exc (hs s h) = None /\ (res (hs s h) = Some (Fresh x) /\ ~ In c (gave v) \/ res (hs s h) = Some Hollow /\ In c (gave v))
      | Some (FThrow e) => exc (hs s h) = Some (XUser e)
      | Some FKill => exc (hs s h) = Some XUnexpected
      | None => False
      end /\ (forall w, aw (hs s h) = Some w -> cs (co s c) = Returning /\ rec (co s c) = Some h)).
(** A handle that stands for nothing. *)
Definition Free (s : state) h : Prop :=
  aw (hs s h) = None /\ done (hs s h) = true /\
  (exc (hs s h) = Some XMoved \/ exc (hs s h) = None) /\ (res (hs s h) = None \/ res (hs s h) = Some Hollow).
Definition HI (s : state) (v : view) h : Prop :=
  if live s h then match own v h with Some c => Owned s v h c | None => Free s h end
  else own v h = None /\ aw (hs s h) = None.
Definition CI (s : state) (v : view) c : Prop :=
  match cs (co s c) with
  | NotYet => born v c = false /\ rec (co s c) = None /\ fate v c = None /\ over v c = false /\ ~ In c (gave v) /\ (forall h, own v h <> Some c)
              /\ begun v c = false
  | Ready => born v c = true /\ begun v c = false /\ fate v c = None /\ over v c = false /\ rec (co s c) <> None
  | Queued => born v c = true /\ begun v c = false /\ fate v c = None /\ over v c = false /\ rec (co s c) <> None /\ asked v c = true
  | Running => born v c = true /\ begun v c = true /\ fate v c = None /\ over v c = false
  | Returning => born v c = true /\ fate v c <> None /\ over v c = false
  | Dead => born v c = true /\ over v c = true /\ fate v c <> None /\ rec (co s c) = None
  | Leaked => born v c = true /\ over v c = false /\ (exists e, fate v c = Some (FThrow e)) /\ rec (co s c) = None
  end /\
  (fate v c = None -> ~ In c (gave v)) /\
  forall h, rec (co s c) = Some h -> own v h = Some c /\ pr (hs s h) = Some c /\ live s h = true.
Definition WI (s : state) (v : view) w : Prop :=
  match ws s w with
  | WAwait h => aw (hs s h) = Some w /\ priv (hs s h) = None /\ waits v w = Some h /\ ~ In w (called v)
  | WSpawn h => aw (hs s h) = Some w /\ priv (hs s h) = Some w /\ waits v w = Some h /\ ~ In w (called v)
  | WPosted h => live s h = true /\ done (hs s h) = true /\ aw (hs s h) = None /\ priv (hs s h) = Some w /\
                 (exc (hs s h) <> None \/ res (hs s h) <> None) /\ (forall c, rec (co s c) <> Some h) /\ waits v w = Some h /\ ~ In w (called v)
  | WOver => waits v w = None /\ In w (called v)
  | _ => waits v w = None /\ ~ In w (called v)
  end.
Record INV (s : state) (v : view) : Prop := {
  ih : forall h, HI s v h;
  ic : forall c, CI s v c;
  iw : forall w, WI s v w;
  ia : forall h w, aw (hs s h) = Some w -> ws s w = WAwait h \/ ws s w = WSpawn h;
  ii : forall h h' c, own v h = Some c -> own v h' = Some c -> h = h';
  ig : NoDup (gave v);
  il : NoDup (called v) }.

(** What is true at each event. *)
Definition P (a : list event) (e : event) : Prop :=
  let v := view_of a in
  match e with
  | EBegin c => born v c = true /\ asked v c = true /\ begun v c = false /\ over v c = false /\ fate v c = None
  | EReturn c _ | EThrow c _ => fate v c = None
  | EDiscard c => begun v c = false
  | EResult w h r =>
      waits v w = Some h /\
      match own v h with
      | Some c => answers v c r \/ r = RExc XDetached /\ (exists a', a = a' ++ [EInterrupt w])
      | None => hollow_answer r
      end
  | EHandler w h r => waits v w = Some h /\ ~ In w (called v) /\
      match own v h with Some c => answers v c r | None => hollow_answer r end
  | ESignal c t => born v c = true /\ over v c = false
  | EBad _ => False
  | EEscape c e => forall h, own v h <> Some c
  | EKilled w => exists b c, a = b ++ [EKill c] \/ a = b ++ [EDiscard c]
  | _ => True
  end.

Lemma init_INV : INV init (view_of []).
Proof.
  split; intros; unfold HI, CI, WI, live; cbn in *; auto; try discriminate; try constructor.
  - repeat split; auto; discriminate.
  - repeat split; auto; discriminate.
Qed.

Lemma NoDup_snoc {A} (l : list A) x : NoDup l -> ~ In x l -> NoDup (l ++ [x]).
Proof.
  induction 1 as [|y l H N IH]; cbn; intros Q; constructor; [intros []|constructor|..].
  - rewrite in_app_iff. cbn. intros [|[|[]]]; subst; auto.
  - apply IH. auto.
Qed.
Lemma upd_eq {A} (f : nat -> A) i a : upd f i a i = a.
Proof. unfold upd. now rewrite Nat.eqb_refl. Qed.
Lemma upd_ne {A} (f : nat -> A) i j a : j <> i -> upd f i a j = f j.
Proof. intros H. unfold upd. destruct (Nat.eqb_spec j i); congruence. Qed.

Ltac ucase := repeat (
  match goal with
  | H : context [upd _ ?i _ ?i] |- _ => rewrite upd_eq in H
  | |- context [upd _ ?i _ ?i] => rewrite upd_eq
  | H : context [upd _ ?i _ ?j], N : ?j <> ?i |- _ => rewrite (upd_ne _ _ _ _ N) in H
  | H : context [upd _ ?i _ ?j], N : ?i <> ?j |- _ => rewrite (upd_ne _ _ _ _ (not_eq_sym N)) in H
  | N : ?j <> ?i |- context [upd _ ?i _ ?j] => rewrite (upd_ne _ _ _ _ N)
  | N : ?i <> ?j |- context [upd _ ?i _ ?j] => rewrite (upd_ne _ _ _ _ (not_eq_sym N))
  | |- context [upd _ ?i _ ?j] => destruct (Nat.eq_dec j i); [subst|]
  | H : context [upd _ ?i _ ?j] |- _ => destruct (Nat.eq_dec j i); [subst|]
  end; cbn -[upd] in * ).

Lemma absent_not_live (s : state) h : absent s h = true -> live s h = false.
Proof. unfold live, absent. destruct (life_of (hs s h)); auto; discriminate. Qed.
Lemma live_life (s : state) h : live s h = true -> life_of (hs s h) = Live.
Proof. unfold live. destruct (life_of (hs s h)); auto; discriminate. Qed.
Lemma user_live (s : state) h : user s h = true -> live s h = true /\ priv (hs s h) = None.
Proof. unfold user. intros H. apply andb_true_iff in H as [H1 H2]. destruct (priv (hs s h)); auto. discriminate. Qed.

Lemma rec_live s v c h : INV s v -> rec (co s c) = Some h -> live s h = true /\ own v h = Some c /\ pr (hs s h) = Some c.
Proof. intros I H. destruct (ic _ _ I c) as (_ & _ & Q). apply Q in H. tauto. Qed.
Lemma rec_owned s v c h : INV s v -> rec (co s c) = Some h -> Owned s v h c.
Proof.
  intros I H. destruct (rec_live _ _ _ _ I H) as (L & O & _). pose proof (ih _ _ I h) as Q. unfold HI in Q. rewrite L, O in Q. tauto.
Qed.

Ltac fin := repeat (match goal with
  | H : _ /\ _ |- _ => destruct H
  | H : exists _, _ |- _ => destruct H
  | H : Some _ = Some _ |- _ => injection H as H
  | |- _ /\ _ => split
  | |- _ -> _ => intro
  | |- forall _, _ => intro end); subst; try congruence; try tauto; eauto 4.
Ltac start_all I := split;
  [ let k := fresh "k" in intros k; let Q := fresh "Q" in pose proof (ih _ _ I k) as Q; unfold HI, Owned, Free, live in *
  | let k := fresh "d" in intros k; let Q := fresh "Q" in pose proof (ic _ _ I k) as Q; unfold CI, live in *
  | let k := fresh "w" in intros k; let Q := fresh "Q" in pose proof (iw _ _ I k) as Q; unfold WI, live in *
  | let k := fresh "k" in let w := fresh "w" in intros k w; let Q := fresh "Q" in pose proof (ia _ _ I k w) as Q
  | let k := fresh "k" in let k' := fresh "k'" in let d := fresh "d" in intros k k' d; let Q := fresh "Q" in pose proof (ii _ _ I k k' d) as Q
  | try exact (ig _ _ I) | try exact (il _ _ I) ]; cbn -[upd] in *.
Ltac lcase s k := destruct (match life_of (hs s k) with Live => true | _ => false end) eqn:?.

Lemma create_INV s v c h :
  INV s v -> cs (co s c) = NotYet -> live s h = false ->
  INV (set_h h (mkH Live false None None None (Some c) None) (set_c c (mkC Ready (Some h)) s)) (observe v (ECreate c h)).
Proof.
  intros I C A.
  pose proof (ih _ _ I h) as Hh. unfold HI in Hh. rewrite A in Hh. destruct Hh as [Ho Ha].
  pose proof (ic _ _ I c) as Hc. unfold CI in Hc. rewrite C in Hc. destruct Hc as ((C1 & C2 & C3 & C4 & C5 & C6 & C9) & C7 & C8).
  start_all I.
  - ucase; [left; fin|].
    lcase s k; auto. destruct (own v k) as [d|] eqn:Ok; auto.
    ucase; auto. now elim (C6 k).
  - ucase; [fin; ucase; fin|].
    destruct Q as (Q & Q1 & Q2). split; [|split]; auto.
    + destruct (cs (co s d)); fin; ucase; fin.
    + intros k K. apply Q2 in K as (K1 & K2 & K3). ucase; fin.
  - destruct (ws s w); auto; ucase; fin; try (unfold live in A; congruence).
    intros X. ucase; fin. 
  - ucase; fin.
  - ucase; fin; try (exfalso; eapply C6; eassumption).
Qed.

Lemma INV_ext s s' v : INV s v -> (forall h, hs s' h = hs s h) -> (forall c, co s' c = co s c) -> (forall w, ws s' w = ws s w) -> INV s' v.
Proof.
  intros I A B C. split.
  - intros h. pose proof (ih _ _ I h) as Q. unfold HI, Owned, Free, live in *. rewrite A.
    lcase s h; auto. destruct (own v h); auto. now rewrite B.
  - intros c. pose proof (ic _ _ I c) as Q. unfold CI, live in *. rewrite B. destruct Q as (Q1 & Q2 & Q3). split; [|split]; auto.
    intros h. rewrite A. auto.
  - intros w. pose proof (iw _ _ I w) as Q. unfold WI, live in *. rewrite C. destruct (ws s w); auto; rewrite A; auto.
    destruct Q as (Q1 & Q2 & Q3 & Q4 & Q5 & Q6 & Q7). repeat split; auto; try tauto. intros c. rewrite B. auto.
  - intros h w. rewrite A, C. apply (ia _ _ I).
  - apply (ii _ _ I).
  - apply (ig _ _ I).
  - apply (il _ _ I).
Qed.
Lemma INV_vext s v v' : INV s v -> (forall h, own v' h = own v h) -> gave v' = gave v ->
  (forall w, waits v' w = waits v w) -> (forall c, fate v' c = fate v c) -> (forall c, born v' c = born v c) -> (forall c, begun v' c = begun v c) ->
  (forall c, asked v c = true -> asked v' c = true) -> (forall c, over v' c = over v c) -> called v' = called v -> INV s v'.
Proof.
  intros I A C D F G Bg As H L. split.
  - intros h. pose proof (ih _ _ I h) as Q. unfold HI, Owned in *. rewrite A. destruct (live s h); auto. destruct (own v h); auto. rewrite C, F. exact Q.
  - intros c. pose proof (ic _ _ I c) as Q. unfold CI in *. rewrite C, F, G, H, Bg. destruct Q as (Q1 & Q2 & Q3). split; [|split]; auto.
    + destruct (cs (co s c)); auto; [|fin; auto]. destruct Q1 as (? & ? & ? & ? & ? & Q & ?). repeat split; auto. intros h. rewrite A. auto.
    + intros h. rewrite A. auto.
  - intros w. pose proof (iw _ _ I w) as Q. unfold WI in *. now rewrite D, L.
  - apply (ia _ _ I).
  - intros h h' c. rewrite !A. apply (ii _ _ I).
  - rewrite C. apply (ig _ _ I).
  - rewrite L. apply (il _ _ I).
Qed.

(** The waiter [w] of [h] leaves: a coroutine continues, or it is destroyed. *)
Lemma leave_INV s v h w x :
  INV s v -> aw (hs s h) = Some w -> (forall c, cs (co s c) = Queued -> rec (co s c) <> Some h) -> (x = WIdle \/ x = WKilled) ->
  INV (set_w w x (set_h h (set_aw None (hs s h)) s)) (v_waits w None v).
Proof.
  intros I A NQ X. assert (W : ws s w = WAwait h \/ ws s w = WSpawn h) by exact (ia _ _ I _ _ A).
  assert (Cl : ~ In w (called v)).
  { pose proof (iw _ _ I w) as Z. unfold WI in Z. destruct W as [W|W]; rewrite W in Z; tauto. }
  start_all I.
  - ucase; auto. lcase s h; [|tauto].
    destruct (own v h) as [c|]; [|fin].
    destruct Q as [Q2|(Q2 & Q3 & Q4)]; [left|right; fin]. destruct Q2 as (? & ? & ? & R & ? & Q2). repeat split; auto.
    destruct (cs (co s c)) eqn:C; auto. now elim (NQ c).
  - destruct Q as (Q1 & Q2 & Q3). split; [|split]; auto. intros k K. apply Q3 in K as (K1 & K2 & K3). ucase; fin.
  - ucase; [destruct X; subst; auto|].
    destruct (ws s w0) eqn:W0; auto; ucase; fin.
  - ucase; fin. exfalso. destruct (Q H), W; congruence.
  - exact Q.
Qed.

(** The coroutine ends: outcome stored in the handle. *)
Definition stored (x : ending) (e : option (exn E)) (r : option (content V)) : Prop :=
  match x with
  | FRet v => e = None /\ r = Some (Fresh v)
  | FThrow u => e = Some (XUser u)
  | FKill => e = Some XUnexpected
  end.
Lemma running_fate s v c : INV s v -> cs (co s c) = Running \/ cs (co s c) = Queued \/ cs (co s c) = Ready ->
  born v c = true /\ fate v c = None /\ over v c = false /\ ~ In c (gave v).
Proof.
  intros I C. pose proof (ic _ _ I c) as Hc. unfold CI in Hc. destruct Hc as (Hc & G & _).
  destruct C as [C|[C|C]]; rewrite C in Hc; fin.
Qed.
Lemma end_INV s v c h x e r :
  INV s v -> cs (co s c) = Running \/ cs (co s c) = Queued -> rec (co s c) = Some h -> stored x e r ->
  let y := hs s h in
  INV (set_h h (mkH (life_of y) true e r (aw y) (pr y) (priv y)) (set_c c (mkC Returning (Some h)) s)) (v_fate c x v).
Proof.
  intros I C R X y. destruct (rec_live _ _ _ _ I R) as (L & O & F).
  destruct (running_fate s v c I) as (C1 & C2 & C3 & C4); [tauto|].
  start_all I.
  - ucase.
    + unfold y. rewrite L in *. rewrite O in *. right. ucase. split; auto. split; [|fin].
      destruct x; cbn in X; fin.
    + lcase s k; auto. destruct (own v k) as [d|] eqn:Ok; auto.
      ucase; auto. elim n. exact (ii _ _ I _ _ _ Ok O).
  - ucase.
    + repeat split; fin; ucase; unfold y; fin.
    + destruct Q as (Q1 & Q2 & Q3). split; [|split]; auto. intros k K. apply Q3 in K as (K1 & K2 & K3). ucase; unfold y; fin.
  - destruct (ws s w); auto; unfold y; ucase; fin; auto.
    intros K. ucase; fin.
  - ucase; unfold y; fin.
  - exact Q.
Qed.
Lemma end_none_INV s v c x :
  INV s v -> cs (co s c) = Running -> rec (co s c) = None ->
  INV (set_c c (mkC Returning None) s) (v_fate c x v).
Proof.
  intros I C R.
  destruct (running_fate s v c I) as (C1 & C2 & C3 & C4); [tauto|].
  assert (N : forall k, own v k <> Some c).
  { intros k K. pose proof (ih _ _ I k) as Q. unfold HI, Owned in Q. rewrite K in Q. destruct (live s k); [|destruct Q; discriminate].
    rewrite C2 in Q. destruct Q as [Q|(_ & [] & _)]. fin. }
  start_all I.
  - lcase s k; auto. destruct (own v k) as [d|] eqn:Ok; auto. ucase; auto. now elim (N k).
  - ucase; [fin|exact Q].
  - destruct (ws s w); auto. fin. intros K. ucase; fin.
  - auto.
  - exact Q.
Qed.
(** The frame is destroyed. *)
Lemma dead_INV s v c :
  INV s v -> cs (co s c) = Returning -> (forall h, rec (co s c) = Some h -> aw (hs s h) = None) ->
  INV (set_c c (mkC Dead None) s) (v_over c v).
Proof.
  intros I C R.
  pose proof (ic _ _ I c) as Hc. unfold CI in Hc. rewrite C in Hc. destruct Hc as ((C1 & C2 & C3) & C4 & C5).
  start_all I.
  - lcase s k; auto. destruct (own v k) as [d|] eqn:Ok; auto. ucase; auto.
    right. destruct Q as [Q2|(Q2 & Q3 & Q4)]; [fin|]. split; auto. split; auto.
    intros w W. destruct (Q4 _ W) as [_ X]. apply R in X. congruence.
  - ucase; [fin|exact Q].
  - destruct (ws s w); auto. fin. intros K. ucase; fin.
  - auto.
  - exact Q.
Qed.
Lemma leak_INV s v c e :
  INV s v -> cs (co s c) = Returning -> rec (co s c) = None -> fate v c = Some (FThrow e) -> INV (set_c c (mkC Leaked None) s) v.
Proof.
  intros I C R F.
  pose proof (ic _ _ I c) as Hc. unfold CI in Hc. rewrite C in Hc. destruct Hc as ((C1 & C2 & C3) & C4 & C5).
  start_all I.
  - lcase s k; auto. destruct (own v k) as [d|] eqn:Ok; auto. ucase; auto.
    right. destruct Q as [Q2|(Q2 & Q3 & Q4)]; [fin|]. split; auto. split; auto.
    intros w W. destruct (Q4 _ W) as [_ X]. congruence.
  - ucase; [fin|exact Q].
  - destruct (ws s w); auto. fin. intros K. ucase; fin.
  - auto.
  - exact Q.
Qed.

(** A handle hands out its result. *)
Lemma give_INV s v h :
  INV s v -> live s h = true -> done (hs s h) = true -> empty s h = false ->
  exists s1 r, get_result h s = (s1, Some r) /\ INV s1 (v_give h r v) /\
    match own v h with Some c => answers v c r | None => hollow_answer r end.
Proof.
  intros I L D M. pose proof (ih _ _ I h) as Q2. unfold HI in Q2. rewrite L in Q2.
  unfold get_result. rewrite D.
  assert (G : forall s1, INV s1 v -> forall r, (forall x, r <> RVal (Fresh x)) -> INV s1 (v_give h r v)).
  { intros s1 J r N. unfold v_give. destruct r as [[x| |]|]; auto. now elim (N x). }
  destruct (exc (hs s h)) as [e|] eqn:Ee.
  - eexists; exists (RExc e). split; [reflexivity|]. split.
    + apply G; [auto|discriminate].
    + destruct (own v h) as [c|]; [|destruct Q2 as (_ & _ & [X|X] & _); [left|..]; congruence].
      unfold answers. destruct Q2 as [Q2|(_ & Q2 & _)]; [fin|]. destruct (fate v c) as [[]|]; fin.
  - unfold empty in M. rewrite D, Ee in M. destruct (res (hs s h)) as [x|] eqn:Er; [|discriminate].
    eexists; exists (RVal x). split; [reflexivity|].
    assert (Co : (own v h = None \/ exists c, own v h = Some c /\ In c (gave v)) -> x = Hollow ->
      INV (set_h h (mkH (life_of (hs s h)) true None (Some Hollow) (aw (hs s h)) (pr (hs s h)) (priv (hs s h))) s) v).
    { intros Oh ->. start_all I.
      - ucase; auto. unfold live in L. rewrite ?L in *. destruct (own v h) as [c|] eqn:O.
        + destruct Q2 as [Q2|(Q2 & Q3 & Q4)]; [fin|]. right. split; auto. split; auto. destruct (fate v c) as [[]|]; fin.
        + fin.
      - destruct Q as (Z1 & Z2 & Z3). split; [|split]; auto. intros k K. apply Z3 in K as (K1 & K2 & K3). ucase; fin.
      - destruct (ws s w); auto; ucase; fin; try (right; congruence).
      - ucase; fin.
      - exact Q. }
    destruct (own v h) as [c|] eqn:O.
    + destruct Q2 as [Q2|(_ & Q2 & Q3)]; [fin|].
      destruct (fate v c) as [[u| |]|] eqn:F; try (exfalso; fin; fail).
      destruct Q2 as (_ & Q2). split; [|unfold answers; rewrite F; destruct Q2 as [[Q2 Q4]|[Q2 Q4]]; [left|right]; split; auto; congruence].
      destruct Q2 as [[Q2 Q4]|[Q2 Q4]]; rewrite Er in Q2; injection Q2 as Q2; subst x; cbn; rewrite ?O.
      * (* intact *)
        start_all I.
        -- ucase; auto; unfold live in L; rewrite ?L, ?O, ?D.
           ++ rewrite F. right. split; auto. split; [|exact Q3]. split; auto. right. split; auto. apply in_or_app. cbn. auto.
           ++ lcase s k; auto.
              destruct (own v k) as [d|] eqn:Ok; auto. destruct Q as [Z2|(Z2 & Z3 & Z4)]; [left; auto|right]. split; auto. split; auto.
              assert (N : d <> c) by (intros ->; apply n; exact (ii _ _ I _ _ _ Ok O)).
              destruct (fate v d) as [[]|]; auto. destruct Z3 as [Z3 [Z5|Z5]]; split; auto; [left|right]; destruct Z5; split; auto.
              ** rewrite in_app_iff. cbn. intros [|[|[]]]; auto.
              ** apply in_or_app. auto.
        -- destruct Q as (Z1 & Z2 & Z3). split; [|split].
           ++ destruct (cs (co s d)) eqn:Cd; auto. destruct Z1 as (? & ? & ? & ? & ? & Z & ?). repeat split; auto.
              rewrite in_app_iff. cbn. intros [|[<-|[]]]; auto. congruence.
           ++ intros Fd. rewrite in_app_iff. cbn. intros [|[<-|[]]]; [now apply Z2|congruence].
           ++ intros k K. apply Z3 in K as (K1 & K2 & K3). ucase; fin.
        -- destruct (ws s w); auto; ucase; fin; try (right; congruence).
        -- ucase; fin.
        -- exact Q.
        -- apply NoDup_snoc; auto. exact (ig _ _ I).
      * apply Co; eauto.
    + destruct Q2 as (_ & _ & _ & [Q2|Q2]); [congruence|]. rewrite Er in Q2; injection Q2 as Q2; subst x.
      split; [|right; auto]. cbn. apply Co; auto.
Qed.

Lemma ready_cases s v h c : INV s v -> live s h = true -> done (hs s h) = false -> pr (hs s h) = Some c ->
  own v h = Some c /\ exc (hs s h) = None /\ res (hs s h) = None /\ rec (co s c) = Some h /\ fate v c = None /\
  match cs (co s c) with Ready => aw (hs s h) = None | Queued => aw (hs s h) <> None | Running => True | _ => False end.
Proof.
  intros I L D F. pose proof (ih _ _ I h) as Q. unfold HI in Q. rewrite L in Q.
  destruct (own v h) as [d|]; [|destruct Q as (_ & Q & _); congruence].
  destruct Q as [Q|Q]; [|destruct Q; congruence]. destruct Q as (_ & Q1 & Q2 & R & Q3 & Q4).
  destruct (rec_live _ _ _ _ I R) as (_ & _ & F'). assert (d = c) by congruence. subst. auto 10.
Qed.
Lemma undone_cases s v h : INV s v -> live s h = true -> done (hs s h) = false ->
  exists c, pr (hs s h) = Some c /\ own v h = Some c /\ exc (hs s h) = None /\ res (hs s h) = None /\ rec (co s c) = Some h /\ fate v c = None /\
  match cs (co s c) with Ready => aw (hs s h) = None | Queued => aw (hs s h) <> None | Running => True | _ => False end.
Proof.
  intros I L D. pose proof (ih _ _ I h) as Q. unfold HI in Q. rewrite L in Q.
  destruct (own v h) as [d|]; [|destruct Q as (_ & Q & _); congruence].
  destruct Q as [Q|Q]; [|destruct Q; congruence]. destruct Q as (_ & Q1 & Q2 & R & Q3 & Q4).
  destruct (rec_live _ _ _ _ I R) as (_ & _ & F'). exists d. auto 10.
Qed.

(** Awaiting an unstarted task. *)
Lemma await_INV s v w h c :
  INV s v -> live s h = true -> priv (hs s h) = None -> done (hs s h) = false -> pr (hs s h) = Some c -> cs (co s c) = Ready -> ws s w = WIdle ->
  INV (set_w w (WAwait h) (set_h h (set_aw (Some w) (hs s h)) (set_c c (mkC Running (rec (co s c))) s)))
    (v_begun c (v_waits w (Some h) (v_asked h v))).
Proof.
  intros I L Pv D F C W. destruct (ready_cases s v h c I L D F) as (O & X1 & X2 & X4 & X5 & A). rewrite C in A.
  destruct (running_fate s v c I) as (B1 & B2 & B3 & B4); [tauto|].
  unfold v_asked. rewrite O.
  start_all I.
  - ucase; auto; unfold live in L; rewrite ?L, ?O in *; [left; ucase; auto 10|].
    lcase s k; auto. destruct (own v k) as [d|] eqn:Ok; auto. ucase; auto. elim n. exact (ii _ _ I _ _ _ Ok O).
  - destruct Q as (Q1 & Q2 & Q3). ucase; [repeat split; fin; ucase; fin|].
    split; [|split]; auto. intros k K. apply Q3 in K as (K1 & K2 & K3). ucase; fin.
  - ucase; [rewrite W in Q; fin|]. destruct (ws s w0); auto; ucase; fin. intros K. ucase; fin.
  - ucase; fin. exfalso. destruct (Q H); congruence.
  - exact Q.
Qed.
Lemma queue_INV s v w h c :
  INV s v -> live s h = true -> priv (hs s h) = Some w -> done (hs s h) = false -> pr (hs s h) = Some c -> cs (co s c) = Ready -> ws s w = WIdle ->
  INV (set_w w (WSpawn h) (set_h h (set_aw (Some w) (hs s h)) (set_c c (mkC Queued (rec (co s c))) s)))
    (v_waits w (Some h) (v_asked h v)).
Proof.
  intros I L Pv D F C W. destruct (ready_cases s v h c I L D F) as (O & X1 & X2 & X4 & X5 & A). rewrite C in A.
  destruct (running_fate s v c I) as (B1 & B2 & B3 & B4); [tauto|].
  unfold v_asked. rewrite O.
  start_all I.
  - ucase; auto; unfold live in L; rewrite ?L, ?O in *; [left; ucase; repeat split; auto; discriminate|].
    lcase s k; auto. destruct (own v k) as [d|] eqn:Ok; auto. ucase; auto. elim n. exact (ii _ _ I _ _ _ Ok O).
  - destruct Q as (Q1 & Q2 & Q3). ucase; [rewrite C in Q1; repeat split; fin; ucase; fin|].
    split; [|split]; auto. intros k K. apply Q3 in K as (K1 & K2 & K3). ucase; fin.
  - ucase; [rewrite W in Q; fin|]. destruct (ws s w0); auto; ucase; fin. intros K. ucase; fin.
  - ucase; fin. exfalso. destruct (Q H); congruence.
  - exact Q.
Qed.
Lemma begin_INV s v c : INV s v -> cs (co s c) = Queued -> INV (set_c c (mkC Running (rec (co s c))) s) (v_begun c v).
Proof.
  intros I C. destruct (running_fate s v c I) as (B1 & B2 & B3 & B4); [tauto|].
  start_all I.
  - lcase s k; auto. destruct (own v k) as [d|] eqn:Ok; auto. ucase; auto.
    destruct Q as [Q|(Q1 & Q2 & Q3)]; [left; rewrite C in Q; fin|right; rewrite B2 in Q2; destruct Q2].
  - destruct Q as (Q1 & Q2 & Q3). ucase; [repeat split; auto; now apply Q3|]. auto.
  - destruct (ws s w); auto. fin. intros K. ucase; fin.
  - auto.
  - exact Q.
Qed.
(** A spawn whose task is done at once. *)
Lemma postdone_INV s v w h :
  INV s v -> live s h = true -> priv (hs s h) = Some w -> done (hs s h) = true -> empty s h = false -> aw (hs s h) = None ->
  (forall c, rec (co s c) <> Some h) -> ws s w = WIdle -> INV (set_w w (WPosted h) s) (v_waits w (Some h) v).
Proof.
  intros I L Pv D M A NR W.
  start_all I; auto.
  - ucase; auto. rewrite W in Q. unfold empty in M. rewrite D in M.
    repeat split; auto; try tauto. destruct (exc (hs s h)); [left; discriminate|]. destruct (res (hs s h)); [right; discriminate|discriminate].
  - intros K. ucase; auto. exfalso. destruct (Q K); congruence.
Qed.
(** The coroutine of a spawned task reaches its end. *)
Lemma post_INV s v c h w :
  INV s v -> cs (co s c) = Returning -> rec (co s c) = Some h -> aw (hs s h) = Some w -> ws s w = WSpawn h ->
  INV (set_w w (WPosted h) (set_h h (set_aw None (hs s h)) (set_c c (mkC Dead None) s))) (v_over c v).
Proof.
  intros I C R A W. destruct (rec_live _ _ _ _ I R) as (L & O & F).
  pose proof (rec_owned _ _ _ _ I R) as Ow. unfold Owned in Ow. rewrite C in Ow. destruct Ow as [Ow|(D & Ow & Nw)]; [fin|].
  pose proof (ic _ _ I c) as Hc. unfold CI in Hc. rewrite C in Hc. destruct Hc as ((C1 & C2 & C3) & C4 & C5).
  start_all I.
  - ucase; auto; rewrite ?L, ?O in *.
    + right. split; auto. split; auto. discriminate.
    + lcase s k; auto. destruct (own v k) as [d|] eqn:Ok; auto. ucase; auto. elim n. exact (ii _ _ I _ _ _ Ok O).
  - destruct Q as (Q1 & Q2 & Q3). ucase; [repeat split; fin|]. split; [|split]; auto.
    intros k K. apply Q3 in K as (K1 & K2 & K3). ucase; fin.
  - ucase.
    + rewrite W in Q. repeat split; auto; try tauto.
      * destruct (fate v c) as [[]|]; [destruct Ow as [_ [[Ow _]|[Ow _]]]; right; congruence|left; congruence|left; congruence|contradiction].
      * intros d K. ucase; fin. apply (rec_live _ _ _ _ I) in K. fin.
    + destruct (ws s w0); auto; ucase; fin. intros K. ucase; fin.
  - ucase; fin. exfalso. destruct (Q H); congruence.
  - exact Q.
Qed.

Lemma not_rec s v h : INV s v -> live s h = true -> returning s h = false -> done (hs s h) = true -> forall c, rec (co s c) <> Some h.
Proof.
  intros I L R D c K. pose proof (rec_owned _ _ _ _ I K) as Q. destruct (rec_live _ _ _ _ I K) as (_ & O & F).
  unfold Owned in Q. rewrite D in Q. destruct Q as [Q|(_ & Q & _)]; [fin|].
  unfold returning in R. rewrite F, K, Nat.eqb_refl in R.
  pose proof (ic _ _ I c) as Hc. unfold CI in Hc. destruct (cs (co s c)); destruct Hc as (Hc & _); try discriminate; try (fin; fail).
  all: destruct Hc as (_ & _ & Hc & _); rewrite Hc in Q; exact Q.
Qed.

(** A handle disappears, its coroutine no longer knows one. *)
Lemma drop_INV s v h s1 y :
  INV s v -> live s h = true -> aw (hs s h) = None -> priv (hs s h) = None ->
  hs s1 = hs s -> ws s1 = ws s ->
  (forall c, co s1 c = co s c \/ cs (co s c) = Running /\ rec (co s c) = Some h /\ co s1 c = mkC Running None) ->
  (forall c, rec (co s1 c) <> Some h) ->
  life_of y = Gone -> aw y = None ->
  INV (set_h h y s1) (v_own (upd (own v) h None) v).
Proof.
  intros I L A Pv D1 D2 D3 NR Ly Ay.
  start_all I; rewrite ?D1, ?D2.
  - ucase; [now rewrite Ly|].
    lcase s k; auto. destruct (own v k) as [d|] eqn:Ok; auto.
    assert (X : co s1 d = co s d).
    { destruct (D3 d) as [|(_ & Rd & _)]; auto. apply (rec_live _ _ _ _ I) in Rd as (_ & Rd & _). elim n. exact (ii _ _ I _ _ _ Ok Rd). }
    now rewrite X.
  - destruct Q as (Q1 & Q2 & Q3). destruct (D3 d) as [X|(X & Y & Z)].
    + rewrite X. specialize (NR d). rewrite X in NR. split; [|split]; auto.
      * destruct (cs (co s d)); fin. ucase; fin.
      * intros k K. assert (k <> h) by congruence. apply Q3 in K. ucase; fin.
    + rewrite Z. rewrite X in Q1. cbn. fin.
  - destruct (ws s w) eqn:W; auto; ucase; fin.
    destruct (D3 c) as [->|(_ & _ & ->)]; cbn; [auto|discriminate].
  - ucase; fin.
  - ucase; fin.
Qed.
(** An unstarted coroutine goes with its handle. *)
Lemma discard_INV s v h c y :
  INV s v -> live s h = true -> done (hs s h) = false -> pr (hs s h) = Some c -> cs (co s c) = Ready -> life_of y = Gone -> aw y = None ->
  INV (set_h h y (set_c c (mkC Dead None) s)) (v_over c (v_fate c FKill (v_own (upd (own v) h None) v))).
Proof.
  intros I L D F C Ly Ay. destruct (ready_cases s v h c I L D F) as (O & X1 & X2 & X4 & X5 & A). rewrite C in A.
  destruct (running_fate s v c I) as (B1 & B2 & B3 & B4); [tauto|].
  start_all I.
  - ucase; [now rewrite Ly|].
    lcase s k; auto. destruct (own v k) as [d|] eqn:Ok; auto. ucase; auto. elim n. exact (ii _ _ I _ _ _ Ok O).
  - ucase.
    + repeat split; fin.
    + destruct Q as (Q1 & Q2 & Q3). split; [|split]; auto.
      * destruct (cs (co s d)); fin. ucase; fin.
      * intros k K. destruct (rec_live _ _ _ _ I K) as (_ & K' & _). apply Q3 in K. ucase; fin.
  - destruct (ws s w); auto; ucase; fin. intros K. ucase; fin.
  - ucase; fin.
  - ucase; fin.
Qed.
(** A completion handler is called. *)
Lemma handler_INV s v w h :
  INV s v -> ws s w = WPosted h ->
  INV (set_w w WOver (set_h h (set_life Gone (hs s h)) s)) (v_called w (v_waits w None (v_own (upd (own v) h None) v))).
Proof.
  intros I W. pose proof (iw _ _ I w) as X. unfold WI in X. rewrite W in X. destruct X as (L & D & A & Pv & Ne & NR & Wt & Cl).
  start_all I.
  - ucase; auto.
  - destruct Q as (Q1 & Q2 & Q3). split; [|split]; auto.
    + destruct (cs (co s d)); fin. ucase; fin.
    + intros k K. assert (k <> h) by (intros ->; now elim (NR d)). apply Q3 in K. ucase; fin.
  - ucase.
    + rewrite W in Q. split; auto. apply in_or_app. cbn. auto.
    + destruct (ws s w0) eqn:W0; fin; try (rewrite in_app_iff; cbn; intros [|[|[]]]; auto); ucase; fin.
      apply in_or_app. auto.
  - ucase; fin.
    exfalso. destruct (Q H); congruence.
  - ucase; fin.
  - apply NoDup_snoc; auto. apply (il _ _ I).
Qed.

Lemma transfer_INV s v p g h :
  INV s v -> live s g = false -> live s h = true -> aw (hs s h) = None -> returning s h = false -> priv (hs s h) = None ->
  exists s1, transfer p g h s = (s1, []) /\ INV s1 (v_move g h v) /\
    hs s1 g = mkH Live (done (hs s h)) (exc (hs s h)) (res (hs s h)) None (pr (hs s h)) p /\
    ws s1 = ws s /\ (forall c, cs (co s1 c) = cs (co s c)) /\ (done (hs s h) = true -> forall c, rec (co s1 c) <> Some g).
Proof.
  intros I Lg L A R Pv.
  assert (N : g <> h) by (intros ->; congruence).
  pose proof (ih _ _ I g) as Hg. unfold HI in Hg. rewrite Lg in Hg. destruct Hg as [Og Ag].
  pose proof (ih _ _ I h) as Hh2. unfold HI in Hh2. rewrite L in Hh2.
  assert (NG : forall c, rec (co s c) <> Some g).
  { intros c K. apply (rec_live _ _ _ _ I) in K. fin. }
  assert (NP : forall w, ws s w <> WPosted g).
  { intros w K. pose proof (iw _ _ I w) as Q. unfold WI in Q. rewrite K in Q. fin. }
  assert (NP' : forall w, ws s w <> WPosted h).
  { intros w K. pose proof (iw _ _ I w) as Q. unfold WI in Q. rewrite K in Q. fin. }
  unfold transfer. rewrite A. pose proof (live_life _ _ L) as Lf. rewrite Lf.
  destruct (done (hs s h)) eqn:D.
  - (* finished *)
    eexists. split; [reflexivity|]. split; [|cbn -[upd]; rewrite upd_eq; repeat split; auto].
    pose proof (not_rec s v h I L R D) as NR.
    start_all I.
    + ucase; auto; unfold live in L, Lg; rewrite ?L, ?Lg in *; try congruence.
      * destruct (own v h) as [c|] eqn:Oh; [|fin].
        destruct Hh2 as [Hh2|(Hh2 & Hh3 & Hh4)]; [fin|]. right. split; auto. split; [exact Hh3|]. discriminate.
      * split; auto. split; auto. split; auto. destruct (res (hs s h)); cbn; auto.
    + destruct Q as (Q1 & Q2 & Q3). split; [|split]; auto.
      * destruct (cs (co s d)); fin. ucase; fin.
      * intros k K. pose proof (Q3 k K) as (K1 & K2 & K3). ucase; fin.
    + destruct (ws s w) eqn:W; auto; ucase; fin; exfalso; eapply NP || eapply NP'; eassumption.
    + ucase; fin.
    + ucase; fin; exfalso; match goal with H : own v h = Some _, K : own v ?k = Some _, N: ?k <> h |- _ => apply N; exact (ii _ _ I _ _ _ K H) end.
  - destruct (undone_cases s v h I L D) as (c & F & O & X1 & X2 & X4 & X5 & X6).
    rewrite X1, F. assert (Fr : frame s c = true) by (unfold frame; destruct (cs (co s c)); auto; contradiction). rewrite Fr.
    eexists. split; [reflexivity|]. split; [|cbn -[upd]; rewrite upd_eq; repeat split; auto; [|discriminate]; intros d; destruct (Nat.eq_dec d c) as [->|n]; rewrite ?upd_eq, ?(upd_ne _ _ _ _ n); auto].
    start_all I.
    + ucase; auto; unfold live in L, Lg; rewrite ?L, ?Lg in *; try congruence.
      * rewrite O. left. cbn -[upd]. ucase. repeat split; auto. rewrite A in X6. destruct (cs (co s c)); auto.
      * split; auto. split; auto. rewrite X2. cbn. auto.
      * lcase s k; auto. destruct (own v k) as [d|] eqn:Ok; auto. ucase; auto.
        exfalso. apply n0. exact (ii _ _ I _ _ _ Ok O).
    + ucase.
      * destruct Q as (Q1 & Q2 & Q3). split; [|split]; auto.
        -- destruct (cs (co s c)); fin.
        -- intros k [= <-]. ucase; fin.
      * destruct Q as (Q1 & Q2 & Q3). split; [|split]; auto.
        -- destruct (cs (co s d)); fin. ucase; fin.
        -- intros k K. pose proof (Q3 k K) as (K1 & K2 & K3). ucase; fin.
    + destruct (ws s w) eqn:W; auto; ucase; fin; try (exfalso; eapply NP || eapply NP'; eassumption).
      intros K. ucase; fin.
    + ucase; fin.
    + ucase; fin; exfalso; match goal with H : own v h = Some _, K : own v ?k = Some _, N: ?k <> h |- _ => apply N; exact (ii _ _ I _ _ _ K H) end.
Qed.
End Inv.
