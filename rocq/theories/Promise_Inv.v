(** Invariants of correct promise use. *)
From Coq Require Import List Bool Arith Lia.
From Verif Require Import Promise_Model Promise_Spec.
Import ListNotations.

Section Inv.
Context {V E : Type}.
Notation event := (event V E).
Notation state := (state V E).
Notation view := (view V E).

(** A handle [h] that stands for coroutine [c]. *)
Definition Owned (s : state) (v : view) h c : Prop :=
  (done (hs s h) = false /\ exc (hs s h) = None /\ res (hs s h) = None /\ cs (co s c) = Running /\ rec (co s c) = Some h /\ fate v c = None)
  \/ (done (hs s h) = true /\
      match fate v c with
      | Some (FRet x) => exc (hs s h) = None /\ (res (hs s h) = Some (Fresh x) /\ ~ In c (gave v) \/ res (hs s h) = Some Hollow /\ In c (gave v))
      | Some (FThrow e) => exc (hs s h) = Some (XUser e)
      | Some FKill => exc (hs s h) = Some XUnexpected
      | None => False
      end /\ (forall w, aw (hs s h) = Some w -> cs (co s c) = Returning /\ rec (co s c) = Some h)).
(** A handle that stands for nothing. *)
Definition Free (s : state) h : Prop :=
  aw (hs s h) = None /\
  (done (hs s h) = true /\ (exc (hs s h) = Some XMoved \/ exc (hs s h) = None) /\ (res (hs s h) = None \/ res (hs s h) = Some Hollow)
   \/ done (hs s h) = false /\ exc (hs s h) = Some XMoved).
Definition HI (s : state) (v : view) h : Prop :=
  if live s h then
    att (hs s h) = attd v h /\
    match own v h with Some c => Owned s v h c | None => Free s h end
  else own v h = None /\ aw (hs s h) = None.
Definition CI (s : state) (v : view) c : Prop :=
  match cs (co s c) with
  | NotYet => born v c = false /\ rec (co s c) = None /\ fate v c = None /\ over v c = false /\ ~ In c (gave v) /\ (forall h, own v h <> Some c)
  | Running => born v c = true /\ fate v c = None /\ over v c = false
  | Returning => born v c = true /\ fate v c <> None /\ over v c = false
  | Dead => born v c = true /\ over v c = true /\ fate v c <> None /\ rec (co s c) = None
  | Leaked => born v c = true /\ over v c = false /\ (exists e, fate v c = Some (FThrow e)) /\ rec (co s c) = None
  end /\
  (fate v c = None -> ~ In c (gave v)) /\
  forall h, rec (co s c) = Some h -> own v h = Some c /\ ref (hs s h) = Some c /\ live s h = true.
Definition WI (s : state) (v : view) w : Prop :=
  match ws s w with
  | WSusp h o => aw (hs s h) = Some w /\ o = ref (hs s h) /\ waits v w = Some h
  | _ => waits v w = None
  end.
Record INV (s : state) (v : view) : Prop := {
  ih : forall h, HI s v h;
  ic : forall c, CI s v c;
  iw : forall w, WI s v w;
  ia : forall h w, aw (hs s h) = Some w -> exists o, ws s w = WSusp h o;
  ii : forall h h' c, own v h = Some c -> own v h' = Some c -> h = h';
  ig : NoDup (gave v) }.

(** What is true at each event. *)
Definition P (a : list event) (e : event) : Prop :=
  let v := view_of a in
  match e with
  | EResult w h r =>
      waits v w = Some h /\
      match own v h with
      | Some c => answers v c r
                  \/ r = RExc XDetached /\ (exists a', a = a' ++ [EInterrupt w])
                  \/ r = RExc XAlready /\ (exists w', w' <> w /\ waits v w' = Some h) /\ running v c
      | None => r = RExc XMoved \/ r = RVal Hollow
      end
  | EGet h r => match own v h with Some c => answers v c r | None => r = RExc XMoved \/ r = RVal Hollow end
  | ESignal c t => born v c = true /\ over v c = false
  | EBad _ => False
  | EEscape c e => forall h, own v h <> Some c
  | _ => True
  end.

Lemma init_INV : INV init (view_of []).
Proof.
  split; intros; unfold HI, CI, WI, live; cbn in *; auto; try discriminate.
  - repeat split; auto; discriminate.
  - constructor.
Qed.

Lemma NoDup_app_intro2 {A} (l : list A) x : NoDup l -> ~ In x l -> NoDup (l ++ [x]).
Proof.
  induction 1 as [|y l H N IH]; cbn; intros Q; constructor; [intros []|constructor|..].
  - rewrite in_app_iff. cbn. intros [|[|[]]]; subst; auto.
  - apply IH. auto.
Qed.
Lemma upd_eq {A} (f : nat -> A) i a : upd f i a i = a.
Proof. unfold upd. now rewrite Nat.eqb_refl. Qed.
Lemma upd_ne {A} (f : nat -> A) i j a : j <> i -> upd f i a j = f j.
Proof. intros H. unfold upd. destruct (Nat.eqb_spec j i); congruence. Qed.

Ltac ucase := repeat (
  match goal with
  | H : context [upd _ ?i _ ?i] |- _ => rewrite upd_eq in H
  | |- context [upd _ ?i _ ?i] => rewrite upd_eq
  | H : context [upd _ ?i _ ?j], N : ?j <> ?i |- _ => rewrite (upd_ne _ _ _ _ N) in H
  | H : context [upd _ ?i _ ?j], N : ?i <> ?j |- _ => rewrite (upd_ne _ _ _ _ (not_eq_sym N)) in H
  | N : ?j <> ?i |- context [upd _ ?i _ ?j] => rewrite (upd_ne _ _ _ _ N)
  | N : ?i <> ?j |- context [upd _ ?i _ ?j] => rewrite (upd_ne _ _ _ _ (not_eq_sym N))
  | |- context [upd _ ?i _ ?j] => destruct (Nat.eq_dec j i); [subst|]
  | H : context [upd _ ?i _ ?j] |- _ => destruct (Nat.eq_dec j i); [subst|]
  end; cbn -[upd] in * ).

Lemma absent_not_live (s : state) h : is_absent (life_of (hs s h)) = true -> live s h = false.
Proof. unfold live. destruct (life_of (hs s h)); auto; discriminate. Qed.
Lemma is_live_live (s : state) h : is_live (life_of (hs s h)) = true -> live s h = true.
Proof. unfold live. destruct (life_of (hs s h)); auto; discriminate. Qed.
Lemma live_life (x : handle V E) : is_live (life_of x) = true -> life_of x = Live.
Proof. destruct (life_of x); auto; discriminate. Qed.

Lemma rec_live s v c h : INV s v -> rec (co s c) = Some h -> live s h = true /\ own v h = Some c /\ ref (hs s h) = Some c.
Proof. intros I H. destruct (ic _ _ I c) as (_ & _ & Q). apply Q in H. tauto. Qed.
Lemma rec_owned s v c h : INV s v -> rec (co s c) = Some h -> Owned s v h c.
Proof.
  intros I H. destruct (rec_live _ _ _ _ I H) as (L & O & _). pose proof (ih _ _ I h) as Q. unfold HI in Q. rewrite L, O in Q. tauto.
Qed.

Ltac fin := repeat (match goal with
  | H : _ /\ _ |- _ => destruct H
  | H : exists _, _ |- _ => destruct H
  | H : Some _ = Some _ |- _ => injection H as H
  | |- _ /\ _ => split
  | |- _ -> _ => intro
  | |- forall _, _ => intro end); subst; try congruence; try tauto; eauto 4.
Ltac start_all I := split;
  [ let k := fresh "k" in intros k; let Q := fresh "Q" in pose proof (ih _ _ I k) as Q; unfold HI, Owned, Free, live in *
  | let k := fresh "d" in intros k; let Q := fresh "Q" in pose proof (ic _ _ I k) as Q; unfold CI, live in *
  | let k := fresh "w" in intros k; let Q := fresh "Q" in pose proof (iw _ _ I k) as Q; unfold WI in *
  | let k := fresh "k" in let w := fresh "w" in intros k w; let Q := fresh "Q" in pose proof (ia _ _ I k w) as Q
  | let k := fresh "k" in let k' := fresh "k'" in let d := fresh "d" in intros k k' d; let Q := fresh "Q" in pose proof (ii _ _ I k k' d) as Q
  | try exact (ig _ _ I) ]; cbn -[upd] in *.

Lemma start_INV s v c h :
  INV s v -> cs (co s c) = NotYet -> is_absent (life_of (hs s h)) = true ->
  INV (set_h h (mkH Live false None None false None (Some c) true None) (set_c c (mkC Running (Some h)) s)) (observe v (EStart c h)).
Proof.
  intros I C A. apply absent_not_live in A.
  pose proof (ih _ _ I h) as Hh. unfold HI in Hh. rewrite A in Hh. destruct Hh as [Ho Ha].
  pose proof (ic _ _ I c) as Hc. unfold CI in Hc. rewrite C in Hc. destruct Hc as ((C1 & C2 & C3 & C4 & C5 & C6) & C7 & C8).
  start_all I.
  - ucase; [fin; left; fin|].
    destruct (match life_of (hs s k) with Live | Dying => true | _ => false end); auto.
    destruct Q as [Q0 Q]; split; auto. destruct (own v k) as [d|] eqn:Ok; auto.
    ucase; auto. now elim (C6 k).
  - ucase; [fin; ucase; fin|].
    destruct Q as (Q & Q1 & Q2). split; [|split]; auto.
    + destruct (cs (co s d)); fin; ucase; fin.
    + intros k K. apply Q2 in K as (K1 & K2 & K3). ucase; fin.
  - destruct (ws s w); auto. ucase; fin.
  - ucase; fin.
  - ucase; fin; try (exfalso; eapply C6; eassumption).
Qed.

Lemma INV_ext s s' v : INV s v -> (forall h, hs s' h = hs s h) -> (forall c, co s' c = co s c) -> (forall w, ws s' w = ws s w) -> INV s' v.
Proof.
  intros I A B C. split.
  - intros h. pose proof (ih _ _ I h) as Q. unfold HI, Owned, Free, live in *. rewrite A.
    destruct (match life_of (hs s h) with Live | Dying => true | _ => false end); auto. destruct (own v h); auto. now rewrite B.
  - intros c. pose proof (ic _ _ I c) as Q. unfold CI, live in *. rewrite B. destruct Q as (Q1 & Q2 & Q3). split; [|split]; auto.
    intros h. rewrite A. auto.
  - intros w. pose proof (iw _ _ I w) as Q. unfold WI in *. rewrite C. destruct (ws s w); auto. rewrite A. auto.
  - intros h w. rewrite A, C. apply (ia _ _ I).
  - apply (ii _ _ I).
  - apply (ig _ _ I).
Qed.

(** The awaiter [w] of [h] leaves. *)
Lemma leave_INV s v h w x :
  INV s v -> aw (hs s h) = Some w -> (x = WIdle \/ x = WKilled) ->
  INV (set_w w x (set_h h (set_aw None (hs s h)) s)) (v_waits (upd (waits v) w None) v).
Proof.
  intros I A X. destruct (ia _ _ I _ _ A) as (o & W).
  start_all I.
  - ucase; auto. destruct (match life_of (hs s h) with Live | Dying => true | _ => false end); [|tauto].
    destruct Q as [Q1 Q2]. split; auto. destruct (own v h); [|fin].
    destruct Q2 as [Q2|(Q2 & Q3 & Q4)]; [left; auto|right]. fin.
  - destruct Q as (Q1 & Q2 & Q3). split; [|split]; auto. intros k K. apply Q3 in K as (K1 & K2 & K3). ucase; fin.
  - ucase; [destruct X; subst; auto|].
    destruct (ws s w0); auto. destruct Q as (Q1 & Q2 & Q3). ucase; fin.
  - ucase; fin. destruct (Q H) as (o' & W'). congruence.
  - exact Q.
Qed.

(** The coroutine ends: outcome stored in the handle. *)
Definition stored (x : ending) (e : option (exn E)) (r : option (content V)) : Prop :=
  match x with
  | FRet v => e = None /\ r = Some (Fresh v)
  | FThrow u => e = Some (XUser u)
  | FKill => e = Some XUnexpected
  end.
Lemma end_INV s v c h x e r t :
  INV s v -> cs (co s c) = Running -> rec (co s c) = Some h -> stored x e r ->
  let y := hs s h in
  INV (set_h h (mkH (life_of y) true e r t (aw y) (ref y) (att y) (from y)) (set_c c (mkC Returning (Some h)) s)) (v_fate c x v).
Proof.
  intros I C R X y. destruct (rec_live _ _ _ _ I R) as (L & O & F).
  pose proof (ic _ _ I c) as Hc. unfold CI in Hc. rewrite C in Hc. destruct Hc as ((C1 & C2 & C3) & C4 & _). specialize (C4 C2).
  start_all I.
  - ucase.
    + unfold y. rewrite L in *. fin. rewrite O in *. right. ucase. split; auto. split; [|fin].
      destruct x; cbn in X; fin.
    + destruct (match life_of (hs s k) with Live | Dying => true | _ => false end); auto.
      destruct Q as [Q1 Q2]; split; auto. destruct (own v k) as [d|] eqn:Ok; auto.
      ucase; auto. elim n. exact (ii _ _ I _ _ _ Ok O).
  - ucase.
    + repeat split; fin; ucase; unfold y; fin.
    + destruct Q as (Q1 & Q2 & Q3). split; [|split]; auto. intros k K. apply Q3 in K as (K1 & K2 & K3). ucase; unfold y; fin.
  - destruct (ws s w); auto. ucase; unfold y; fin.
  - ucase; unfold y; fin.
  - exact Q.
Qed.
Lemma end_none_INV s v c x :
  INV s v -> cs (co s c) = Running -> rec (co s c) = None ->
  INV (set_c c (mkC Returning None) s) (v_fate c x v).
Proof.
  intros I C R.
  pose proof (ic _ _ I c) as Hc. unfold CI in Hc. rewrite C in Hc. destruct Hc as ((C1 & C2 & C3) & C4 & _). specialize (C4 C2).
  assert (N : forall k, own v k <> Some c).
  { intros k K. pose proof (ih _ _ I k) as Q. unfold HI, Owned in Q. rewrite K in Q. destruct (live s k); [|destruct Q; discriminate].
    rewrite C2 in Q. destruct Q as [_ [Q|(_ & [] & _)]]. fin. }
  start_all I.
  - destruct (match life_of (hs s k) with Live | Dying => true | _ => false end); auto.
    destruct Q as [Q1 Q2]; split; auto. destruct (own v k) as [d|] eqn:Ok; auto. ucase; auto. now elim (N k).
  - ucase; [fin|exact Q].
  - auto.
  - auto.
  - exact Q.
Qed.
(** The frame is destroyed. *)
Lemma dead_INV s v c :
  INV s v -> cs (co s c) = Returning -> (forall h, rec (co s c) = Some h -> aw (hs s h) = None) ->
  INV (set_c c (mkC Dead None) s) (v_over c v).
Proof.
  intros I C R.
  pose proof (ic _ _ I c) as Hc. unfold CI in Hc. rewrite C in Hc. destruct Hc as ((C1 & C2 & C3) & C4 & C5).
  start_all I.
  - destruct (match life_of (hs s k) with Live | Dying => true | _ => false end) eqn:L; auto.
    destruct Q as [Q1 Q2]; split; auto. destruct (own v k) as [d|] eqn:Ok; auto. ucase; auto.
    right. destruct Q2 as [Q2|(Q2 & Q3 & Q4)]; [fin|]. split; auto. split; auto.
    intros w W. destruct (Q4 _ W) as [_ X]. apply R in X. congruence.
  - ucase; [fin|exact Q].
  - auto.
  - auto.
  - exact Q.
Qed.
Lemma leak_INV s v c e :
  INV s v -> cs (co s c) = Returning -> rec (co s c) = None -> fate v c = Some (FThrow e) -> INV (set_c c (mkC Leaked None) s) v.
Proof.
  intros I C R F.
  pose proof (ic _ _ I c) as Hc. unfold CI in Hc. rewrite C in Hc. destruct Hc as ((C1 & C2 & C3) & C4 & C5).
  start_all I.
  - destruct (match life_of (hs s k) with Live | Dying => true | _ => false end) eqn:L; auto.
    destruct Q as [Q1 Q2]; split; auto. destruct (own v k) as [d|] eqn:Ok; auto. ucase; auto.
    right. destruct Q2 as [Q2|(Q2 & Q3 & Q4)]; [fin|]. split; auto. split; auto.
    intros w W. destruct (Q4 _ W) as [_ X]. congruence.
  - ucase; [fin|exact Q].
  - auto.
  - auto.
  - exact Q.
Qed.

Lemma INV_vext s v v' : INV s v -> (forall h, own v' h = own v h) -> (forall h, attd v' h = attd v h) -> gave v' = gave v ->
  (forall w, waits v' w = waits v w) -> fate v' = fate v -> born v' = born v -> over v' = over v -> INV s v'.
Proof.
  intros I A B C D F G H. split.
  - intros h. pose proof (ih _ _ I h) as Q. unfold HI, Owned in *. rewrite A, B, C, F. exact Q.
  - intros c. pose proof (ic _ _ I c) as Q. unfold CI in *. rewrite C, F, G, H. destruct Q as (Q1 & Q2 & Q3). split; [|split]; auto.
    + destruct (cs (co s c)); auto. destruct Q1 as (? & ? & ? & ? & ? & Q). repeat split; auto. intros h. rewrite A. auto.
    + intros h. rewrite A. auto.
  - intros w. pose proof (iw _ _ I w) as Q. unfold WI in *. now rewrite D.
  - apply (ia _ _ I).
  - intros h h' c. rewrite !A. apply (ii _ _ I).
  - rewrite C. apply (ig _ _ I).
Qed.

(** Changes that no invariant sees. *)
Lemma cosmetic_INV s v h y :
  INV s v -> let x := hs s h in
  (match life_of y with Live | Dying => true | _ => false end = live s h) -> done y = done x -> exc y = exc x -> res y = res x ->
  aw y = aw x -> ref y = ref x -> forall b, att y = b -> (forall k, attd v k = attd v k) ->
  INV (set_h h y s) (v_att (upd (attd v) h b) v).
Proof.
  intros I x Hl Hd He Hr Ha Hf b Hb _. unfold x in *.
  start_all I.
  - ucase; auto. unfold live in Hl. rewrite Hl, ?Hd, ?He, ?Hr, ?Ha, ?Hf.
    destruct (match life_of (hs s h) with Live | Dying => true | _ => false end); auto. split; [auto|]. exact (proj2 Q).
  - destruct Q as (Q1 & Q2 & Q3). split; [|split]; auto. intros k K. apply Q3 in K as (K1 & K2 & K3). ucase; unfold live in *; fin.
  - destruct (ws s w); auto. ucase; fin.
  - ucase; fin. apply Q. congruence.
  - exact Q.
Qed.
Lemma cosmetic0_INV s v h y :
  INV s v -> let x := hs s h in
  (match life_of y with Live | Dying => true | _ => false end = live s h) -> done y = done x -> exc y = exc x -> res y = res x ->
  aw y = aw x -> ref y = ref x -> att y = att x -> live s h = true -> INV (set_h h y s) v.
Proof.
  intros I x Hl Hd He Hr Ha Hf Hb L. unfold x in *.
  pose proof (ih _ _ I h) as Q. unfold HI in Q. rewrite L in Q. destruct Q as [Q _].
  eapply INV_vext; [apply (cosmetic_INV s v h y I Hl Hd He Hr Ha Hf _ eq_refl); auto|..]; auto.
  intros k. cbn -[upd]. ucase; congruence.
Qed.

(** A handle hands out its result. *)
Lemma give_INV s v h :
  INV s v -> live s h = true -> done (hs s h) = true -> empty s h = false ->
  exists s1 r, get_result h s = (s1, Some r) /\ INV s1 (v_give h r v) /\
    match own v h with Some c => answers v c r | None => r = RExc XMoved \/ r = RVal Hollow end.
Proof.
  intros I L D M. pose proof (ih _ _ I h) as Q. unfold HI in Q. rewrite L in Q. destruct Q as [Q1 Q2].
  unfold get_result. rewrite D.
  assert (G : forall s1, INV s1 v -> forall r, (forall x, r <> RVal (Fresh x)) -> INV s1 (v_give h r v)).
  { intros s1 J r N. unfold v_give. destruct r as [[x|]|]; auto. now elim (N x). }
  destruct (exc (hs s h)) as [e|] eqn:Ee.
  - eexists; exists (RExc e). split; [reflexivity|]. split.
    + apply G; [|discriminate]. apply cosmetic0_INV; cbn; auto.
    + destruct (own v h) as [c|]; [|destruct Q2 as (_ & [(_ & [X|X] & _)|[X _]]); [left|..]; congruence].
      unfold answers. destruct Q2 as [Q2|(_ & Q2 & _)]; [fin|]. destruct (fate v c) as [[]|]; fin.
  - unfold empty in M. rewrite D, Ee in M. destruct (res (hs s h)) as [x|] eqn:Er; [|discriminate].
    eexists; exists (RVal x). split; [reflexivity|].
    destruct (own v h) as [c|] eqn:O.
    + destruct Q2 as [Q2|(_ & Q2 & Q3)]; [fin|].
      destruct (fate v c) as [[u| |]|] eqn:F; try (exfalso; fin; fail).
      destruct Q2 as (_ & Q2). split; [|unfold answers; rewrite F; destruct Q2 as [[Q2 Q4]|[Q2 Q4]]; [left|right]; split; auto; congruence].
      destruct Q2 as [[Q2 Q4]|[Q2 Q4]]; rewrite Er in Q2; injection Q2 as Q2; subst x; cbn; rewrite ?O.
      * (* intact *)
        start_all I.
        -- ucase; auto; unfold live in L; rewrite ?L, ?O, ?D.
           ++ rewrite F. split; auto. right. split; auto. split; [|exact Q3]. split; auto. right. split; auto. apply in_or_app. cbn. auto.
           ++ destruct (match life_of (hs s k) with Live | Dying => true | _ => false end); auto. destruct Q as [Z1 Z2]; split; auto.
              destruct (own v k) as [d|] eqn:Ok; auto. destruct Z2 as [Z2|(Z2 & Z3 & Z4)]; [left; auto|right]. split; auto. split; auto.
              assert (N : d <> c) by (intros ->; apply n; exact (ii _ _ I _ _ _ Ok O)).
              destruct (fate v d) as [[]|]; auto. destruct Z3 as [Z3 [Z5|Z5]]; split; auto; [left|right]; destruct Z5; split; auto.
              ** rewrite in_app_iff. cbn. intros [|[|[]]]; auto.
              ** apply in_or_app. auto.
        -- destruct Q as (Z1 & Z2 & Z3). split; [|split].
           ++ destruct (cs (co s d)) eqn:Cd; auto. destruct Z1 as (? & ? & ? & ? & ? & Z). repeat split; auto.
              rewrite in_app_iff. cbn. intros [|[<-|[]]]; auto. congruence.
           ++ intros Fd. rewrite in_app_iff. cbn. intros [|[<-|[]]]; [now apply Z2|congruence].
           ++ intros k K. apply Z3 in K as (K1 & K2 & K3). ucase; fin.
        -- destruct (ws s w); auto. ucase; fin.
        -- ucase; fin.
        -- exact Q.
        -- apply NoDup_app_intro2; auto. exact (ig _ _ I).
      * apply cosmetic0_INV; cbn; auto.
    + destruct Q2 as (_ & [Q2|Q2]); [|fin]. destruct Q2 as (_ & _ & [Q2|Q2]); [congruence|]. rewrite Er in Q2; injection Q2 as Q2; subst x.
      split; [|auto]. cbn. apply cosmetic0_INV; cbn; auto.
Qed.

Lemma owned_cases s v h : INV s v -> live s h = true -> done (hs s h) = false -> zombie s h = false ->
  exists c, own v h = Some c /\ exc (hs s h) = None /\ res (hs s h) = None /\ cs (co s c) = Running /\ rec (co s c) = Some h /\ fate v c = None /\ ref (hs s h) = Some c.
Proof.
  intros I L D Z. pose proof (ih _ _ I h) as Q. unfold HI in Q. rewrite L in Q. destruct Q as [_ Q].
  destruct (own v h) as [c|].
  - exists c. destruct Q as [Q|Q]; [|fin]. split; auto. fin. apply (rec_live _ _ _ _ I) in H3. tauto.
  - unfold zombie in Z. rewrite D in Z. destruct Q as (_ & [Q|[_ Q]]); [fin|]. rewrite Q in Z. discriminate.
Qed.

Lemma suspend_INV s v w h :
  INV s v -> live s h = true -> done (hs s h) = false -> zombie s h = false -> aw (hs s h) = None -> ws s w = WIdle ->
  INV (set_w w (WSusp h (ref (hs s h))) (set_h h (set_aw (Some w) (hs s h)) s)) (v_waits (upd (waits v) w (Some h)) v).
Proof.
  intros I L D Z A W. destruct (owned_cases s v h I L D Z) as (c & O & X1 & X2 & X3 & X4 & X5 & X6).
  start_all I.
  - ucase; auto. unfold live in L. rewrite L, O in *. split; [tauto|]. left. auto 10.
  - destruct Q as (Q1 & Q2 & Q3). split; [|split]; auto. intros k K. apply Q3 in K as (K1 & K2 & K3). ucase; fin.
  - ucase; auto. destruct (ws s w0); auto. ucase; fin.
  - ucase; fin. destruct (Q H). congruence.
  - exact Q.
Qed.

Lemma not_rec s v h : INV s v -> live s h = true -> returning s h = false -> done (hs s h) = true -> forall c, rec (co s c) <> Some h.
Proof.
  intros I L R D c K. pose proof (rec_owned _ _ _ _ I K) as Q. destruct (rec_live _ _ _ _ I K) as (_ & O & F).
  unfold Owned in Q. rewrite D in Q. destruct Q as [Q|(_ & Q & _)]; [fin|].
  unfold returning in R. rewrite F, K, Nat.eqb_refl in R.
  pose proof (ic _ _ I c) as Hc. unfold CI in Hc. destruct (cs (co s c)); destruct Hc as (Hc & _); try discriminate; try (fin; fail).
  destruct Hc as (_ & Hc & _). rewrite Hc in Q. exact Q.
Qed.

(** The handle [h] disappears. *)
Definition dropped (s s1 : state) h : Prop :=
  hs s1 = hs s /\ ws s1 = ws s /\ forall c, co s1 c = (if match rec (co s c) with Some k => k =? h | None => false end then mkC (cs (co s c)) None else co s c).
Lemma unlink_dropped s v h : INV s v -> live s h = true -> has_frame s h = true -> exists s1, unlink h s = Some s1 /\ dropped s s1 h.
Proof.
  intros I L F. unfold unlink, has_frame in *. destruct (ref (hs s h)) as [c|] eqn:Rf; [|discriminate]. rewrite F.
  assert (N : forall d, d <> c -> match rec (co s d) with Some k => k =? h | None => false end = false).
  { intros d Nd. destruct (rec (co s d)) as [k|] eqn:R; auto. destruct (Nat.eqb_spec k h); auto. subst.
    apply (rec_live _ _ _ _ I) in R. fin. }
  destruct (rec (co s c)) as [k|] eqn:R.
  - eexists; split; [reflexivity|]. destruct (k =? h) eqn:Ek; repeat split; auto; intros d; destruct (Nat.eq_dec d c) as [->|n]; cbn -[upd]; ucase.
    + now rewrite R, Ek.
    + now rewrite N.
    + now rewrite R, Ek.
    + now rewrite N.
  - eexists; split; [reflexivity|]. repeat split; auto. intros d.
    destruct (Nat.eq_dec d c) as [->|n]; [now rewrite R|now rewrite N].
Qed.
Lemma refl_dropped s v h : INV s v -> live s h = true -> returning s h = false -> done (hs s h) = true -> dropped s s h.
Proof.
  intros I L R D. repeat split; auto. intros c. pose proof (not_rec s v h I L R D c) as N.
  destruct (rec (co s c)) as [k|]; auto. destruct (Nat.eqb_spec k h); congruence.
Qed.
Lemma drop_INV s v h s1 y :
  INV s v -> live s h = true -> aw (hs s h) = None -> returning s h = false -> dropped s s1 h ->
  (match life_of y with Live | Dying => true | _ => false end = false) -> aw y = None ->
  INV (set_h h y s1) (v_own (upd (own v) h None) v).
Proof.
  intros I L A R (D1 & D2 & D3) Ly Ay.
  start_all I; rewrite ?D1, ?D2.
  - ucase; [now rewrite Ly|].
    destruct (match life_of (hs s k) with Live | Dying => true | _ => false end); auto.
    destruct Q as [Q1 Q2]; split; auto. destruct (own v k) as [d|] eqn:Ok; auto.
    assert (X : co s1 d = co s d).
    { rewrite D3. destruct (rec (co s d)) as [j|] eqn:Rd; auto. destruct (Nat.eqb_spec j h); auto. subst.
      apply (rec_live _ _ _ _ I) in Rd as (_ & Rd & _). elim n. exact (ii _ _ I _ _ _ Ok Rd). }
    now rewrite X.
  - rewrite D3. destruct Q as (Q1 & Q2 & Q3).
    destruct (match rec (co s d) with Some k => k =? h | None => false end) eqn:X; cbn.
    + destruct (rec (co s d)) as [j|] eqn:Rd; [|discriminate]. apply Nat.eqb_eq in X. subst j.
      split; [|split]; auto; [|discriminate]. destruct (cs (co s d)); fin.
    + split; [|split]; auto.
      * destruct (cs (co s d)); fin. ucase; fin.
      * intros k K. rewrite K in X. apply Nat.eqb_neq in X. apply Q3 in K. ucase; fin.
  - destruct (ws s w); auto. ucase; fin.
  - ucase; fin.
  - ucase; fin.
Qed.

Lemma transfer_INV s v b g h :
  INV s v -> live s g = false -> live s h = true -> life_of (hs s h) = Live -> aw (hs s h) = None -> returning s h = false -> zombie s h = false ->
  exists s1, transfer b g h s = (s1, []) /\ INV s1 (observe v (EMove g h)).
Proof.
  intros I Lg L LL A R Z.
  assert (N : g <> h) by (intros ->; congruence).
  pose proof (ih _ _ I g) as Hg. unfold HI in Hg. rewrite Lg in Hg. destruct Hg as [Og Ag].
  pose proof (ih _ _ I h) as Hh. unfold HI in Hh. rewrite L in Hh. destruct Hh as [Hh1 Hh2].
  unfold transfer. destruct (done (hs s h)) eqn:D.
  - (* finished *)
    eexists. split; [reflexivity|].
    pose proof (not_rec s v h I L R D) as NR.
    assert (NG : forall c, rec (co s c) <> Some g).
    { intros c K. apply (rec_live _ _ _ _ I) in K. fin. }
    start_all I.
    + ucase; auto; unfold live in L, Lg; rewrite ?L, ?Lg in *; try congruence.
      * split; auto. destruct (own v h) as [c|] eqn:Oh; [|fin].
        destruct Hh2 as [Hh2|(Hh2 & Hh3 & Hh4)]; [fin|]. right. split; auto. split; [exact Hh3|]. rewrite A. discriminate.
      * split; auto. split; auto. left. rewrite orb_true_r. split; auto. split; auto.
        destruct (res (hs s h)); cbn; auto.
    + destruct Q as (Q1 & Q2 & Q3). split; [|split]; auto.
      * destruct (cs (co s d)); fin. ucase; fin.
      * intros k K. pose proof (Q3 k K) as (K1 & K2 & K3). ucase; fin.
    + destruct (ws s w); auto. ucase; fin.
    + ucase; fin.
    + ucase; fin; exfalso; match goal with H : own v h = Some _, K : own v ?k = Some _, N: ?k <> h |- _ => apply N; exact (ii _ _ I _ _ _ K H) end.
  - destruct (owned_cases s v h I L D Z) as (c & O & X1 & X2 & X3 & X4 & X5 & X6).
    rewrite X1, X6. assert (Fr : frame s c = true) by (unfold frame; now rewrite X3). rewrite Fr.
    eexists. split; [reflexivity|].
    start_all I.
    + ucase; auto; unfold live in L, Lg; rewrite ?L, ?Lg in *; try congruence.
      * split; auto. rewrite O. left. cbn -[upd]. ucase. auto 10.
      * split; auto. split; auto. destruct b; [left|right]; rewrite ?X2; auto.
      * destruct (match life_of (hs s k) with Live | Dying => true | _ => false end); auto.
        destruct Q as [Q1 Q2]. split; auto. destruct (own v k) as [d|] eqn:Ok; auto. ucase; auto.
        exfalso. apply n0. exact (ii _ _ I _ _ _ Ok O).
    + ucase.
      * rewrite X3 in *. fin; ucase; fin.
      * destruct Q as (Q1 & Q2 & Q3). split; [|split]; auto.
        -- destruct (cs (co s d)); fin. ucase; fin.
        -- intros k K. pose proof (Q3 k K) as (K1 & K2 & K3). ucase; fin.
    + destruct (ws s w); auto. ucase; fin.
    + ucase; fin.
    + ucase; fin; exfalso; match goal with H : own v h = Some _, K : own v ?k = Some _, N: ?k <> h |- _ => apply N; exact (ii _ _ I _ _ _ K H) end.
Qed.
End Inv.
