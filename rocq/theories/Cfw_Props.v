(** * C70: cancellation goes through chains of awaits *)
From Coq Require Import List Bool Arith Lia.
From Verif Require Import Cfw_Model Cfw_Spec Cfw_Proofs.
Import ListNotations.

Scheme emits_mind := Induction for emits Sort Prop
  with runs_mind := Induction for runs Sort Prop.

Lemma covers_through b s n t o t' : covers b s n t o t' -> through s n t <> 0.
Proof. now intros []. Qed.

Lemma covers_runs s n t o t' : inv s -> covers false s n t o t' -> forall k, slot s n = Some k ->
  exists h, hand s k = Some h /\ runs s h (through s n t) (ROp o t').
Proof.
  intros [[ch C] H]. induction 1 as [n t o W T|n t d o t' W T Cv IH|n t d o t' W T Cv IH|n t g fs f o t' W I T Cv IH|n t d o t' X]; intros k Sn.
  - exists (HLeaf o). split; [|constructor]. destruct W as [W|W]; eapply (h_put _ H); eauto.
  - exists (HFwd d). split; [eapply (h_put _ H); eauto|]. constructor.
    destruct (i_wait _ _ _ C n d) as [_ [[L1 L2]|L]]; [left; exact W| |discriminate].
    pose proof (i_co _ _ _ C _ _ W) as K.
    assert (Sd : slot s d = Some d) by (apply (i_root _ _ _ C); [exact L1|left; exact K]).
    destruct (IH d Sd) as (h & E & R). apply covers_through in Cv.
    assert (F : through s d (through s n t) = filt s d (through s n t)) by (unfold through at 1; now rewrite K).
    rewrite F in *. now apply em_co with (h := h).
  - destruct (i_with _ _ _ C _ _ W) as [K Sd]. rewrite Sn in Sd. destruct (IH k Sd) as (h & E & R).
    assert (F : through s d (through s n t) = through s n t) by (unfold through at 1; now rewrite K).
    rewrite F in R. eauto.
  - destruct (i_comb _ _ _ C _ _ _ W) as [G K]. destruct (K f I) as [K1 K2].
    exists (HComb g fs). split; [eapply (h_put _ H); eauto|]. apply ru_comb with (f := f); [rewrite G; discriminate|exact I|].
    assert (Sf : slot s f = Some f) by (apply (i_root _ _ _ C); [exact K2|right; exact K1]).
    destruct (IH f Sf) as (h & E & R).
    assert (F : through s f (through s n t) = through s n t) by (unfold through at 1; now rewrite K1).
    rewrite F in R. now apply em_fork with (h := h).
  - discriminate.
Qed.

(** Every operation that a coroutine waits for, through promises, tasks,
    generators, [with] and combinators, gets a cancellation that is sent to it,
    unless a filter on the way stops it. *)
Theorem C70_reaches_partial : forall ls s n t o t',
  run init ls = Some s -> cancellable s n ->
  covers false s n t o t' -> emits s n t (ROp o t').
Proof.
  intros ls s n t o t' R (K & L1 & L2) Cv. apply reach_inv in R.
  assert (Sn : slot s n = Some n). { destruct R as [[ch C] _]. now apply (i_root _ _ _ C). }
  destruct (covers_runs _ _ _ _ _ R Cv n Sn) as (h & E & X). apply covers_through in Cv. unfold through in *.
  destruct K as [K|K]; rewrite K in *; [now apply em_co with (h := h)|now apply em_fork with (h := h)].
Qed.
Print Assumptions C70_reaches_partial.

Lemma settled_runs s n : inv s -> settled s n -> forall k h t r, slot s n = Some k -> hand s k = Some h ->
  through s n t <> 0 -> runs s h (through s n t) r -> exists o t', r = ROp o t' /\ covers false s n t o t'.
Proof.
  intros [[ch C] H]. revert n. fix IH 2. intros n St k h t r Sn Hk T R.
  destruct St as [n o W|n d W St|n d W St|n g fs W St].
  - assert (E : hand s k = Some (HLeaf o)) by (destruct W as [W|W]; eapply (h_put _ H); eauto).
    rewrite E in Hk. injection Hk as <-. inversion R; subst. exists o, (through s n t). split; [reflexivity|now constructor].
  - assert (E : hand s k = Some (HFwd d)) by (eapply (h_put _ H); eauto). rewrite E in Hk. injection Hk as <-.
    inversion R as [? ? ? Em| | |]; subst.
    destruct (i_wait _ _ _ C n d) as [_ [[L1 L2]|L]]; [left; exact W| |discriminate].
    pose proof (i_co _ _ _ C _ _ W) as K.
    inversion Em as [? ? D|? ? ? h' D K' F E' R'|? ? ? h' K']; subst; [now elim L2| |congruence].
    assert (F' : through s d (through s n t) = filt s d (through s n t)) by (unfold through at 1; now rewrite K).
    assert (Sd : slot s d = Some d) by (apply (i_root _ _ _ C); [exact L1|left; exact K]).
    rewrite <- F' in F, R'. destruct (IH d St d h' _ r Sd E' F R') as (o & t' & -> & Cv).
    exists o, t'. split; [reflexivity|]. now apply cv_co with (d := d).
  - destruct (i_with _ _ _ C _ _ W) as [K Sd]. rewrite Sn in Sd.
    assert (F' : through s d (through s n t) = through s n t) by (unfold through at 1; now rewrite K).
    destruct (IH d St k h (through s n t) r Sd Hk) as (o & t' & -> & Cv); [now rewrite F'|now rewrite F'|].
    exists o, t'. split; [reflexivity|]. now apply cv_with with (d := d).
  - assert (E : hand s k = Some (HComb g fs)) by (eapply (h_put _ H); eauto). rewrite E in Hk. injection Hk as <-.
    destruct (i_comb _ _ _ C _ _ _ W) as [G K].
    inversion R as [| |? ? ? G'|? ? f ? ? G' If Em]; subst; [congruence|].
    destruct (K f If) as [K1 K2].
    inversion Em as [? ? D D'|? ? ? h' D K'|? ? ? h' K' E' R']; subst; [now elim D'|congruence|].
    destruct (St f If) as [Sf|Sf].
    + rewrite (h_fork _ H f K1 Sf) in E'. discriminate.
    + assert (Sl : slot s f = Some f) by (apply (i_root _ _ _ C); [exact K2|right; exact K1]).
      assert (F' : through s f (through s n t) = through s n t) by (unfold through at 1; now rewrite K1).
      destruct (IH f Sf f h' (through s n t) r Sl E') as (o & t' & -> & Cv); [now rewrite F'|now rewrite F'|].
      exists o, t'. split; [reflexivity|]. now apply cv_comb with (g := g) (fs := fs) (f := f).
Qed.

(** While everything a coroutine waits for takes cancellations, a
    cancellation sent to it (other than [none]) reaches nothing else. *)
Theorem C70_only_partial : forall ls s n t r,
  run init ls = Some s -> cancellable s n -> settled s n -> t <> 0 ->
  emits s n t r -> exists o t', r = ROp o t' /\ covers false s n t o t'.
Proof.
  intros ls s n t r R (K & L1 & L2) St T Em. apply reach_inv in R.
  assert (Sn : slot s n = Some n). { destruct R as [[ch C] _]. now apply (i_root _ _ _ C). }
  inversion Em as [? ? D|? ? ? h D K' F E X|? ? ? h K' E X]; subst; [now elim L2| |].
  - apply (settled_runs _ _ R St n h t r Sn E); unfold through; rewrite K'; assumption.
  - apply (settled_runs _ _ R St n h t r Sn E); unfold through; rewrite K'; assumption.
Qed.
Print Assumptions C70_only_partial.

(** A cancellation never uses the signal of a coroutine that has ended,
    whatever was awaited before. *)
Theorem C70_no_dead : forall ls s n t d,
  run init ls = Some s -> cancellable s n -> ~ emits s n t (RDead d).
Proof.
  intros ls s n t d R (K & L1 & L2) Em. apply reach_inv in R. destruct R as [[ch C] H].
  assert (G : forall m u r, emits s m u r -> (st s m <> Ended \/ knd s m = KFork) -> r <> RDead d).
  { apply (emits_mind s (fun m u r _ => (st s m <> Ended \/ knd s m = KFork) -> r <> RDead d)
             (fun h u r _ => (exists k, hand s k = Some h) -> r <> RDead d)).
    - intros m u E1 E2 [X|X]; contradiction.
    - intros m u r h E1 E2 E3 E4 _ IH _. apply IH. eauto.
    - intros m u r h E1 E2 _ IH _. apply IH. eauto.
    - intros d' u r _ IH [k E]. apply IH. left. destruct (h_fwd _ H _ _ E) as (m & W & _).
      destruct (i_wait _ _ _ C m d') as [_ [[_ L]|L]]; [left; exact W|exact L|discriminate].
    - discriminate.
    - discriminate.
    - intros g fs f u r Gg If _ IH [k E]. apply IH. right. now apply (h_cmb _ H k g fs f). }
  now apply (G n t (RDead d) Em (or_introl L2)).
Qed.
Print Assumptions C70_no_dead.

(** ** Counterexamples *)

Definition after (ls : list label) : state := match run init ls with Some s => s | None => init end.
Ltac comp := vm_compute; first [reflexivity|discriminate].
Ltac canc := split; [left; comp|split; comp].

(** The operations inside a composed operation (io::read, io::write) are
    waited for but are never reached. *)
Theorem C70_composed_refuted : exists ls s n t o t',
  run init ls = Some s /\ cancellable s n /\ covers true s n t o t' /\ forall r, ~ emits s n t r.
Proof.
  pose (ls := [LStart 0 true; LAwait 0 (TComp 1); LAwait 1 (TOp 7)]).
  exists ls, (after ls), 0, 1, 7, 1. split; [comp|]. split; [canc|split].
  - apply cv_comp with (d := 1); [reflexivity|comp|comp|].
    change 1 with (through (after ls) 1 (through (after ls) 0 1)) at 3. apply cv_op; [left; comp|comp].
  - intros r Em. inversion Em as [? ? A B|? ? ? h A B D E|? ? ? h A]; subst; [vm_compute in A|vm_compute in E|vm_compute in A]; discriminate.
Qed.
Print Assumptions C70_composed_refuted.

(** After an operation is complete its handler stays in the slot: a later
    cancellation, sent while the coroutine waits for something else, goes to the
    operation that has ended. *)
Theorem C70_stale_op_refuted : exists ls s n t o,
  run init ls = Some s /\ cancellable s n /\ st s n = Waiting TNone /\
  emits s n t (ROp o t) /\ forall t', ~ covers true s n t o t'.
Proof.
  pose (ls := [LStart 0 true; LAwait 0 (TOp 7); LResume 0; LAwait 0 TNone]).
  exists ls, (after ls), 0, 1, 7. split; [comp|]. split; [canc|split; [comp|split]].
  - apply em_co with (h := HLeaf 7); [comp|comp|comp|comp|apply ru_leaf].
  - intros t' Cv. inversion Cv as [? ? ? [W|W]|? ? ? ? ? W|? ? ? ? ? W|? ? ? ? ? ? ? W|? ? ? ? ? ? W]; subst; vm_compute in W; discriminate.
Qed.
Print Assumptions C70_stale_op_refuted.

(** After a combinator is complete its handler stays in the slot: a later
    cancellation uses the destroyed combinator. *)
Theorem C70_stale_combinator_refuted : exists ls s n t g,
  run init ls = Some s /\ cancellable s n /\ emits s n t (RGone g).
Proof.
  pose (ls := [LStart 0 true; LAwait 0 (TComb 9 [1; 2]); LAwait 1 (TOp 7); LResume 1; LEnd 1; LAwait 2 (TChan 8); LResume 2; LEnd 2; LResume 0]).
  exists ls, (after ls), 0, 1, 9. split; [comp|]. split; [canc|].
  apply em_co with (h := HComb 9 [1; 2]); [comp|comp|comp|comp|]. apply ru_gone. comp.
Qed.
Print Assumptions C70_stale_combinator_refuted.

(** ** Non-vacuity: main (0) gathers over a helper (1) that awaits a promise
    (5) and a helper (2) that is in a channel operation; the promise is in a [with]
    (6) and changes the type of the cancellation. *)
Definition ex : list label :=
  [LStart 0 true; LStart 5 true; LFilter 5 (fun t => t + 1); LAwait 5 (TWith 6); LAwait 6 (TOp 70);
   LAwait 0 (TComb 9 [1; 2; 3]); LAwait 1 (TCo 5); LAwait 2 (TChan 80); LEnd 3].

Example C70_nonvacuous : exists s, run init ex = Some s /\ cancellable s 0 /\ settled s 0 /\
  covers false s 0 4 70 5 /\ covers false s 0 4 80 4 /\
  emits s 0 4 (ROp 70 5) /\ emits s 0 4 (ROp 80 4).
Proof.
  exists (after ex). assert (R : run init ex = Some (after ex)) by comp. split; [exact R|].
  assert (Ca : cancellable (after ex) 0) by canc.
  assert (T0 : through (after ex) 0 4 = 4) by comp. assert (T1 : through (after ex) 1 4 = 4) by comp.
  assert (T5 : through (after ex) 5 4 = 5) by comp. assert (T6 : through (after ex) 6 5 = 5) by comp.
  assert (T2 : through (after ex) 2 4 = 4) by comp.
  assert (C1 : covers false (after ex) 0 4 70 5).
  { apply cv_comb with (g := 9) (fs := [1; 2; 3]) (f := 1); [comp|now left|rewrite T0; discriminate|]. rewrite T0.
    apply cv_co with (d := 5); [comp|rewrite T1; discriminate|]. rewrite T1.
    apply cv_with with (d := 6); [comp|rewrite T5; discriminate|]. rewrite T5.
    rewrite <- T6 at 2. apply cv_op; [left; comp|rewrite T6; discriminate]. }
  assert (C2 : covers false (after ex) 0 4 80 4).
  { apply cv_comb with (g := 9) (fs := [1; 2; 3]) (f := 2); [comp|right; now left|rewrite T0; discriminate|]. rewrite T0.
    rewrite <- T2 at 2. apply cv_op; [right; comp|rewrite T2; discriminate]. }
  split; [exact Ca|]. split.
  - apply se_comb with (g := 9) (fs := [1; 2; 3]); [comp|]. intros f [<-|[<-|[<-|[]]]]; [right|right|left; comp].
    + apply se_co with (d := 5); [comp|]. apply se_with with (d := 6); [comp|]. apply se_op with (o := 70). left; comp.
    + apply se_op with (o := 80). right; comp.
  - split; [exact C1|]. split; [exact C2|]. split; eapply C70_reaches_partial; eassumption.
Qed.

(** The filter matters: a type that the promise filters out reaches only the
    other operation. *)
Definition ex2 : list label :=
  [LStart 0 true; LStart 5 true; LFilter 5 (fun _ => 0); LAwait 5 (TOp 70); LAwait 0 (TComb 9 [1; 2]); LAwait 1 (TCo 5); LAwait 2 (TChan 80)].

Example C70_filtered : exists s, run init ex2 = Some s /\
  emits s 0 4 (ROp 80 4) /\ forall t', ~ emits s 0 4 (ROp 70 t').
Proof.
  exists (after ex2). assert (R : run init ex2 = Some (after ex2)) by comp. split; [exact R|].
  assert (T0 : through (after ex2) 0 4 = 4) by comp. assert (T1 : through (after ex2) 1 4 = 4) by comp.
  assert (T5 : through (after ex2) 5 4 = 0) by comp.
  split.
  - apply em_co with (h := HComb 9 [1; 2]); [comp|comp|comp|comp|].
    apply ru_comb with (f := 2); [comp|right; now left|]. apply em_fork with (h := HLeaf 80); [comp|comp|].
    assert (F : filt (after ex2) 0 4 = 4) by comp. rewrite F. constructor.
  - intros t' Em. apply (C70_only_partial _ _ 0 4 _ R) in Em; [|canc| |discriminate].
    + destruct Em as (o & u & E & Cv). injection E as <- <-.
      inversion Cv as [? ? ? [W|W]|? ? ? ? ? W|? ? ? ? ? W|? ? ? ? f ? ? W I _ Cf|? ? ? ? ? W]; subst; vm_compute in W; try discriminate.
      injection W as <- <-. rewrite T0 in Cf. destruct I as [<-|[<-|[]]].
      * inversion Cf as [? ? ? [W|W]|? ? ? ? ? W _ Cd|? ? ? ? ? W|? ? ? ? ? ? ? W|? ? ? ? ? W]; subst; vm_compute in W; try discriminate.
        injection W as <-. apply covers_through in Cd. apply Cd. now rewrite T1.
      * inversion Cf as [? ? ? [W|W]|? ? ? ? ? W|? ? ? ? ? W|? ? ? ? ? ? ? W|? ? ? ? ? W]; subst; vm_compute in W; discriminate.
    + apply se_comb with (g := 9) (fs := [1; 2]); [comp|]. intros f [<-|[<-|[]]]; right.
      * apply se_co with (d := 5); [comp|]. apply se_op with (o := 70). left; comp.
      * apply se_op with (o := 80). right; comp.
Qed.
