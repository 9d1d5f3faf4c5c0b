(** Every channel of a race goes through a history of its own. *)
From Coq Require Import List Bool Arith Lia.
From Verif Require Import Channel_Model Channel_Spec Channel_Inv Rch_Chan Sel_Model Sel_Spec Sel_Chan.
Import ListNotations.

Section Inv.
Context {V : Type}.
Variable cf : cfg V.
Notation state := (state V).
Notation rstate := (rstate V).
Notation revent := (revent V).

(** *** Every channel goes through a history of Channel_Model *)
Definition sim (s s1 : rstate) (tr : list revent) : Prop :=
  forall c, exists ls, run (chs s c) ls = (chs s1 c, at_channel c tr).
Lemma at_channel_app c (a b : list revent) : at_channel c (a ++ b) = at_channel c a ++ at_channel c b.
Proof. apply flat_map_app. Qed.
Lemma at_channel_map c c' (ev : list (event V)) : at_channel c (map (C c') ev) = if Nat.eqb c' c then ev else [].
Proof.
  induction ev as [|e t IH]; cbn.
  - destruct (Nat.eqb c' c); reflexivity.
  - fold (at_channel c (map (C c') t)). rewrite IH. destruct (Nat.eqb c' c); reflexivity.
Qed.
Lemma sim_refl s s1 : chs s1 = chs s -> sim s s1 [].
Proof. intros E c. exists []. cbn. rewrite E. reflexivity. Qed.
Lemma sim_trans s s1 s2 a b : sim s s1 a -> sim s1 s2 b -> sim s s2 (a ++ b).
Proof.
  intros A B c. destruct (A c) as [l1 H1]. destruct (B c) as [l2 H2]. exists (l1 ++ l2).
  rewrite run_app, H1, H2, at_channel_app. reflexivity.
Qed.
Lemma sim_chs s s1 s2 tr : sim s s1 tr -> chs s2 = chs s1 -> sim s s2 tr.
Proof. intros A E c. rewrite E. apply A. Qed.
Lemma sim_from s s0 s1 tr : sim s s1 tr -> chs s0 = chs s -> sim s0 s1 tr.
Proof. intros A E c. rewrite E. apply A. Qed.

Lemma on_eq c l (s s1 : rstate) ev : on c l s = (s1, ev) -> exists x, step (chs s c) l = (x, ev) /\
  s1 = mkR (upd (chs s) c x) (pc s) (idx s) (out s) (fin s) (armed s) (ub s || is_some (bad x)).
Proof. unfold on. destruct (step (chs s c) l) as [x e] eqn:S. intro H. injection H as <- <-. eauto. Qed.
Lemma on_sim c l (s s1 : rstate) ev : on c l s = (s1, ev) -> sim s s1 (map (C c) ev).
Proof.
  intro H. apply on_eq in H as (x & S & ->). intro c'. rewrite at_channel_map. cbn [chs]. rewrite upd_eq, (Nat.eqb_sym c c').
  destruct (Nat.eqb_spec c' c) as [->|N].
  - exists [l]. cbn [run]. rewrite S. rewrite app_nil_r. reflexivity.
  - exists []. reflexivity.
Qed.

Lemma each_sim f : (forall s k s1 e, f s k = (s1, e) -> sim s s1 e) -> forall ks s s1 e, each f ks s = (s1, e) -> sim s s1 e.
Proof.
  intros F. induction ks as [|k t IH]; intros s s1 e H; cbn [each] in H.
  - injection H as <- <-. apply sim_refl. reflexivity.
  - destruct (f s k) as [s2 e2] eqn:E2. destruct (each f t s2) as [s3 e3] eqn:E3. injection H as <- <-.
    eapply sim_trans; [exact (F _ _ _ _ E2)|exact (IH _ _ _ E3)].
Qed.
Lemma interrupt_one_sim s k s1 e : interrupt_one cf s k = (s1, e) -> sim s s1 e.
Proof.
  unfold interrupt_one. destruct (working s k).
  - destruct (on _ _ s) as [s2 ev] eqn:O. intro H. injection H as <- <-. eapply sim_chs; [exact (on_sim _ _ _ _ _ O)|].
    destruct (answer _ k ev); reflexivity.
  - intro H. injection H as <- <-. apply sim_refl. reflexivity.
Qed.
Lemma emit_one_sim s k s1 e : emit_one cf s k = (s1, e) -> sim s s1 e.
Proof.
  unfold emit_one. destruct (armed s k).
  - destruct (on _ _ _) as [s2 ev] eqn:O. intro H. injection H as <- <-. exact (sim_from _ s _ _ (on_sim _ _ _ _ _ O) eq_refl).
  - intro H. injection H as <- <-. apply sim_refl. reflexivity.
Qed.
Lemma forward_one_sim s k s1 e : forward_one cf s k = (s1, e) -> sim s s1 e.
Proof.
  unfold forward_one. destruct (armed s k).
  - destruct (on _ _ _) as [s2 ev] eqn:O. intro H. injection H as <- <-. exact (on_sim _ _ _ _ _ O).
  - intro H. injection H as <- <-. apply sim_refl. reflexivity.
Qed.
Lemma cancel_all_sim m s s1 e : cancel_all cf m s = (s1, e) -> sim s s1 e.
Proof.
  unfold cancel_all. destruct (each _ _ s) as [s2 e2] eqn:E2. destruct (each _ _ s2) as [s3 e3] eqn:E3. intro H. injection H as <- <-.
  eapply sim_trans; [exact (each_sim _ interrupt_one_sim _ _ _ _ E2)|exact (each_sim _ emit_one_sim _ _ _ _ E3)].
Qed.
Lemma finish_sim k r s s1 e : finish cf k r s = (s1, e) -> sim s s1 e.
Proof. intro H. exact (sim_from _ s _ _ (cancel_all_sim _ _ _ _ H) eq_refl). Qed.
Lemma interrupt_fork_sim s k s1 e : interrupt_fork cf s k = (s1, e) -> sim s s1 e.
Proof.
  unfold interrupt_fork. destruct (working s k).
  - destruct (on _ _ s) as [s2 ev] eqn:O. destruct (answer _ k ev).
    + destruct (finish cf k r s2) as [s3 e3] eqn:F. intro H. injection H as <- <-.
      eapply sim_trans; [exact (on_sim _ _ _ _ _ O)|exact (finish_sim _ _ _ _ _ F)].
    + intro H. injection H as <- <-. exact (on_sim _ _ _ _ _ O).
  - intro H. injection H as <- <-. apply sim_refl. reflexivity.
Qed.
Definition destroy_one (s : rstate) (k : nat) : rstate * list revent :=
  let '(s1, ev) := on (chan cf k) (destroying cf k) s in (s1, map (C (chan cf k)) ev).
Lemma settle_sim s s1 e : settle cf s = (s1, e) -> sim s s1 e.
Proof.
  unfold settle. destruct (pc s) as [| | m|]; try (intro H; injection H as <- <-; apply sim_refl; reflexivity).
  destruct (forallb _ _); [|intro H; injection H as <- <-; apply sim_refl; reflexivity].
  fold destroy_one. destruct (each destroy_one _ s) as [s2 e2] eqn:E.
  assert (S : sim s s2 e2).
  { refine (each_sim _ _ _ _ _ _ E). intros a k b e' H. unfold destroy_one in H. destruct (on _ _ a) as [a1 ev] eqn:O. injection H as <- <-. exact (on_sim _ _ _ _ _ O). }
  assert (N : sim s2 s2 [] /\ forall i r, sim s2 (set_pc Returned s2) [Win i r]).
  { split; [apply sim_refl; reflexivity|]. intros i r c. exists []. reflexivity. }
  destruct (idx s) as [i|]; [destruct (out s) as [r|]; [|destruct (forallb _ _)]|]; intro H; injection H as <- <-.
  - eapply sim_trans; [exact S|apply N].
  - eapply sim_trans; [exact S|apply N].
  - exact (sim_chs _ _ _ _ S eq_refl).
  - exact (sim_chs _ _ _ _ S eq_refl).
Qed.
Lemma seq2_sim s p f s1 e : (forall a b, p = (a, b) -> sim s a b) -> (forall a b c, f a = (b, c) -> sim a b c) -> seq2 p f = (s1, e) -> sim s s1 e.
Proof.
  unfold seq2. destruct p as [a b]. intros P F H. destruct (f a) as [c d] eqn:E. injection H as <- <-.
  eapply sim_trans; [apply P; reflexivity|exact (F _ _ _ E)].
Qed.
Lemma resume_sim c l m s s1 e : resume cf c l m s = (s1, e) -> sim s s1 e.
Proof.
  unfold resume. destruct (on c l s) as [x ev] eqn:O. destruct (answer _ m ev) as [r|].
  - apply seq2_sim; [intros y z H; injection H as <- <-; exact (on_sim _ _ _ _ _ O)|intros x' y' z'; apply finish_sim].
  - intro H. injection H as <- <-. exact (on_sim _ _ _ _ _ O).
Qed.
Lemma meet_sim c j l m s s1 e : meet cf c j l m s = (s1, e) -> sim s s1 e.
Proof.
  unfold meet. destruct (idx s).
  - intro H. injection H as <- <-. intro c'. exists []. reflexivity.
  - apply seq2_sim; [|intros a b d; apply resume_sim]. intros a b H. exact (sim_from _ s _ _ (cancel_all_sim _ _ _ _ H) eq_refl).
Qed.
Lemma start_one_sim k s s1 e : start_one cf k s = (s1, e) -> sim s s1 e.
Proof.
  unfold start_one. destruct (on _ (making cf k) s) as [a ea] eqn:O1.
  assert (S0 : sim s a []).
  { pose proof (on_sim _ _ _ _ _ O1) as K. apply on_eq in O1 as (x & S & _). assert (ea = []) as ->; [|exact K].
    unfold step in S. destruct (bad _); [injection S as _ <-; reflexivity|]. unfold making in S. destruct (act cf k); cbn [step_ok] in S.
    - destruct (w_stage _); injection S as _ <-; reflexivity.
    - destruct (r_stage _); injection S as _ <-; reflexivity. }
  destruct (affects _ _ _) as [m|].
  { destruct (meet _ _ _ _ _ _) as [b eb] eqn:Mt. intro H. injection H as <- <-. eapply (sim_trans _ _ _ []); [exact S0|]. exact (sim_chs _ _ _ _ (meet_sim _ _ _ _ _ _ _ Mt) eq_refl). }
  destruct (on _ (awaiting cf k) a) as [b eb] eqn:O2.
  assert (S1 : sim s b (map (C (chan cf k)) eb)) by (eapply (sim_trans _ _ _ []); [exact S0|exact (on_sim _ _ _ _ _ O2)]).
  destruct (answer _ k eb) as [r|].
  - apply seq2_sim.
    + intros a' b'. apply seq2_sim.
      * intros x y H. injection H as <- <-. exact (sim_chs _ _ _ _ S1 eq_refl).
      * intros x y z. apply finish_sim.
    + apply settle_sim.
  - intro H. injection H as <- <-. exact (sim_chs _ _ _ _ S1 eq_refl).
Qed.
Lemma env_one_sim c l s s1 e : env_one cf c l s = (s1, e) -> sim s s1 e.
Proof.
  unfold env_one. destruct (affects _ _ l) as [m|].
  - destruct l; try apply resume_sim; apply meet_sim.
  - destruct (on c l s) as [a ev] eqn:O. intro H. injection H as <- <-. exact (on_sim _ _ _ _ _ O).
Qed.
Lemma rstep_sim s l s1 e : rstep cf s l = Some (s1, e) -> sim s s1 e.
Proof.
  unfold rstep. destruct (ub s); [discriminate|]. destruct l as [| |c l| |].
  - destruct (pc s); try discriminate. intro H. injection H as <- <-. apply sim_refl. reflexivity.
  - destruct (pc s) as [|k r| |]; try discriminate. destruct (k <? n cf); intro H; injection H as H.
    + exact (start_one_sim _ _ _ _ H).
    + exact (sim_from _ s _ _ (settle_sim _ _ _ H) eq_refl).
  - destruct (_ && _); [|discriminate]. intro H. injection H as H. revert H. apply seq2_sim; [intros a b; apply env_one_sim|apply settle_sim].
  - destruct (pc s); try discriminate. intro H. injection H as H. exact (each_sim _ forward_one_sim _ _ _ _ H).
  - destruct (pc s); try discriminate. intro H. injection H as H. revert H. apply seq2_sim; [intros a b; apply each_sim; apply interrupt_fork_sim|apply settle_sim].
Qed.
Lemma rrun_sim : forall ls s s1 e, rrun cf s ls = Some (s1, e) -> sim s s1 e.
Proof.
  induction ls as [|l t IH]; intros s s1 e H; cbn [rrun] in H.
  - injection H as <- <-. apply sim_refl. reflexivity.
  - destruct (rstep cf s l) as [[a ea]|] eqn:S; [|discriminate]. destruct (rrun cf a t) as [[b eb]|] eqn:R; [|discriminate]. injection H as <- <-.
    eapply sim_trans; [exact (rstep_sim _ _ _ _ S)|exact (IH _ _ _ R)].
Qed.
End Inv.
