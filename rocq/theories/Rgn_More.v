(** Races over generators: races over lvalues are steady; races do not resume others. *)
From Coq Require Import List Bool Arith Lia.
From Verif Require Import Gen_Model Gen_Spec Gen_Inv Gen_Final Rgn_Model Rgn_Spec Rgn_Inv Rgn_Step Rgn_Run.
Import ListNotations.

Section More.
Context {Y P E : Type}.
Notation gstate := (state Y P E).
Notation gevent := (event Y P E).
Notation glabel := (label Y P E).
Notation rstate := (rstate Y P E).
Notation rlabel := (rlabel Y P E).
Notation revent := (revent Y P E).
Notation result := (outcome Y E).
Notation member := (member P).
Variable nv : nat -> bool.
Notation W := (W nv).
Notation sim := (sim nv).
Notation Frag := (Frag nv).

(** *** The fork that was started last *)
Definition Last (s : rstate) : Prop :=
  forall last rest ran, pc s = Starting last rest ran ->
    match last with
    | None => ran = false /\ forall k, fk s k = Unborn
    | Some k => fk s k <> Unborn
    end.

Lemma settle_pc (s s1 : rstate) ev last rest ran : settle s = (s1, ev) -> pc s1 = Starting last rest ran -> s1 = s.
Proof.
  unfold settle. destruct (pc s) eqn:Pc; try (intros H; injection H as <- <-; reflexivity).
  destruct (existsb _ _); [intros H; injection H as <- <-; reflexivity|].
  destruct (idx s); [destruct (out s)|]; intros H; injection H as <- <-; cbn; congruence.
Qed.

Lemma rstep_Last l (s s1 : rstate) ev : W s -> Last s -> fine s l -> good s1 -> rstep nv s l = Some (s1, ev) -> Last s1.
Proof.
  intros I HL Fn Gd H. unfold rstep in H. destruct (ub s) eqn:Ub; [discriminate|]. destruct l as [ms order| |g l|t|].
  - destruct (pc s) eqn:Pc; try discriminate. destruct ms as [|m0 ms]; [injection H as <- <-; exact HL|].
    destruct (is_order (length (m0 :: ms)) order); [|discriminate]. injection H as <- <-. intros last rest ran X. injection X as <- <- <-. split; auto.
  - destruct (pc s) as [|last rest ran|] eqn:Pc; try discriminate.
    assert (Cs : (exists k r, rest = k :: r /\ start_one nv k r s = (s1, ev)) \/ settle (set_pc Waiting s) = (s1, ev)).
    { destruct (stop last s); destruct rest as [|k r]; injection H as H; eauto. }
    destruct Cs as [(k & r & -> & H')|H'].
    + destruct (start_one_Part _ _ _ _ _ _ _ _ I Gd Pc H') as [_ [[b Pb] N]]. intros l0 r0 n0 X. rewrite Pb in X. injection X as <- <- <-. exact N.
    + intros l0 r0 n0 X. rewrite (settle_pc _ _ _ _ _ _ H' X) in X. discriminate X.
  - destruct (may_run (pc s) l && negb (own l)) eqn:Mr; [|discriminate]. apply andb_true_iff in Mr. destruct Mr as [Mr Ow]. apply negb_true_iff in Ow.
    destruct (env_one nv g l s) as [[x e]|] eqn:En; [|discriminate].
    assert (H' : seq2 (x, e) settle = (s1, ev)) by congruence. unfold seq2 in H'. destruct (settle x) as [y e2] eqn:T. injection H' as <- <-.
    assert (Gx : good x) by exact (settle_le nv _ _ _ T Gd). destruct (env_one_Part nv True g l s x e I Fn Ow Gx En) as [A Px].
    intros last rest ran X. pose proof (settle_pc _ _ _ _ _ _ T X). subst y. rewrite Px in X. specialize (HL _ _ _ X). rewrite X in Mr.
    destruct last as [k|]; [now apply (p_fk _ _ _ _ _ _ A)|]. destruct HL as [-> _]. discriminate Mr.
  - destruct (pc s) eqn:Pc; try discriminate. injection H as H.
    destruct (each_Frag nv (signalling (mem s) t) (forward_one nv t) (fun z => mem z = mem s) (forward_one_le nv t)
                (fun k s0 s2 ev0 => forward_one_Frag nv t (mem s) k s0 s2 ev0) _ _ _ _ I eq_refl Gd H) as [F _].
    intros last rest ran X. rewrite (f_pc _ _ _ _ _ F) in X. congruence.
  - destruct (pc s) eqn:Pc; try discriminate. destruct (each (interrupt_fork nv) (all s) s) as [x e] eqn:Ea.
    assert (H' : seq2 (x, e) settle = (s1, ev)) by congruence. unfold seq2 in H'. destruct (settle x) as [y e2] eqn:T. injection H' as <- <-.
    assert (Gx : good x) by exact (settle_le nv _ _ _ T Gd).
    destruct (interrupt_forks_Part nv True (mem s) _ _ _ _ I eq_refl Gx Ea) as [A Px].
    intros last rest ran X. pose proof (settle_pc _ _ _ _ _ _ T X). subst y. congruence.
Qed.

Lemma all_lvalues_steady : forall ls (s s1 : rstate) tr, W s -> Post s -> Last s -> L s -> (forall mb, In mb (mem s) -> lv mb = true) -> all_lvalues ls ->
  proper nv s ls -> good s1 -> rrun nv s ls = Some (s1, tr) -> steady nv s ls.
Proof.
  induction ls as [|l t IH]; intros s s1 tr I Po La HL HM HA Pr Gd H; [exact Logic.I|]. cbn in H, Pr |- *.
  destruct (rstep nv s l) as [[x e]|] eqn:S; [|discriminate]. destruct (rrun nv x t) as [[y e']|] eqn:R; [|discriminate]. injection H as <- <-.
  destruct Pr as [Fn Pr]. assert (Gx : good x) by (exact (rrun_le _ _ _ _ _ R Gd)).
  destruct (rstep_RStep nv l s x e I Po Fn Gx S) as [Gs A].
  assert (U : unhurried s l).
  { unfold unhurried. destruct l; try exact Logic.I. destruct (pc s) as [|last rest ran|] eqn:Pc; try exact Logic.I.
    destruct (idx s) as [i|] eqn:Ix; [right|now left]. specialize (La _ _ _ Pc). destruct (w_idx _ _ I _ Ix) as (_ & Fi & _).
    destruct last as [k|]; [|destruct La as [_ La]; congruence]. cbn. destruct (fk s k) eqn:Fk; [congruence| |reflexivity]. exfalso.
    destruct (w_act _ _ I _ Fk) as (mb & tp & M & _). assert (V : lv mb = false) by (apply (HL ltac:(congruence) k); auto).
    rewrite HM in V by (eapply nth_error_In; eauto). discriminate. }
  split; [exact U|]. apply (IH x y e'); auto.
  - apply A.
  - apply A.
  - exact (rstep_Last l s x e I La Fn Gx S).
  - now apply (r_L _ _ _ _ _ A).
  - intros mb Hm. destruct (r_mem _ _ _ _ _ A _ Hm) as [X|(ms & o & -> & X)]; [now apply HM|]. exact (HA ms o mb (or_introl eq_refl) X).
  - intros ms o mb Hm. apply (HA ms o mb). now right.
Qed.

(** *** Nobody else is resumed *)
Definition leu (s s1 : rstate) : Prop := ub s1 = false -> ub s = false.

Lemma on_leu g l (s s1 : rstate) ev : on nv g l s = Some (s1, ev) -> leu s s1.
Proof.
  intros H. destruct (on_gens _ _ _ _ _ _ H) as (x & _ & _ & _ & _ & _ & _ & _ & _ & _ & Eo & Eu). intros B.
  rewrite Eu in B. apply orb_false_iff in B. tauto.
Qed.
Lemma steal_leu g (s s1 : rstate) ev : steal g s = (s1, ev) -> leu s s1.
Proof.
  unfold steal. destruct (aw (gens s g)) as [w|].
  - destruct (resume w _) as [x e]. intros H. injection H as <- <-. now intros A.
  - intros H. injection H as <- <-. now intros A.
Qed.
Lemma interrupt_one_leu m k (s s1 : rstate) ev : interrupt_one nv m s k = (s1, ev) -> leu s s1.
Proof.
  unfold interrupt_one. destruct (nth_error (mem s) k) as [mb|]; [|intros H; injection H as <- <-; now intros A].
  destruct (lv mb && (is_active (fk s k) || (k =? m))); [|intros H; injection H as <- <-; now intros A].
  destruct (on nv (gen mb) (LInterrupt (fid k)) s) as [[x e]|] eqn:O.
  - intros H. injection H as <- <-. apply on_leu in O. destruct (woken e) as [[j r]|]; exact O.
  - destruct (steal (gen mb) s) as [x e] eqn:S. intros H. injection H as <- <-. apply steal_leu in S. destruct (woken e) as [[j r]|]; exact S.
Qed.
Lemma emit_one_leu k (s s1 : rstate) ev : emit_one nv s k = (s1, ev) -> leu s s1 /\ odd s1 = odd s.
Proof.
  unfold emit_one. destruct (nth_error (mem s) k) as [mb|]; [|intros H; injection H as <- <-; split; [now intros A|reflexivity]].
  destruct (armed s k); [|intros H; injection H as <- <-; split; [now intros A|reflexivity]].
  destruct (on nv (gen mb) (LSignal (fid k) ct) (set_armed k false s)) as [[x e]|] eqn:O.
  - intros H. injection H as <- <-. split; [apply on_leu in O; exact O|]. destruct (on_gens _ _ _ _ _ _ O) as (y & _ & _ & _ & _ & _ & _ & _ & _ & _ & Eo & _). exact Eo.
  - intros H. injection H as <- <-. split; [now intros A|reflexivity].
Qed.
Lemma each_emit_leu : forall ks (s s1 : rstate) ev, each (emit_one nv) ks s = (s1, ev) -> leu s s1 /\ odd s1 = odd s.
Proof.
  induction ks as [|k t IH]; intros s s1 ev H; cbn in H; [injection H as <- <-; split; [now intros A|reflexivity]|].
  destruct (emit_one nv s k) as [x e] eqn:Fk. destruct (each (emit_one nv) t x) as [y e'] eqn:Et. injection H as <- <-.
  destruct (emit_one_leu _ _ _ _ Fk) as [A1 A2], (IH _ _ _ Et) as [B1 B2]. split; [intros X; auto|congruence].
Qed.
Lemma each_interrupt_leu m : forall ks (s s1 : rstate) ev, each (interrupt_one nv m) ks s = (s1, ev) -> leu s s1.
Proof.
  induction ks as [|k t IH]; intros s s1 ev H; cbn in H; [injection H as <- <-; now intros A|].
  destruct (interrupt_one nv m s k) as [x e] eqn:Fk. destruct (each (interrupt_one nv m) t x) as [y e'] eqn:Et. injection H as <- <-.
  intros X. eapply interrupt_one_leu; eauto. eapply IH; eauto.
Qed.

Lemma cancel_all_leu k (s s1 : rstate) ev : cancel_all nv k s = (s1, ev) -> leu s s1.
Proof.
  unfold cancel_all, seq2. destruct (each (interrupt_one nv k) _ _) as [a b] eqn:Ea. destruct (each (emit_one nv) _ a) as [c d] eqn:Eb. intros H. injection H as <- <-.
  intros Ub. exact (each_interrupt_leu _ _ _ _ _ Ea (proj1 (each_emit_leu _ _ _ _ Eb) Ub)).
Qed.
Lemma interrupt_fork_leu k (s s1 : rstate) ev : interrupt_fork nv s k = (s1, ev) -> leu s s1.
Proof.
  unfold interrupt_fork. destruct (nth_error (mem s) k) as [mb|]; [|intros H; injection H as <- <-; now intros A].
  destruct (lv mb && is_active (fk s k)); [|intros H; injection H as <- <-; now intros A].
  assert (X : forall x e, leu s x -> match woken e with Some (j, r) => seq2 (x, map (G (gen mb)) e) (finish nv j r) | None => (x, map (G (gen mb)) e) end = (s1, ev) -> leu s s1).
  { intros x e Lx. destruct (woken e) as [[j r]|].
    - cbn [seq2]. destruct (finish nv j r x) as [z e2] eqn:Fi. intros H. injection H as <- <-. intros U. exact (Lx (cancel_all_leu _ _ _ _ Fi U)).
    - intros H. injection H as <- <-. exact Lx. }
  destruct (on nv (gen mb) (LInterrupt (fid k)) s) as [[x e]|] eqn:O.
  - apply X. eapply on_leu; eauto.
  - destruct (steal (gen mb) s) as [x e] eqn:S. apply X. eapply steal_leu; eauto.
Qed.
Lemma each_fork_leu : forall ks (s s1 : rstate) ev, each (interrupt_fork nv) ks s = (s1, ev) -> leu s s1.
Proof.
  induction ks as [|k t IH]; intros s s1 ev H; cbn in H; [injection H as <- <-; now intros A|].
  destruct (interrupt_fork nv s k) as [x e] eqn:Fk. destruct (each (interrupt_fork nv) t x) as [y e'] eqn:Et. injection H as <- <-.
  intros X. eapply interrupt_fork_leu; eauto. eapply IH; eauto.
Qed.

Section Alone.
(** The generators that are raced. *)
Variable R : nat -> Prop.

Record AI (s : rstate) : Prop := {
  a_odd : forall g w tp, R g -> Nat.even w = false -> ws (gens s g) w <> WSusp tp;
  a_mem : forall mb, In mb (mem s) -> R (gen mb);
  a_nodup : NoDup (map gen (mem s)) }.

Definition no_odd_await (g : nat) (l : glabel) : Prop := R g -> forall w p, l = LAwait w p -> Nat.even w = true.

Lemma step_odd g n (l : glabel) (s s1 : gstate) ev : no_odd_await g l -> R g -> step n l s = Some (s1, ev) ->
  (forall w tp, Nat.even w = false -> ws s w <> WSusp tp) -> forall w tp, Nat.even w = false -> ws s1 w <> WSusp tp.
Proof.
  intros N Rg S H w tp Ev X.
  destruct (gstep_cases _ _ _ _ _ S) as
    [(v & r & tq & _ & _ & _ & Hw & _)|[(v & p & r & _ & _ & _ & _ & Hw & _)|[(v & p & _ & _ & -> & _)|
     [(v & p & tq & -> & _ & _ & _ & Hw)|[(v & _ & _ & _ & Hw & _)|(_ & _ & Hw & _)]]]]];
    try (rewrite Hw in X); try (now apply (H w tp Ev) in X).
  - destruct (Nat.eq_dec w v) as [->|Nv]; [rewrite upd_eq in X; discriminate|]. rewrite upd_ne in X by exact Nv. now apply (H w tp Ev) in X.
  - destruct (Nat.eq_dec w v) as [->|Nv]; [rewrite (N Rg v p eq_refl) in Ev; discriminate|]. rewrite upd_ne in X by exact Nv. now apply (H w tp Ev) in X.
  - destruct (Nat.eq_dec w v) as [->|Nv]; [rewrite upd_eq in X; discriminate|]. rewrite upd_ne in X by exact Nv. now apply (H w tp Ev) in X.
Qed.
Lemma run_odd g n : forall ls (s s1 : gstate) ev, (forall l, In l ls -> no_odd_await g l) -> R g -> run n s ls = Some (s1, ev) ->
  (forall w tp, Nat.even w = false -> ws s w <> WSusp tp) -> forall w tp, Nat.even w = false -> ws s1 w <> WSusp tp.
Proof.
  induction ls as [|l t IH]; intros s s1 ev N Rg H; cbn in H; [injection H as <- <-; auto|].
  destruct (step n l s) as [[x e]|] eqn:S; [|discriminate]. destruct (run n x t) as [[y e']|] eqn:T; [|discriminate]. injection H as <- <-.
  intros H. eapply IH; eauto. { intros l0 Hl. apply N. now right. } eapply step_odd; eauto. apply N. now left.
Qed.
Lemma sim_AI (Q : nat -> glabel -> Prop) (s s1 : rstate) ev : sim Q s s1 ev -> (forall g l, Q g l -> no_odd_await g l) -> mem s1 = mem s -> AI s -> AI s1.
Proof.
  intros Sm HQ Em A. constructor; rewrite ?Em; try apply A.
  intros g w tp Rg. destruct (Sm g) as (ls & _ & Rn & Ql). eapply (run_odd g); eauto. intros w' tp'. now apply (a_odd _ A).
Qed.
Lemma cancelling_odd (ms : list member) g l : cancelling ms g l -> no_odd_await g l.
Proof. intros [[k ->]|(k & mb & -> & _)] _ w p; discriminate. Qed.

(** An interrupt reaches the fork itself. *)
Lemma no_steal k mb (s s1 : rstate) ev : W s -> AI s -> nth_error (mem s) k = Some mb ->
  on nv (gen mb) (LInterrupt (fid k)) s = None -> steal (gen mb) s = (s1, ev) -> s1 = s.
Proof.
  intros I A M O S. unfold steal in S. destruct (aw (gens s (gen mb))) as [w|] eqn:Aw; [exfalso|injection S as <- <-; reflexivity].
  destruct (i_aw _ _ (w_gen _ _ I (gen mb)) _ Aw) as (Rc & _ & tp & Ws).
  assert (Rm : R (gen mb)) by (apply (a_mem _ A); eapply nth_error_In; eauto).
  destruct (Nat.even w) eqn:Ew; [|now apply (a_odd _ A _ _ tp Rm Ew) in Ws].
  rewrite (even_fid _ Ew) in Ws. set (j := Nat.div2 w) in *. destruct (w_susp _ _ I _ _ _ Ws) as (_ & mj & Mj & Eg).
  assert (j = k).
  { pose proof (a_nodup _ A) as ND. apply (proj1 (NoDup_nth_error (map gen (mem s))) ND).
    - rewrite map_length. apply nth_error_Some. congruence.
    - rewrite !nth_error_map, Mj, M. cbn. now rewrite Eg. }
  subst j. rewrite H in Ws. unfold on in O. cbn [step] in O. rewrite Ws in O. destruct (i_rec _ _ (w_gen _ _ I (gen mb)) Rc) as (Lv & _). rewrite Lv in O. discriminate.
Qed.

Lemma interrupt_one_odd m k (s s1 : rstate) ev : W s -> AI s -> odd s = false -> interrupt_one nv m s k = (s1, ev) -> odd s1 = false.
Proof.
  intros I A Od H. unfold interrupt_one in H. destruct (nth_error (mem s) k) as [mb|] eqn:M; [|injection H as <- <-; exact Od].
  destruct (lv mb && (is_active (fk s k) || (k =? m))); [|injection H as <- <-; exact Od].
  destruct (on nv (gen mb) (LInterrupt (fid k)) s) as [[x e]|] eqn:O.
  - destruct (on_gens _ _ _ _ _ _ O) as (y & _ & _ & _ & _ & _ & _ & _ & _ & _ & Eo & _). injection H as <- <-. destruct (woken e) as [[j r]|]; cbn; congruence.
  - destruct (steal (gen mb) s) as [x e] eqn:S. pose proof (no_steal _ _ _ _ _ I A M O S). subst x. injection H as <- <-. destruct (woken e) as [[j r]|]; exact Od.
Qed.
Lemma interrupt_all_odd m : forall ks (s s1 : rstate) ev, W s -> AI s -> idx s <> None -> odd s = false -> ub s1 = false -> each (interrupt_one nv m) ks s = (s1, ev) -> odd s1 = false.
Proof.
  induction ks as [|k t IH]; intros s s1 ev I A D Od Ub H; cbn in H; [injection H as <- <-; exact Od|].
  destruct (interrupt_one nv m s k) as [x e] eqn:Fk. destruct (each (interrupt_one nv m) t x) as [y e'] eqn:Et. injection H as <- <-.
  assert (Gx : good x) by (split; [exact (interrupt_one_odd _ _ _ _ _ I A Od Fk)|exact (each_interrupt_leu _ _ _ _ _ Et Ub)]).
  destruct (interrupt_one_Frag _ _ _ _ _ _ I D Gx Fk) as [F _]. apply (IH x y e'); auto.
  - apply F.
  - refine (sim_AI _ _ _ _ (f_sim _ _ _ _ _ F) _ (f_mem _ _ _ _ _ F) A). intros g l [j ->] _ w p. discriminate.
  - now rewrite (f_idx _ _ _ _ _ F).
  - apply Gx.
Qed.
Lemma finish_odd k r (s s1 : rstate) ev : W (complete k r s) -> AI s -> odd s = false -> ub s1 = false -> finish nv k r s = (s1, ev) -> odd s1 = false /\ ub s = false.
Proof.
  intros I A Od Ub H. unfold finish, cancel_all, seq2 in H.
  destruct (each (interrupt_one nv k) (all (complete k r s)) (complete k r s)) as [x e] eqn:Ea. destruct (each (emit_one nv) (all (complete k r s)) x) as [y e'] eqn:Eb. injection H as <- <-.
  destruct (each_emit_leu _ _ _ _ Eb) as [Lu Eo]. rewrite Eo. split; [|exact (each_interrupt_leu _ _ _ _ _ Ea (Lu Ub))].
  eapply interrupt_all_odd; [exact I| |discriminate|exact Od|exact (Lu Ub)|exact Ea]. destruct A. constructor; auto.
Qed.

(** A fork that is resumed, or answered at once. *)
Lemma resumed_W g l k r (s x : rstate) e : W s -> ok (gens s g) l = true -> own l = false -> on nv g l s = Some (x, e) -> woken e = Some (k, r) -> W (complete k r x).
Proof.
  intros I K Ow O H. rewrite woken_results in H.
  destruct (on_gens _ _ _ _ _ _ O) as (y & S & Hy & Hn & Ep & Em & Ei & Eo & Ef & Ea & Ed & Eu).
  pose proof (step_INV _ _ _ _ _ (w_gen _ _ I g) K S) as [Ix _].
  destruct (gstep_cases _ _ _ _ _ S) as
    [(w & r0 & tp & Rs & Rj & Ws & Hw & _)|[(w & p & r0 & -> & Rs & Rj & Ws & Hw & _)|[(w & p & -> & -> & -> & _)|
     [(w & p & tp & -> & Rs & Rj & Ws & Hw)|[(w & Kl & Rs & Rj & Hw & _)|(Rs & Rj & Hw & _)]]]]];
    try (rewrite Rs in H; discriminate); try discriminate.
  - rewrite Rs in H. cbn [filter fst] in H. destruct (Nat.even w) eqn:Ew; [|discriminate]. injection H as <- <-.
    pose proof (even_fid _ Ew) as Ew'. set (k := Nat.div2 w) in *. rewrite Ew' in *. clear Ew Ew'. destruct (w_susp _ _ I _ _ _ Ws) as (A & mb & M & Eg). subst g.
    apply (W_complete nv k _ mb s); auto; try (rewrite ?Hy, ?Ef, ?Ea; auto).
    + intros j N. rewrite Hw, upd_ne; [reflexivity|]. intros X. apply fid_inj in X. contradiction.
    + intros tp'. rewrite Hw, upd_eq. discriminate.
  - cbn in Ow. rewrite Rs in H. cbn [filter fst] in H. rewrite Ow in H. discriminate.
Qed.
Lemma answered_W k rest last ran mb r (s x : rstate) e : W s -> pc s = Starting last (k :: rest) ran -> nth_error (mem s) k = Some mb ->
  on nv (gen mb) (LAwait (fid k) (push mb)) (set_fk k Active s) = Some (x, e) -> answer k e = Some r ->
  W (complete k r (set_pc (Starting (Some k) rest false) x)).
Proof.
  intros I Pc M O An. destruct (w_rest _ _ I _ _ _ Pc) as (X1 & X2 & X3 & X4). destruct (X3 k (or_introl eq_refl)) as [Uk Lk].
  destruct (on_gens _ _ _ _ _ _ O) as (y & S & Hy & Hn & Ep & Em & Ei & Eo & Ef & Ea & Ed & Eu).
  cbn [set_fk gens pc mem idx out fk armed odd ub] in *.
  pose proof (step_INV _ _ _ _ _ (w_gen _ _ I (gen mb)) (eq_refl : ok _ (LAwait (fid k) (push mb)) = true) S) as [Ix _].
  assert (NS : forall g tp, ws (gens s g) (fid k) <> WSusp tp).
  { intros g tp Ws. destruct (w_susp _ _ I _ _ _ Ws) as [A _]. congruence. }
  assert (Hw : forall j, ws y j = ws (gens s (gen mb)) j).
  { destruct (gstep_cases _ _ _ _ _ S) as
      [(w & r0 & tp & _ & _ & _ & _ & Nl)|[(w & p & r0 & Lw & Rs & Rj & Ws & Hw & _)|[(w & p & Lw & -> & Hs & _)|
       [(w & p & tp & Lw & Rs & Rj & Ws & Hw)|[(w & _ & _ & _ & _ & Nl)|(_ & _ & _ & Nl)]]]]].
    - exfalso. now apply (Nl (fid k) (push mb)).
    - exact Hw.
    - intros j. now rewrite Hs.
    - rewrite (answer_none _ _ Rs Rj) in An. discriminate.
    - exfalso. now apply (Nl (fid k) (push mb)).
    - exfalso. now apply (Nl (fid k) (push mb)). }
  apply (W_complete nv k _ mb s); cbn [set_pc gens pc mem idx out fk armed]; auto; try (rewrite ?Hy, ?Ef, ?Ea; auto).
  - intros tp. rewrite Hw. apply NS.
  - right. split; [exact Uk|]. exists last, rest, ran, (Some k). auto.
  - intros j N. now rewrite upd_ne.
Qed.

Lemma settle_odd (s s1 : rstate) ev : settle s = (s1, ev) -> odd s1 = odd s /\ leu s s1.
Proof.
  unfold settle, leu. destruct (pc s); try (intros H; injection H as <- <-; tauto).
  destruct (existsb _ _); [intros H; injection H as <- <-; tauto|].
  destruct (idx s); [destruct (out s)|]; intros H; injection H as <- <-; cbn; rewrite ?orb_true_r; split; auto; discriminate.
Qed.

Lemma on_AI g l (s x : rstate) e : no_odd_await g l -> AI s -> on nv g l s = Some (x, e) -> AI x.
Proof.
  intros N A O. destruct (on_gens _ _ _ _ _ _ O) as (y & S & Hy & Hn & Ep & Em & _). constructor; rewrite ?Em; try apply A.
  intros h w tp Rh Ew. destruct (Nat.eq_dec h g) as [->|Nh]; [|rewrite Hn by exact Nh; now apply (a_odd _ A)].
  rewrite Hy. apply (step_odd g (nv g) l (gens s g) y e N Rh S); auto. intros w' tp'. now apply (a_odd _ A).
Qed.

Lemma interrupt_fork_odd k (s s1 : rstate) ev : W s -> AI s -> odd s = false -> ub s1 = false -> interrupt_fork nv s k = (s1, ev) -> odd s1 = false /\ ub s = false.
Proof.
  intros I A Od Ub H. unfold interrupt_fork in H. destruct (nth_error (mem s) k) as [mb|] eqn:M; [|injection H as <- <-; auto].
  destruct (lv mb && is_active (fk s k)); [|injection H as <- <-; auto].
  destruct (on nv (gen mb) (LInterrupt (fid k)) s) as [[x e]|] eqn:O.
  - destruct (on_gens _ _ _ _ _ _ O) as (y & S & _ & _ & _ & _ & _ & _ & _ & _ & Eo & _). destruct (interrupt_cases _ _ _ _ _ S) as (tp & Ws & -> & _).
    rewrite woken_results in H. cbn [results flat_map app filter] in H. cbn [fst] in H. rewrite fid_even, fid_div2 in H.
    unfold seq2 in H. destruct (finish nv k (RExc XDetached) x) as [z e2] eqn:Fi. injection H as <- <-.
    assert (Ux : ub x = false).
    { exact (cancel_all_leu _ _ _ _ Fi Ub). }
    assert (Gx : good x) by (split; congruence).
    destruct (interrupted _ _ _ _ _ _ I M Gx O) as (_ & _ & Ic & _).
    assert (Ax : AI x) by (eapply on_AI; [|exact A|exact O]; intros _ w p; discriminate).
    destruct (finish_odd _ _ _ _ _ Ic Ax ltac:(congruence) Ub Fi) as [X _]. split; [exact X|exact (on_leu _ _ _ _ _ O Ux)].
  - destruct (steal (gen mb) s) as [x e] eqn:S. pose proof (no_steal _ _ _ _ _ I A M O S). subst x.
    assert (e = []).
    { unfold steal in S. destruct (aw (gens s (gen mb))) as [w|]; [|injection S as <-; reflexivity]. destruct (resume w _) as [q f]. injection S as Sq _. exfalso.
      assert (X : odd (set_odd (set_gens (upd (gens s) (gen mb) q) s)) = odd s) by now rewrite Sq. cbn in X. congruence. }
    subst e. cbn in H. injection H as <- <-. auto.
Qed.
Lemma interrupt_forks_odd : forall ks (s s1 : rstate) ev, W s -> AI s -> odd s = false -> ub s1 = false -> each (interrupt_fork nv) ks s = (s1, ev) -> odd s1 = false.
Proof.
  induction ks as [|k t IH]; intros s s1 ev I A Od Ub H; cbn in H; [injection H as <- <-; auto|].
  destruct (interrupt_fork nv s k) as [x e] eqn:Fk. destruct (each (interrupt_fork nv) t x) as [y e'] eqn:Et. injection H as <- <-.
  assert (Ux : ub x = false) by exact (each_fork_leu _ _ _ _ Et Ub).
  destruct (interrupt_fork_odd _ _ _ _ I A Od Ux Fk) as [Ox Us].
  destruct (interrupt_fork_Part nv True (mem s) _ _ _ _ I eq_refl (conj Ox Ux) Fk) as [F _].
  apply (IH x y e'); auto; [apply F|].
  exact (sim_AI _ _ _ _ (p_sim _ _ _ _ _ _ F) (cancelling_odd _) (p_mem _ _ _ _ _ _ F) A).
Qed.

Definition lonely (l : rlabel) : Prop :=
  match l with
  | Await ms _ => NoDup (map gen ms) /\ forall mb, In mb ms -> R (gen mb)
  | Env g (LAwait _ _) => ~ R g
  | _ => True
  end.

Lemma forward_odd t : forall ks (s s1 : rstate) ev, each (forward_one nv t) ks s = (s1, ev) -> odd s1 = odd s.
Proof.
  induction ks as [|k0 t0 IH]; intros s s1 ev H; cbn in H; [injection H as <- <-; reflexivity|].
  destruct (forward_one nv t s k0) as [x e] eqn:Fk. destruct (each (forward_one nv t) t0 x) as [y e'] eqn:Et. injection H as <- <-. rewrite (IH _ _ _ Et).
  unfold forward_one in Fk. destruct (nth_error (mem s) k0) as [mb|]; [|injection Fk as <- <-; reflexivity].
  destruct (armed s k0); [|injection Fk as <- <-; reflexivity]. destruct (on nv (gen mb) (LSignal (fid k0) t) s) as [[q e0]|] eqn:O; injection Fk as <- <-; [|reflexivity].
  destruct (on_gens _ _ _ _ _ _ O) as (? & ? & ? & ? & ? & ? & ? & ? & ? & ? & Ef & ?). now rewrite Ef.
Qed.

Lemma rstep_odd l (s s1 : rstate) ev : W s -> AI s -> odd s = false -> lonely l -> fine s l -> ub s1 = false -> rstep nv s l = Some (s1, ev) -> odd s1 = false.
Proof.
  intros I A Od Lo Fn Ub H. unfold rstep in H. destruct (ub s) eqn:Us; [discriminate|]. destruct l as [ms order| |g l|t|].
  - destruct (pc s); try discriminate. destruct ms as [|m0 ms]; [injection H as <- <-; exact Od|].
    destruct (is_order (length (m0 :: ms)) order); [|discriminate]. injection H as <- <-. exact Od.
  - destruct (pc s) as [|last rest ran|] eqn:Pc; try discriminate.
    assert (Cs : (exists k r, rest = k :: r /\ start_one nv k r s = (s1, ev)) \/ settle (set_pc Waiting s) = (s1, ev)).
    { destruct (stop last s); destruct rest as [|k r]; injection H as H; eauto. }
    destruct Cs as [(k & r & -> & H')|H']; [|rewrite (proj1 (settle_odd _ _ _ H')); exact Od].
    unfold start_one in H'. destruct (nth_error (mem s) k) as [mb|] eqn:M; [|injection H' as <- <-; exact Od].
    destruct (on nv (gen mb) (LAwait (fid k) (push mb)) (set_fk k Active s)) as [[x e]|] eqn:O.
    2:{ injection H' as <- <-. exact Od. }
    destruct (on_gens _ _ _ _ _ _ O) as (y & _ & _ & _ & _ & _ & _ & _ & _ & _ & Eo & _). cbn in Eo.
    destruct (answer k e) as [q|] eqn:An; [|injection H' as <- <-; cbn; congruence].
    unfold seq2 in H'. destruct (finish nv k q (set_pc (Starting (Some k) r false) x)) as [z e2] eqn:Fi. injection H' as <- <-.
    refine (proj1 (finish_odd _ _ _ _ _ (answered_W _ _ _ _ _ _ _ _ _ I Pc M O An) _ _ Ub Fi)); [|cbn; congruence].
    assert (Ax : AI x).
    { eapply on_AI; [| |exact O]; [intros _ w p X; injection X as <- <-; apply fid_even|]. destruct A. constructor; auto. }
    destruct Ax. constructor; auto.
  - destruct (may_run (pc s) l && negb (own l)) eqn:Mr; [|discriminate]. apply andb_true_iff in Mr. destruct Mr as [_ Ow]. apply negb_true_iff in Ow.
    destruct (env_one nv g l s) as [[x e]|] eqn:En; [|discriminate].
    assert (H' : seq2 (x, e) settle = (s1, ev)) by congruence. unfold seq2 in H'. destruct (settle x) as [y e2] eqn:T. injection H' as <- <-.
    destruct (settle_odd _ _ _ T) as [Eo Lu]. rewrite Eo. specialize (Lu Ub). unfold env_one in En.
    destruct (on nv g l s) as [[z e0]|] eqn:O; [|discriminate]. destruct (on_gens _ _ _ _ _ _ O) as (q & _ & _ & _ & _ & _ & _ & _ & _ & _ & Ez & _).
    destruct (woken e0) as [[k r]|] eqn:Wk; [|injection En as <- <-; congruence].
    unfold seq2 in En. destruct (finish nv k r z) as [x' e'] eqn:Fi. injection En as <- <-.
    refine (proj1 (finish_odd _ _ _ _ _ (resumed_W _ _ _ _ _ _ _ I Fn Ow O Wk) _ _ Lu Fi)); [|congruence].
    eapply on_AI; [|exact A|exact O]. intros Rg w p ->. now contradiction Lo.
  - destruct (pc s); try discriminate. injection H as H. rewrite (forward_odd _ _ _ _ _ H). exact Od.
  - destruct (pc s); try discriminate. destruct (each (interrupt_fork nv) (all s) s) as [x e] eqn:Ea.
    assert (H' : seq2 (x, e) settle = (s1, ev)) by congruence. unfold seq2 in H'. destruct (settle x) as [y e2] eqn:T. injection H' as <- <-.
    destruct (settle_odd _ _ _ T) as [Eo Lu]. rewrite Eo. exact (interrupt_forks_odd _ _ _ _ I A Od (Lu Ub) Ea).
Qed.

Lemma rrun_odd : forall ls (s s1 : rstate) tr, W s -> Post s -> AI s -> odd s = false -> (forall l, In l ls -> lonely l) -> proper nv s ls -> ub s1 = false ->
  rrun nv s ls = Some (s1, tr) -> odd s1 = false.
Proof.
  induction ls as [|l t IH]; intros s s1 tr I Po A Od Lo Pr Ub H; cbn in H, Pr; [injection H as <- <-; exact Od|].
  destruct (rstep nv s l) as [[x e]|] eqn:S; [|discriminate]. destruct (rrun nv x t) as [[y e']|] eqn:Rn; [|discriminate]. injection H as <- <-.
  destruct Pr as [Fn Pr].
  assert (Ux : ub x = false).
  { destruct (ub x) eqn:U; [|reflexivity]. destruct t; [cbn in Rn; congruence|]. rewrite rrun_ub in Rn by (assumption || discriminate). discriminate. }
  assert (Ox : odd x = false) by exact (rstep_odd l s x e I A Od (Lo l (or_introl eq_refl)) Fn Ux S).
  destruct (rstep_RStep nv l s x e I Po Fn (conj Ox Ux) S) as [Gs B]. apply (IH x y e'); auto; try apply B.
  2:{ intros l0 H. apply Lo. now right. }
  pose proof (Lo l (or_introl eq_refl)) as Ll. constructor.
  - intros g w tp Rg. destruct (r_sim _ _ _ _ _ B g) as (gl & _ & Rr & Ql). apply (run_odd g (nv g) gl (gens s g) (gens x g) (at_gen g e)); auto.
    + intros l0 Hl. destruct (Ql _ Hl) as [->|[(k & p & ->)|[(k & ->)|(k & u & -> & _)]]]; intros _ v p0 X.
      * subst l0. contradiction.
      * injection X as <- <-. apply fid_even.
      * discriminate.
      * discriminate.
    + intros w' tp'. now apply (a_odd _ A).
  - intros mb Hm. destruct (r_mem _ _ _ _ _ B _ Hm) as [Hm'|(ms & o & -> & Hm')]; [now apply (a_mem _ A)|]. now apply Ll.
  - destruct (r_mems _ _ _ _ _ B) as [X|[X|[o X]]]; [rewrite X; apply A|rewrite X; constructor|]. rewrite X in Ll. apply Ll.
Qed.
End Alone.
End More.
