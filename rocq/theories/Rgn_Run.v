(** Races over generators: steps and executions. *)
From Coq Require Import List Bool Arith Lia.
From Verif Require Import Gen_Model Gen_Spec Gen_Inv Gen_Final Rgn_Model Rgn_Spec Rgn_Inv Rgn_Step.
Import ListNotations.

Section Run.
Context {Y P E : Type}.
Notation gstate := (state Y P E).
Notation gevent := (event Y P E).
Notation glabel := (label Y P E).
Notation rstate := (rstate Y P E).
Notation rlabel := (rlabel Y P E).
Notation revent := (revent Y P E).
Notation result := (outcome Y E).
Notation member := (member P).
Variable nv : nat -> bool.
Notation W := (W nv).
Notation sim := (sim nv).
Notation Frag := (Frag nv).

(** What the race that goes on will give, if it comes from [g]. *)
Definition pend (g : nat) (s : rstate) : list result :=
  match idx s, out s with
  | Some i, Some r =>
      match nth_error (mem s) i with
      | Some mb => if (gen mb =? g) && given r then [r] else []
      | None => []
      end
  | _, _ => []
  end.
Definition lvalue (g : nat) (ms : list member) : Prop := forall mb, In mb ms -> gen mb = g -> lv mb = true.

Record Part (St : Prop) (Q : nat -> glabel -> Prop) (s s1 : rstate) (ev : list revent) : Prop := {
  p_W : W s1;
  p_sim : sim Q s s1 ev;
  p_mem : mem s1 = mem s;
  p_L : St -> L s -> L s1;
  p_acc : St -> L s -> forall g, lvalue g (mem s) -> pend g s ++ raced g ev = pend g s1;
  p_won : forall g, won g ev = [];
  p_fk : forall k, fk s k <> Unborn -> fk s1 k <> Unborn }.

Lemma Part_refl (St : Prop) Q s : W s -> Part St Q s s [].
Proof. intros I. constructor; auto. - now apply sim_refl. - intros. unfold raced. apply app_nil_r. Qed.
Lemma Part_trans (St : Prop) Q s s1 s2 e1 e2 : Part St Q s s1 e1 -> Part St Q s1 s2 e2 -> Part St Q s s2 (e1 ++ e2).
Proof.
  intros A B. constructor.
  - apply B.
  - eapply sim_trans; [apply A|apply B].
  - rewrite (p_mem _ _ _ _ _ B). apply A.
  - intros X Y0. apply (p_L _ _ _ _ _ B X), (p_L _ _ _ _ _ A X Y0).
  - intros X Y0 g V. rewrite raced_app, app_assoc, (p_acc _ _ _ _ _ A X Y0 g V). apply (p_acc _ _ _ _ _ B X).
    + apply (p_L _ _ _ _ _ A X Y0).
    + now rewrite (p_mem _ _ _ _ _ A).
  - intros g. now rewrite won_app, (p_won _ _ _ _ _ A), (p_won _ _ _ _ _ B).
  - intros k N. apply (p_fk _ _ _ _ _ B), (p_fk _ _ _ _ _ A), N.
Qed.
Lemma Frag_pend Q (s s1 : rstate) ev g : Frag Q s s1 ev -> pend g s1 = pend g s.
Proof. intros F. unfold pend. now rewrite (f_idx _ _ _ _ _ F), (f_out _ _ _ _ _ F), (f_mem _ _ _ _ _ F). Qed.
Lemma Frag_Part (St : Prop) Q (s s1 : rstate) ev : Frag Q s s1 ev -> Part St Q s s1 ev.
Proof.
  intros F. constructor; try apply F.
  - intros _ HL D k mb A M. rewrite (f_idx _ _ _ _ _ F) in D. rewrite (f_mem _ _ _ _ _ F) in M. eapply HL; eauto. eapply Frag_active; eauto.
  - intros _ _ g _. rewrite (f_raced _ _ _ _ _ F), app_nil_r. symmetry. eapply Frag_pend; eauto.
  - intros k N. destruct (f_fk _ _ _ _ _ F k) as [X|[_ X]]; rewrite X; [exact N|discriminate].
Qed.

(** The fork of member [k] gets [r] and ends. *)
Lemma fork_ends (St : Prop) (Q : nat -> glabel -> Prop) k mb r (s s1 s2 : rstate) ev e2 :
  nth_error (mem s) k = Some mb -> W (complete k r s1) -> W s ->
  (St -> idx s = None \/ fk s k = Active) -> fk s k <> Finished ->
  sim Q s s1 (map (G (gen mb)) ev) -> (forall g l, cancelling (mem s) g l -> Q g l) ->
  rr (results ev) = (if given r then [r] else []) ->
  mem s1 = mem s -> idx s1 = idx s -> out s1 = out s -> (forall j, j <> k -> fk s1 j = fk s j) ->
  good s2 -> finish nv k r s1 = (s2, e2) -> Part St Q s s2 (map (G (gen mb)) ev ++ e2).
Proof.
  intros M Ic I HS NF Sm HQ Hr Em Ei Eo Ef G H.
  destruct (finish_spec _ _ _ _ _ _ Ic G H) as (_ & F & HL). constructor.
  - apply F.
  - eapply sim_trans; [exact Sm|]. eapply sim_mono; [exact HQ|]. rewrite <- Em. apply F.
  - rewrite (f_mem _ _ _ _ _ F). exact Em.
  - intros _ _. exact HL.
  - intros X HL0 g V. rewrite raced_app, (f_raced _ _ _ _ _ F), app_nil_r, (Frag_pend _ _ _ _ g F), raced_map, Hr.
    assert (Hp : pend g (complete k r s1) = match idx s with
                   | None => if (gen mb =? g) && given r then [r] else []
                   | Some i => pend g s end).
    { unfold pend at 1. cbn [complete idx out mem]. rewrite Em, Ei, Eo. destruct (idx s) as [i|] eqn:Ix.
      - destruct (w_idx _ _ I _ Ix) as (_ & Fi & _). assert (Ni : i <> k) by congruence. apply Nat.eqb_neq in Ni. rewrite Ni.
        unfold pend. now rewrite Ix.
      - now rewrite Nat.eqb_refl, M. }
    rewrite Hp. destruct (idx s) as [i|] eqn:Ix.
    + destruct (HS X) as [D|A]; [congruence|].
      assert (Vm : lv mb = false) by (apply (HL0 ltac:(congruence) k); auto).
      destruct (Nat.eqb_spec (gen mb) g) as [Eg|Ng]; [|apply app_nil_r].
      rewrite (V mb) in Vm; [discriminate|eapply nth_error_In; eauto|exact Eg].
    + unfold pend. rewrite Ix. now destruct (gen mb =? g).
  - intros g. rewrite won_app, won_map. apply (f_won _ _ _ _ _ F).
  - intros j N. destruct (f_fk _ _ _ _ _ F j) as [X|[_ X]]; rewrite X; [|discriminate]. cbn.
    destruct (Nat.eq_dec j k) as [->|Nj]; [rewrite upd_eq; discriminate|]. rewrite upd_ne by exact Nj. now rewrite Ef.
Qed.

Definition envs (g : nat) (l : glabel) (h : nat) (x : glabel) : Prop := h = g /\ x = l.

Lemma rr_odd w r : Nat.even w = false -> rr [(w, r)] = ([] : list result).
Proof. intros H. unfold rr. cbn. now rewrite H. Qed.
Lemma rr_fid k r : rr [(fid k, r)] = (if given r then [r] else [] : list result).
Proof. unfold rr. cbn [flat_map fst snd]. rewrite fid_even. cbn. now destruct (given r). Qed.

(** A step of a generator that resumes no fork. *)
Lemma kept (St : Prop) (Q : nat -> glabel -> Prop) g l (s s1 : rstate) ev : W s -> ok (gens s g) l = true -> Q g l -> on nv g l s = Some (s1, ev) ->
  (forall k, ws (gens s1 g) (fid k) = ws (gens s g) (fid k)) -> rr (results ev) = [] -> Part St Q s s1 (map (G g) ev).
Proof.
  intros I K HQ O Hw Hr. destruct (on_gens _ _ _ _ _ _ O) as (x & S & Hx & Hn & Ep & Em & Ei & Eo & Ef & Ea & _).
  pose proof (step_INV _ _ _ _ _ (w_gen _ _ I g) K S) as [Ix _].
  constructor.
  - apply (W_keep nv g s); auto.
    + now rewrite Hx.
    + intros k tp X. exists tp. now rewrite Hw.
    + intros k tp X. exists tp. now rewrite <- Hw.
    + intros j. now rewrite Ea.
  - eapply on_sim; eauto.
  - exact Em.
  - intros _ HL D k mb A M. rewrite Ei in D. rewrite Ef in A. rewrite Em in M. eapply HL; eauto.
  - intros _ _ h V. rewrite raced_map, Hr. unfold pend. rewrite Ei, Eo, Em. destruct (g =? h); apply app_nil_r.
  - intros h. apply won_map.
  - intros k. now rewrite Ef.
Qed.

Lemma fid_odd w k : Nat.even w = false -> fid k <> w.
Proof. intros H <-. rewrite fid_even in H. discriminate. Qed.

Lemma env_one_Part (St : Prop) g l (s s1 : rstate) ev : W s -> ok (gens s g) l = true -> own l = false -> good s1 -> env_one nv g l s = Some (s1, ev) ->
  Part St (fun h x => envs g l h x \/ cancelling (mem s) h x) s s1 ev /\ pc s1 = pc s.
Proof.
  intros I K Ow G H. unfold env_one in H. destruct (on nv g l s) as [[x e]|] eqn:O; [|discriminate].
  injection H as H. rewrite woken_results in H.
  destruct (on_gens _ _ _ _ _ _ O) as (y & S & Hy & Hn & Ep & Em & Ei & Eo & Ef & Ea & Ed & Eu).
  pose proof (step_INV _ _ _ _ _ (w_gen _ _ I g) K S) as [Ix _].
  assert (HQ : envs g l g l \/ cancelling (mem s) g l) by (left; split; reflexivity).
  pose proof (kept St (fun h z => envs g l h z \/ cancelling (mem s) h z) g l s x e I K HQ O) as Keep. rewrite Hy in Keep.
  destruct (gstep_cases _ _ _ _ _ S) as
    [(w & r & tp & Rs & Rj & Ws & Hw & _)|[(w & p & r & -> & Rs & Rj & Ws & Hw & _)|[(w & p & -> & -> & -> & _)|
     [(w & p & tp & -> & Rs & Rj & Ws & Hw)|[(w & Kl & Rs & Rj & Hw & _)|(Rs & Rj & Hw & _)]]]]].
  - rewrite Rs in H. cbn [filter fst] in H. destruct (Nat.even w) eqn:Ew.
    + pose proof (even_fid _ Ew) as Ew'. set (k := Nat.div2 w) in *.
      rewrite Ew' in *. clear Ew Ew'. destruct (w_susp _ _ I _ _ _ Ws) as (A & mb & M & Eg). subst g.
      cbn [seq2] in H. destruct (finish nv k r x) as [z e2] eqn:Fi. injection H as <- <-.
      assert (Ic : W (complete k r x)).
      { apply (W_complete nv k _ mb s); auto; try (rewrite ?Hy, ?Ef, ?Ea; auto).
        - intros j N. rewrite Hw, upd_ne; [reflexivity|]. intros X. apply fid_inj in X. contradiction.
        - intros tp'. rewrite Hw, upd_eq. discriminate. }
      split.
      * refine (fork_ends St _ k mb r s x z e e2 M Ic I _ _ (on_sim nv (fun h q => envs (gen mb) l h q \/ cancelling (mem s) h q) _ _ _ _ _ K HQ O) _ _ Em Ei Eo _ G Fi).
        -- auto.
        -- congruence.
        -- intros h q Hq. now right.
        -- rewrite Rs. apply rr_fid.
        -- intros j _. now rewrite Ef.
      * destruct (finish_spec _ _ _ _ _ _ Ic G Fi) as (_ & F & _). rewrite (f_pc _ _ _ _ _ F). exact Ep.
    + injection H as <- <-. split; [|exact Ep]. apply Keep.
      * intros k. rewrite Hw, upd_ne; [reflexivity|now apply fid_odd].
      * rewrite Rs. now apply rr_odd.
  - cbn in Ow. rewrite Rs in H. cbn [filter fst] in H. rewrite Ow in H. injection H as <- <-. split; [|exact Ep]. apply Keep.
    + intros k. apply Hw.
    + rewrite Rs. now apply rr_odd.
  - cbn in H. injection H as <- <-. split; [|exact Ep]. apply Keep; [auto|reflexivity].
  - cbn in Ow. rewrite Rs in H. injection H as <- <-. split; [|exact Ep]. apply Keep.
    + intros k. rewrite Hw, upd_ne; [reflexivity|now apply fid_odd].
    + now rewrite Rs.
  - rewrite Rs in H. injection H as <- <-. split; [|exact Ep]. apply Keep; [|now rewrite Rs].
    destruct (Nat.even w) eqn:Ew.
    + exfalso. destruct G as [_ Gu]. rewrite Eu in Gu. apply orb_false_iff in Gu. destruct Gu as [_ Gu].
      assert (X : existsb fatal e = true) by (apply existsb_exists; exists (EKilled w); auto). congruence.
    + intros k. rewrite Hw, upd_ne; [reflexivity|now apply fid_odd].
  - rewrite Rs in H. injection H as <- <-. split; [|exact Ep]. apply Keep; [intros k; apply Hw|now rewrite Rs].
Qed.

Lemma interrupt_fork_le k (s s1 : rstate) ev : interrupt_fork nv s k = (s1, ev) -> le s s1.
Proof.
  unfold interrupt_fork. destruct (nth_error (mem s) k) as [mb|]; [|intros H; injection H as <- <-; now intros A].
  destruct (lv mb && is_active (fk s k)); [|intros H; injection H as <- <-; now intros A].
  assert (X : forall x e, le s x -> match woken e with Some (j, r) => seq2 (x, map (G (gen mb)) e) (finish nv j r) | None => (x, map (G (gen mb)) e) end = (s1, ev) -> le s s1).
  { intros x e Lx. destruct (woken e) as [[j r]|].
    - cbn [seq2]. destruct (finish nv j r x) as [z e2] eqn:Fi. intros H. injection H as <- <-. intros G. apply Lx, (complete_le j r x), (cancel_all_le _ _ _ _ _ Fi G).
    - intros H. injection H as <- <-. exact Lx. }
  destruct (on nv (gen mb) (LInterrupt (fid k)) s) as [[x e]|] eqn:O.
  - apply X. eapply on_le; eauto.
  - destruct (steal (gen mb) s) as [x e] eqn:S. apply X. eapply steal_le; eauto.
Qed.
Lemma interrupt_fork_Part (St : Prop) ms k (s s1 : rstate) ev : W s -> mem s = ms -> good s1 -> interrupt_fork nv s k = (s1, ev) ->
  Part St (cancelling ms) s s1 ev /\ pc s1 = pc s.
Proof.
  intros I Em G H. subst ms. unfold interrupt_fork in H. destruct (nth_error (mem s) k) as [mb|] eqn:M; [|injection H as <- <-; split; [now apply Part_refl|reflexivity]].
  destruct (lv mb && is_active (fk s k)) eqn:C; [|injection H as <- <-; split; [now apply Part_refl|reflexivity]].
  destruct (on nv (gen mb) (LInterrupt (fid k)) s) as [[x e]|] eqn:O.
  - assert (Gx : good x).
    { destruct (woken e) as [[j r]|]; [|injection H as <- <-; exact G]. cbn [seq2] in H. destruct (finish nv j r x) as [z e2] eqn:Fi. injection H as <- <-.
      exact (cancel_all_le _ _ _ _ _ Fi G). }
    destruct (interrupted _ _ _ _ _ _ I M Gx O) as (A & -> & Ic & Sm). rewrite woken_results in H. cbn [results flat_map app filter] in H. cbn [fst] in H. rewrite fid_even, fid_div2 in H.
    cbn [seq2] in H. destruct (finish nv k (RExc XDetached) x) as [z e2] eqn:Fi. injection H as <- <-.
    destruct (on_gens _ _ _ _ _ _ O) as (y & S & Hy & Hn & Ep & Em & Ei & Eo & Ef & Ea & Ed & Eu).
    split.
    + refine (fork_ends St _ k mb (RExc XDetached) s x z [EInterrupt (fid k); EResult (fid k) (RExc XDetached)] e2 M Ic I _ _ _ _ _ Em Ei Eo _ G Fi); auto.
      * congruence.
      * eapply sim_mono; [|exact Sm]. intros g l Hl. now left.
      * apply (rr_fid k (RExc XDetached)).
      * intros j _. now rewrite Ef.
    + destruct (finish_spec _ _ _ _ _ _ Ic G Fi) as (_ & F & _). rewrite (f_pc _ _ _ _ _ F). exact Ep.
  - destruct (steal (gen mb) s) as [x e] eqn:S.
    assert (Gx : good x).
    { destruct (woken e) as [[j r]|]; [|injection H as <- <-; exact G]. cbn [seq2] in H. destruct (finish nv j r x) as [z e2] eqn:Fi. injection H as <- <-.
      exact (cancel_all_le _ _ _ _ _ Fi G). }
    destruct (not_stolen _ _ _ _ _ _ I M Gx O S) as (-> & -> & NA). cbn in H. injection H as <- <-. split; [now apply Part_refl|reflexivity].
Qed.
Lemma interrupt_forks_Part (St : Prop) ms : forall ks (s s1 : rstate) ev, W s -> mem s = ms -> good s1 -> each (interrupt_fork nv) ks s = (s1, ev) ->
  Part St (cancelling ms) s s1 ev /\ pc s1 = pc s.
Proof.
  induction ks as [|k t IH]; intros s s1 ev I Em G H; cbn in H.
  - injection H as <- <-. split; [now apply Part_refl|reflexivity].
  - destruct (interrupt_fork nv s k) as [x e] eqn:Fk. destruct (each (interrupt_fork nv) t x) as [y e'] eqn:Et. injection H as <- <-.
    assert (Gx : good x) by (eapply each_le; [apply interrupt_fork_le|exact Et|exact G]).
    destruct (interrupt_fork_Part St _ _ _ _ _ I Em Gx Fk) as [A Pa].
    assert (Ex : mem x = ms) by (rewrite (p_mem _ _ _ _ _ A); exact Em).
    destruct (IH _ _ _ (p_W _ _ _ _ _ A) Ex G Et) as [B Pb]. split; [eapply Part_trans; eauto|congruence].
Qed.

(** The race goes on, or all has ended and it gives its outcome. *)
Lemma settle_spec (s s1 : rstate) ev : W s -> good s -> settle s = (s1, ev) ->
  W s1 /\ good s1 /\ (forall g, gens s1 g = gens s g) /\ (forall g, at_gen g ev = []) /\ (mem s1 = mem s \/ mem s1 = []) /\ (L s -> L s1) /\
  (forall g, pend g s = won g ev ++ pend g s1) /\ (pc s1 = Waiting -> exists k, k < length (mem s1) /\ fk s1 k = Active).
Proof.
  intros I [Go Gu] H. unfold settle in H. destruct (pc s) as [|last rest ran|] eqn:Pc.
  1,2: injection H as <- <-; split; [exact I|]; split; [now split|]; repeat split; auto; congruence.
  destruct (existsb (fun k => is_active (fk s k)) (all s)) eqn:Ex.
  - injection H as <- <-. split; [exact I|]. split; [now split|]. repeat split; auto. intros _. apply existsb_exists in Ex. destruct Ex as (k & Hk & A).
    apply in_seq in Hk. exists k. split; [lia|]. now destruct (fk s k).
  - assert (NA : forall k, fk s k <> Active).
    { intros k A. destruct (w_act _ _ I _ A) as (mb & tp & M & _). assert (X : existsb (fun k => is_active (fk s k)) (all s) = true); [|congruence].
      apply existsb_exists. exists k. split; [apply in_seq; assert (k < length (mem s)) by (apply nth_error_Some; congruence); lia|now rewrite A]. }
    destruct (w_wait _ _ I Pc) as [NE Wt]. destruct (idx s) as [i|] eqn:Ix.
    2:{ exfalso. apply (NA 0). apply Wt; [reflexivity|]. destruct (mem s); [congruence|cbn; lia]. }
    destruct (w_idx _ _ I _ Ix) as (Li & Fi & No). destruct (out s) as [r|] eqn:Ot; [|congruence].
    injection H as <- <-. destruct (nth_error (mem s) i) as [mb|] eqn:M; [|apply nth_error_None in M; lia].
    split; [|split; [now split|]].
    + constructor; cbn; try congruence; auto.
      * intros g. apply (w_gen _ _ I).
      * intros g k tp Ws. destruct (w_susp _ _ I _ _ _ Ws) as [A _]. now apply NA in A.
    + split; [reflexivity|]. split; [reflexivity|]. split; [now right|]. split; [intros _ X; now contradiction X|].
      split; [|discriminate]. intros g. unfold pend. rewrite Ix, Ot, M. cbn. now rewrite !app_nil_r.
Qed.

(** A member that has to wait. *)
Lemma W_started k mb tp rest (s s1 : rstate) last ran c d : W s -> pc s = Starting last (k :: rest) ran -> nth_error (mem s) k = Some mb ->
  INV (nv (gen mb)) (gens s1 (gen mb)) -> (forall h, h <> gen mb -> gens s1 h = gens s h) ->
  (forall j, j <> k -> ws (gens s1 (gen mb)) (fid j) = ws (gens s (gen mb)) (fid j)) ->
  ws (gens s1 (gen mb)) (fid k) = WSusp tp ->
  mem s1 = mem s -> idx s1 = idx s -> out s1 = out s -> fk s1 = upd (fk s) k Active -> armed s1 = armed s ->
  W (set_pc (Starting c rest d) (set_armed k true s1)).
Proof.
  intros I Pc M Ig Hn Hj Hk Em Ei Eo Ef Ea. destruct (w_rest _ _ I _ _ _ Pc) as (X1 & X2 & X3 & X4). inversion X2 as [|? ? Nk Nr]; subst.
  destruct (X3 k (or_introl eq_refl)) as [Uk Lk].
  constructor; cbn [set_pc set_armed gens pc mem idx out fk armed]; rewrite ?Em, ?Ei, ?Eo, ?Ef, ?Ea.
  - intros h. destruct (Nat.eq_dec h (gen mb)) as [->|N]; [exact Ig|]. rewrite (Hn _ N). apply (w_gen _ _ I).
  - intros j. destruct (Nat.eq_dec j k) as [->|N]; [intros _; eauto|]. rewrite upd_ne by exact N.
    intros A. destruct (w_act _ _ I _ A) as (mj & tj & Mj & S). exists mj, tj. split; [exact Mj|].
    destruct (Nat.eq_dec (gen mj) (gen mb)) as [Eg|Ng]; [|now rewrite Hn]. rewrite Eg in *. now rewrite Hj.
  - intros g j tj S. destruct (Nat.eq_dec j k) as [->|N].
    + rewrite upd_eq. split; [reflexivity|]. exists mb. split; [exact M|]. destruct (Nat.eq_dec (gen mb) g) as [Eg|Ng]; [exact Eg|].
      exfalso. rewrite Hn in S by congruence. destruct (w_susp _ _ I _ _ _ S) as [A _]. congruence.
    + rewrite upd_ne by exact N. apply (w_susp _ _ I g j tj). destruct (Nat.eq_dec g (gen mb)) as [->|Ng]; [now rewrite <- Hj|now rewrite <- Hn].
  - discriminate.
  - intros j. destruct (Nat.eq_dec j k) as [->|N]; [now rewrite !upd_eq|]. rewrite !upd_ne by exact N. apply (w_armed _ _ I).
  - intros i Hi. destruct (w_idx _ _ I _ Hi) as (Li & Fi & Oi). split; [exact Li|]. split; [|exact Oi]. rewrite upd_ne; [exact Fi|congruence].
  - intros j. destruct (Nat.eq_dec j k) as [->|N]; [rewrite upd_eq; discriminate|]. rewrite upd_ne by exact N. apply (w_fin _ _ I).
  - intros l0 r0 n0 Hs. injection Hs as <- <- <-. split; [exact X1|]. split; [exact Nr|]. split.
    + intros j Hj'. destruct (X3 j (or_intror Hj')) as [Uj Lj]. split; [|exact Lj]. rewrite upd_ne; [exact Uj|congruence].
    + intros j Lj Nj. destruct (Nat.eq_dec j k) as [->|N]; [rewrite upd_eq; discriminate|]. rewrite upd_ne by exact N. apply X4; [exact Lj|]. intros [X|X]; [congruence|contradiction].
  - discriminate.
Qed.

Definition awaiting (g : nat) (l : glabel) : Prop := exists k p, l = LAwait (fid k) p.

Lemma start_one_Part k rest last ran (s s1 : rstate) ev : W s -> good s1 -> pc s = Starting last (k :: rest) ran -> start_one nv k rest s = (s1, ev) ->
  Part (idx s = None) (fun h x => awaiting h x \/ cancelling (mem s) h x) s s1 ev /\ (exists b, pc s1 = Starting (Some k) rest b) /\ fk s1 k <> Unborn.
Proof.
  intros I Gd Pc H. destruct (w_rest _ _ I _ _ _ Pc) as (X1 & X2 & X3 & X4). destruct (X3 k (or_introl eq_refl)) as [Uk Lk].
  unfold start_one in H. destruct (nth_error (mem s) k) as [mb|] eqn:M; [|apply nth_error_None in M; lia].
  destruct (on nv (gen mb) (LAwait (fid k) (push mb)) (set_fk k Active s)) as [[x e]|] eqn:O.
  2:{ injection H as <- <-. destruct Gd as [_ Gd]. cbn in Gd. rewrite orb_true_r in Gd. discriminate. }
  destruct (on_gens _ _ _ _ _ _ O) as (y & S & Hy & Hn & Ep & Em & Ei & Eo & Ef & Ea & Ed & Eu).
  cbn [set_fk gens pc mem idx out fk armed odd ub] in *.
  pose proof (step_INV _ _ _ _ _ (w_gen _ _ I (gen mb)) (eq_refl : ok _ (LAwait (fid k) (push mb)) = true) S) as [Ix _].
  assert (Sm : sim (fun h x => awaiting h x \/ cancelling (mem s) h x) s x (map (G (gen mb)) e)).
  { refine (sim_gens _ _ (set_fk k Active s) s x x _ _ _ (on_sim _ _ _ (LAwait (fid k) (push mb)) _ _ _ eq_refl _ O)); auto. left. exists k, (push mb). reflexivity. }
  assert (NS : forall g tp, ws (gens s g) (fid k) <> WSusp tp).
  { intros g tp Ws. destruct (w_susp _ _ I _ _ _ Ws) as [A _]. congruence. }
  assert (Done : forall r z e2, (forall j, ws y j = ws (gens s (gen mb)) j) -> rr (results e) = (if given r then [r] else []) ->
            finish nv k r (set_pc (Starting (Some k) rest false) x) = (z, e2) -> good z ->
            Part (idx s = None) (fun h x => awaiting h x \/ cancelling (mem s) h x) s z (map (G (gen mb)) e ++ e2) /\ (exists b, pc z = Starting (Some k) rest b) /\ fk z k <> Unborn).
  { intros r z e2 Hw Hr Fi Gz.
    assert (Ic : W (complete k r (set_pc (Starting (Some k) rest false) x))).
    { apply (W_complete nv k _ mb s); cbn [set_pc gens pc mem idx out fk armed]; auto; try (rewrite ?Hy, ?Ef, ?Ea; auto).
      - intros tp. rewrite Hw. apply NS.
      - right. split; [exact Uk|]. exists last, rest, ran, (Some k). auto.
      - intros j N. now rewrite upd_ne. }
    split.
    - eapply fork_ends with (s1 := set_pc (Starting (Some k) rest false) x); try eassumption; auto; try congruence; try (intros; now right).
      intros j N. cbn. rewrite Ef. now rewrite upd_ne.
    - destruct (finish_spec _ _ _ _ _ _ Ic Gz Fi) as (_ & F & _). rewrite (f_pc _ _ _ _ _ F). split; [cbn; eauto|].
      destruct (f_fk _ _ _ _ _ F k) as [X|[_ X]]; rewrite X; [|discriminate]. cbn. rewrite upd_eq. discriminate. }
  destruct (gstep_cases _ _ _ _ _ S) as
    [(w & r & tp & _ & _ & _ & _ & Nl)|[(w & p & r & Lw & Rs & Rj & Ws & Hw & _)|[(w & p & Lw & -> & Hs & _)|
     [(w & p & tp & Lw & Rs & Rj & Ws & Hw)|[(w & _ & _ & _ & _ & Nl)|(_ & _ & _ & Nl)]]]]].
  - exfalso. now apply (Nl (fid k) (push mb)).
  - injection Lw as <- <-. rewrite (answer_one _ _ _ Rs Rj) in H. unfold seq2 in H.
    destruct (finish nv k r (set_pc (Starting (Some k) rest false) x)) as [z e2] eqn:Fi. injection H as <- <-.
    eapply Done; eauto. rewrite Rs. apply rr_fid.
  - injection Lw as <- <-. cbn [answer] in H. rewrite Nat.eqb_refl in H. unfold seq2 in H.
    destruct (finish nv k (RExc XAlready) (set_pc (Starting (Some k) rest false) x)) as [z e2] eqn:Fi. injection H as <- <-.
    subst y. refine (Done (RExc XAlready) _ _ _ eq_refl Fi Gd). intros j. now rewrite Hs.
  - injection Lw as <- <-. rewrite (answer_none _ _ Rs Rj) in H. injection H as <- <-. split; [|split; [cbn; eauto|cbn; rewrite Ef, upd_eq; discriminate]]. constructor.
    + apply (W_started k mb tp rest s x last ran); auto; rewrite ?Hy; auto.
      * intros j N. rewrite Hw, upd_ne; [reflexivity|]. intros X. apply fid_inj in X. contradiction.
      * rewrite Hw. apply upd_eq.
    + eapply sim_gens; [| |exact Sm]; reflexivity.
    + exact Em.
    + intros D _ D'. cbn in D'. rewrite Ei in D'. congruence.
    + intros D _ g _. rewrite raced_map, Rs. unfold pend. cbn. rewrite Ei, D. now destruct (gen mb =? g).
    + intros g. apply won_map.
    + intros j N. cbn. rewrite Ef. destruct (Nat.eq_dec j k) as [->|Nj]; [rewrite upd_eq; discriminate|now rewrite upd_ne].
  - exfalso. now apply (Nl (fid k) (push mb)).
  - exfalso. now apply (Nl (fid k) (push mb)).
Qed.

(** *** Steps *)
Definition Post (s : rstate) : Prop := pc s = Waiting -> exists k, k < length (mem s) /\ fk s k = Active.

(** What a step of the race may do to a generator. *)
Definition allowed (l : rlabel) (ms : list member) (g : nat) (x : glabel) : Prop :=
  l = Env g x \/ awaiting g x \/ interrupting g x \/
  exists k t, x = LSignal (fid k) t /\ (l = Cancel t \/ exists mb, In mb ms /\ gen mb = g /\ lv mb = false).

Definition unhurried (s : rstate) (l : rlabel) : Prop :=
  match l, pc s with
  | Next, Starting last _ _ => idx s = None \/ stop last s = true
  | _, _ => True
  end.
Definition fine (s : rstate) (l : rlabel) : Prop := match l with Env g x => ok (gens s g) x = true | _ => True end.
Definition lvalue_in (g : nat) (l : rlabel) : Prop := match l with Await ms _ => lvalue g ms | _ => True end.

Lemma cancelling_allowed l ms g x : cancelling ms g x -> allowed l ms g x.
Proof.
  intros [H|(k & mb & -> & M & Eg & V)]; [right; right; now left|]. do 3 right. exists k, ct. split; [reflexivity|].
  right. exists mb. split; [eapply nth_error_In; eauto|auto].
Qed.

Record RStep (s : rstate) (l : rlabel) (s1 : rstate) (ev : list revent) : Prop := {
  r_W : W s1;
  r_post : Post s1;
  r_sim : sim (allowed l (mem s)) s s1 ev;
  r_mems : mem s1 = mem s \/ mem s1 = [] \/ exists o, l = Await (mem s1) o;
  r_L : unhurried s l -> L s -> L s1;
  r_acc : unhurried s l -> L s -> forall g, lvalue g (mem s) -> pend g s ++ raced g ev = won g ev ++ pend g s1 }.

Lemma r_mem (s : rstate) l s1 ev : RStep s l s1 ev -> forall mb, In mb (mem s1) -> In mb (mem s) \/ exists ms o, l = Await ms o /\ In mb ms.
Proof.
  intros A mb H. destruct (r_mems _ _ _ _ A) as [X|[X|[o X]]]; [rewrite X in H; now left|rewrite X in H; contradiction|right; eauto].
Qed.

Lemma Part_settle (St : Prop) Q (s x s1 : rstate) l e ev : Part St Q s x e -> good x -> (unhurried s l -> St) ->
  (forall g y, Q g y -> allowed l (mem s) g y) -> seq2 (x, e) settle = (s1, ev) -> RStep s l s1 ev.
Proof.
  intros A Gx HS HQ H. unfold seq2 in H. destruct (settle x) as [y e2] eqn:T. injection H as <- <-.
  destruct (settle_spec _ _ _ (p_W _ _ _ _ _ A) Gx T) as (Iy & _ & Eg & Ee & Em & HL & Hp & HP). constructor; auto.
  - refine (sim_trans _ _ _ _ _ _ _ (sim_mono _ _ _ _ _ _ HQ (p_sim _ _ _ _ _ A)) _). now apply sim_refl.
  - rewrite <- (p_mem _ _ _ _ _ A). destruct Em; auto.
  - intros U HL0. apply HL, (p_L _ _ _ _ _ A); auto.
  - intros U HL0 g V. rewrite raced_app, won_app, (p_won _ _ _ _ _ A). cbn.
    replace (raced g e2) with (@nil result) by (unfold raced; now rewrite Ee).
    rewrite app_nil_r, (p_acc _ _ _ _ _ A) by auto. apply Hp.
Qed.

Lemma settle_le (s s1 : rstate) ev : settle s = (s1, ev) -> le s s1.
Proof.
  unfold settle, le, good. destruct (pc s); try (intros H; injection H as <- <-; tauto).
  destruct (existsb _ _); [intros H; injection H as <- <-; tauto|].
  destruct (idx s); [destruct (out s)|]; intros H; injection H as <- <-; cbn; rewrite ?orb_true_r; intuition discriminate.
Qed.

Lemma start_one_le k r (s s1 : rstate) ev : start_one nv k r s = (s1, ev) -> le s s1.
Proof.
  intros H Gd. unfold start_one in H. destruct (nth_error (mem s) k) as [mb|]; [|injection H as <- <-; exact Gd].
  destruct (on nv (gen mb) (LAwait (fid k) (push mb)) (set_fk k Active s)) as [[x e]|] eqn:O.
  2:{ injection H as <- <-. destruct Gd as [_ Gd]. cbn in Gd. rewrite orb_true_r in Gd. discriminate. }
  apply on_le in O. apply O. destruct (answer k e) as [q|]; [|injection H as <- <-; exact Gd].
  unfold seq2 in H. destruct (finish nv k q (set_pc (Starting (Some k) r false) x)) as [z e2] eqn:Fi. injection H as <- <-.
  exact (cancel_all_le _ _ _ _ _ Fi Gd).
Qed.
Lemma env_one_le g l (s s1 : rstate) ev : env_one nv g l s = Some (s1, ev) -> le s s1.
Proof.
  intros En Gd. unfold env_one in En. destruct (on nv g l s) as [[z e0]|] eqn:O; [|discriminate]. apply on_le in O. apply O. destruct (woken e0) as [[k r]|].
  - unfold seq2 in En. destruct (finish nv k r z) as [q e2] eqn:Fi. injection En as <- <-. exact (cancel_all_le _ _ _ _ _ Fi Gd).
  - injection En as <- <-. exact Gd.
Qed.

Lemma is_order_spec n order : is_order n order = true -> NoDup order /\ (forall k, In k order <-> k < n).
Proof.
  unfold is_order. intros H. apply andb_true_iff in H. destruct H as [Hl Hi]. apply Nat.eqb_eq in Hl.
  assert (Inc : incl (seq 0 n) order).
  { intros k Hk. rewrite forallb_forall in Hi. apply Hi in Hk. apply existsb_exists in Hk. destruct Hk as (j & Hj & E0). apply Nat.eqb_eq in E0. now subst j. }
  assert (ND : NoDup order).
  { eapply NoDup_incl_NoDup; [apply seq_NoDup| |exact Inc]. rewrite seq_length. lia. }
  split; [exact ND|]. intros k. split.
  - intros Hk. assert (X : incl order (seq 0 n)).
    { apply NoDup_length_incl; [apply seq_NoDup|rewrite seq_length; lia|exact Inc]. }
    apply X, in_seq in Hk. lia.
  - intros Hk. apply Inc, in_seq. lia.
Qed.

Lemma forward_fk t k : forall ks (s s1 : rstate) ev, each (forward_one nv t) ks s = (s1, ev) -> fk s1 k = fk s k.
Proof.
  induction ks as [|k0 t0 IH]; intros s s1 ev H; cbn in H; [injection H as <- <-; reflexivity|].
  destruct (forward_one nv t s k0) as [x e] eqn:Fk. destruct (each (forward_one nv t) t0 x) as [y e'] eqn:Et. injection H as <- <-. rewrite (IH _ _ _ Et).
  unfold forward_one in Fk. destruct (nth_error (mem s) k0) as [mb|]; [|injection Fk as <- <-; reflexivity].
  destruct (armed s k0); [|injection Fk as <- <-; reflexivity]. destruct (on nv (gen mb) (LSignal (fid k0) t) s) as [[q e0]|] eqn:O; injection Fk as <- <-; [|reflexivity].
  destruct (on_gens _ _ _ _ _ _ O) as (? & ? & ? & ? & ? & ? & ? & ? & Ef & ? & ? & ?). now rewrite Ef.
Qed.

Theorem rstep_RStep l (s s1 : rstate) ev : W s -> Post s -> fine s l -> good s1 -> rstep nv s l = Some (s1, ev) ->
  good s /\ RStep s l s1 ev.
Proof.
  intros I Po Fn Gd H. unfold rstep in H. destruct (ub s) eqn:Ub; [discriminate|]. destruct l as [ms order| |g l|t|].
  - destruct (pc s) eqn:Pc; try discriminate. destruct ms as [|m0 ms].
    + injection H as <- <-. split; [exact Gd|]. constructor; auto.
      * now apply sim_refl.
      * intros. apply app_nil_r.
    + destruct (is_order (length (m0 :: ms)) order) eqn:Or; [|discriminate]. injection H as <- <-. destruct (is_order_spec _ _ Or) as [ND Hin].
      destruct (w_idle _ _ I Pc) as [Un Ix]. split; [split; [apply Gd|exact Ub]|]. constructor.
      * constructor; cbn [gens pc mem idx out fk armed]; try discriminate; auto.
        -- apply (w_gen _ _ I).
        -- intros g k tp Ws. destruct (w_susp _ _ I _ _ _ Ws) as [A _]. congruence.
        -- intros last rest ran X. injection X as <- <- <-. split; [discriminate|]. split; [exact ND|]. split.
           ++ intros k Hk. split; [reflexivity|]. now apply Hin.
           ++ intros k Hk N. exfalso. now apply N, Hin.
      * intros X. discriminate X.
      * now apply sim_refl.
      * right. right. exists order. reflexivity.
      * intros _ _ X. now contradiction X.
      * intros _ _ g V. unfold pend. rewrite Ix. reflexivity.
  - destruct (pc s) as [|last rest ran|] eqn:Pc; try discriminate.
    assert (Cs : (exists k r, rest = k :: r /\ stop last s = false /\ start_one nv k r s = (s1, ev)) \/
                 ((stop last s = true \/ rest = []) /\ settle (set_pc Waiting s) = (s1, ev))).
    { destruct (stop last s); destruct rest as [|k r]; injection H as H; eauto 7. }
    clear H. destruct Cs as [(k & r & -> & Ns & H)|[Cs H]].
    + assert (Gs : good s) by exact (start_one_le _ _ _ _ _ H Gd).
      split; [exact Gs|]. destruct (start_one_Part _ _ _ _ _ _ _ I Gd Pc H) as [A [[b NW] _]].
      constructor.
      * apply A.
      * intros X. congruence.
      * eapply sim_mono; [|apply A]. intros g x [Hx|Hx]; [right; now left|now apply cancelling_allowed].
      * left. apply A.
      * intros U. cbn in U. rewrite Pc in U. destruct U as [U|U]; [now apply (p_L _ _ _ _ _ A)|congruence].
      * intros U HL g V. cbn in U. rewrite Pc in U. destruct U as [U|U]; [|congruence].
        rewrite (p_won _ _ _ _ _ A). cbn. now apply (p_acc _ _ _ _ _ A).
    + assert (Gs : good s) by exact (settle_le _ _ _ H Gd). split; [exact Gs|].
      assert (Iw : W (set_pc Waiting s)).
      { destruct (w_rest _ _ I _ _ _ Pc) as (X1 & X2 & X3 & X4). constructor; cbn [set_pc gens pc mem idx out fk armed]; try discriminate; try apply I.
        intros _. split; [exact X1|]. intros Ix k Hk. destruct Cs as [St| ->].
        - exfalso. destruct last as [j|]; [|discriminate]. cbn in St. destruct (fk s j) eqn:Fj; try discriminate. now apply (w_fin _ _ I) in Fj.
        - specialize (X4 k Hk (fun X => X)). destruct (fk s k) eqn:Fk; [congruence|reflexivity|]. now apply (w_fin _ _ I) in Fk. }
      assert (A : Part True (fun _ _ => False) s (set_pc Waiting s) []).
      { constructor; auto. - now apply sim_refl. - intros. apply app_nil_r. }
      refine (Part_settle True _ s (set_pc Waiting s) s1 Next [] ev A Gs _ _ _); try tauto.
      unfold seq2. rewrite H. reflexivity.
  - destruct (may_run (pc s) l && negb (own l)) eqn:Mr; [|discriminate]. apply andb_true_iff in Mr. destruct Mr as [_ Ow]. apply negb_true_iff in Ow.
    destruct (env_one nv g l s) as [[x e]|] eqn:En; [|discriminate].
    assert (H' : seq2 (x, e) settle = (s1, ev)) by congruence. clear H.
    assert (Gx : good x).
    { unfold seq2 in H'. destruct (settle x) as [y e2] eqn:T. injection H' as <- <-. exact (settle_le _ _ _ T Gd). }
    assert (Gs : good s) by exact (env_one_le _ _ _ _ _ En Gx).
    split; [exact Gs|]. destruct (env_one_Part True g l s x e I Fn Ow Gx En) as [A _].
    refine (Part_settle True _ s x s1 (Env g l) e ev A Gx (fun _ => Logic.I) _ H').
    intros h y [[-> ->]|Hy]; [now left|now apply cancelling_allowed].
  - destruct (pc s) eqn:Pc; try discriminate. injection H as H.
    assert (Gs : good s) by exact (each_le _ (forward_one_le nv t) _ _ _ _ H Gd). split; [exact Gs|].
    destruct (each_Frag nv (signalling (mem s) t) (forward_one nv t) (fun z => mem z = mem s) (forward_one_le nv t)
                (fun k s0 s2 ev0 => forward_one_Frag nv t (mem s) k s0 s2 ev0) _ _ _ _ I eq_refl Gd H) as [F _].
    assert (Pf : forall k, fk s1 k = fk s k).
    { intros k. exact (forward_fk _ _ _ _ _ _ H). }
    pose proof (Frag_Part True _ _ _ _ F) as A. constructor.
    + apply F.
    + intros X. destruct (Po Pc) as (k & Hk & Ak). exists k. rewrite (f_mem _ _ _ _ _ F), Pf. auto.
    + eapply sim_mono; [|apply F]. intros g x (k & mb & -> & M & Eg). do 3 right. exists k, t. auto.
    + left. apply F.
    + intros _. now apply (p_L _ _ _ _ _ A).
    + intros _ HL g V. rewrite (p_won _ _ _ _ _ A). cbn. now apply (p_acc _ _ _ _ _ A).
  - destruct (pc s) eqn:Pc; try discriminate. destruct (each (interrupt_fork nv) (all s) s) as [x e] eqn:Ea.
    assert (H' : seq2 (x, e) settle = (s1, ev)) by congruence. clear H.
    assert (Gx : good x).
    { unfold seq2 in H'. destruct (settle x) as [y e2] eqn:T. injection H' as <- <-. exact (settle_le _ _ _ T Gd). }
    split; [exact (each_le _ (interrupt_fork_le) _ _ _ _ Ea Gx)|].
    destruct (interrupt_forks_Part True (mem s) _ _ _ _ I eq_refl Gx Ea) as [A _].
    refine (Part_settle True _ s x s1 Interrupt e ev A Gx (fun _ => Logic.I) _ H').
    intros h y Hy. now apply cancelling_allowed.
Qed.

Lemma rstep_le (s : rstate) l (s1 : rstate) ev : rstep nv s l = Some (s1, ev) -> le s s1.
Proof.
  intros H Gd. unfold rstep in H. destruct (ub s) eqn:Ub; [discriminate|]. destruct l as [ms order| |g l|t|].
  - destruct (pc s); try discriminate. destruct ms as [|m0 ms]; [injection H as <- <-; exact Gd|].
    destruct (is_order (length (m0 :: ms)) order); [|discriminate]. injection H as <- <-. split; [apply Gd|exact Ub].
  - destruct (pc s) as [|last rest ran|]; try discriminate.
    assert (Cs : (exists k r, start_one nv k r s = (s1, ev)) \/ settle (set_pc Waiting s) = (s1, ev)).
    { destruct (stop last s); destruct rest as [|k r]; injection H as H; eauto. }
    destruct Cs as [(k & r & H')|H']; [|exact (settle_le _ _ _ H' Gd)]. exact (start_one_le _ _ _ _ _ H' Gd).
  - destruct (may_run (pc s) l && negb (own l)); [|discriminate]. destruct (env_one nv g l s) as [[x e]|] eqn:En; [|discriminate].
    assert (H' : seq2 (x, e) settle = (s1, ev)) by congruence. unfold seq2 in H'. destruct (settle x) as [y e2] eqn:T. injection H' as <- <-.
    exact (env_one_le _ _ _ _ _ En (settle_le _ _ _ T Gd)).
  - destruct (pc s); try discriminate. injection H as H. exact (each_le _ (forward_one_le nv t) _ _ _ _ H Gd).
  - destruct (pc s); try discriminate. destruct (each (interrupt_fork nv) (all s) s) as [x e] eqn:Ea.
    assert (H' : seq2 (x, e) settle = (s1, ev)) by congruence. unfold seq2 in H'. destruct (settle x) as [y e2] eqn:T. injection H' as <- <-.
    exact (each_le _ interrupt_fork_le _ _ _ _ Ea (settle_le _ _ _ T Gd)).
Qed.

(** *** Executions *)
Lemma rrun_ub (s : rstate) ls : ub s = true -> ls <> [] -> rrun nv s ls = None.
Proof. intros U N. destruct ls as [|l t]; [congruence|]. cbn. unfold rstep. now rewrite U. Qed.

(** What executions may do to a generator. *)
Definition history (ls : list rlabel) (ms : list member) (g : nat) (x : glabel) : Prop :=
  In (Env g x) ls \/ awaiting g x \/ interrupting g x \/
  exists k t, x = LSignal (fid k) t /\
    (In (Cancel t) ls \/ (exists mb, In mb ms /\ gen mb = g /\ lv mb = false) \/
     exists ms' o mb, In (Await ms' o) ls /\ In mb ms' /\ gen mb = g /\ lv mb = false).

Lemma rrun_le : forall ls (s s1 : rstate) tr, rrun nv s ls = Some (s1, tr) -> le s s1.
Proof.
  induction ls as [|l t IH]; intros s s1 tr H; cbn in H; [injection H as <- <-; now intros A|].
  destruct (rstep nv s l) as [[z f]|] eqn:S; [|discriminate]. destruct (rrun nv z t) as [[q f']|] eqn:R'; [|discriminate]. injection H as <- <-.
  intros Gd. exact (rstep_le _ _ _ _ S (IH _ _ _ R' Gd)).
Qed.

Lemma rrun_RStep : forall ls (s s1 : rstate) tr, W s -> Post s -> proper nv s ls -> good s1 -> rrun nv s ls = Some (s1, tr) ->
  W s1 /\ Post s1 /\ good s /\ sim (history ls (mem s)) s s1 tr /\
  (steady nv s ls -> L s -> L s1 /\ forall g, lvalue g (mem s) -> as_lvalue g ls -> pend g s ++ raced g tr = won g tr ++ pend g s1).
Proof.
  induction ls as [|l t IH]; intros s s1 tr I Po Pr Gd H; cbn in H.
  - injection H as <- <-. split; [exact I|]. split; [exact Po|]. split; [exact Gd|]. split; [now apply sim_refl|]. intros _ HL. split; [exact HL|].
    intros. apply app_nil_r.
  - destruct (rstep nv s l) as [[x e]|] eqn:S; [|discriminate]. destruct (rrun nv x t) as [[y e']|] eqn:R; [|discriminate]. injection H as <- <-.
    cbn in Pr. rewrite S in Pr. destruct Pr as [Fn Pr].
    assert (Gx : good x).
    { exact (rrun_le _ _ _ _ R Gd). }
    destruct (rstep_RStep l s x e I Po Fn Gx S) as [Gs A].
    destruct (IH x y e' (r_W _ _ _ _ A) (r_post _ _ _ _ A) Pr Gd R) as (Iy & Py & _ & Sm & Acc).
    split; [exact Iy|]. split; [exact Py|]. split; [exact Gs|]. split.
    + eapply sim_trans; [eapply sim_mono; [|apply A]|eapply sim_mono; [|exact Sm]].
      * intros g z [->|[Hz|[Hz|(k & u & -> & Hz)]]]; [left; now left|right; now left|right; right; now left|].
        do 3 right. exists k, u. split; [reflexivity|]. destruct Hz as [->|Hz]; [left; now left|right; now left].
      * intros g z [Hz|[Hz|[Hz|(k & u & -> & Hz)]]]; [left; now right|right; now left|right; right; now left|].
        do 3 right. exists k, u. split; [reflexivity|]. destruct Hz as [Hz|[(mb & Hm & Eg & V)|(ms' & o & mb & Hm & X)]].
        -- left. now right.
        -- right. destruct (r_mem _ _ _ _ A _ Hm) as [Hm'|(ms' & o & -> & Hm')]; [left; eauto|]. right. exists ms', o, mb. split; [now left|auto].
        -- right. right. exists ms', o, mb. split; [now right|exact X].
    + intros Sd HL. cbn in Sd. rewrite S in Sd. destruct Sd as [U Sd].
      assert (U' : unhurried s l) by exact U.
      destruct (Acc Sd (r_L _ _ _ _ A U' HL)) as [HLy Acc']. split; [exact HLy|]. intros g V Al.
      rewrite raced_app, won_app, app_assoc, (r_acc _ _ _ _ A U' HL g V), <- !app_assoc. f_equal. apply Acc'.
      * intros mb Hm Eg. destruct (r_mem _ _ _ _ A _ Hm) as [Hm'|(ms' & o & -> & Hm')]; [now apply V|]. exact (Al ms' o mb (or_introl eq_refl) Hm' Eg).
      * intros ms o mb Hm. apply (Al ms o mb). now right.
Qed.
End Run.
