(** Races over generators: what the parts of a step do. *)
From Coq Require Import List Bool Arith Lia.
From Verif Require Import Gen_Model Gen_Spec Gen_Inv Gen_Final Rgn_Model Rgn_Spec Rgn_Inv.
Import ListNotations.

Section Step.
Context {Y P E : Type}.
Notation gstate := (state Y P E).
Notation gevent := (event Y P E).
Notation glabel := (label Y P E).
Notation rstate := (rstate Y P E).
Notation rlabel := (rlabel Y P E).
Notation revent := (revent Y P E).
Notation result := (outcome Y E).
Notation member := (member P).
Variable nv : nat -> bool.
Notation W := (W nv).
Notation sim := (sim nv).

Definition le (s s1 : rstate) : Prop := good s1 -> good s.

Lemma on_le g l (s s1 : rstate) ev : on nv g l s = Some (s1, ev) -> le s s1.
Proof.
  intros H. destruct (on_gens _ _ _ _ _ _ H) as (x & _ & _ & _ & _ & _ & _ & _ & _ & _ & Eo & Eu). intros [A B].
  rewrite Eo in A. rewrite Eu in B. apply orb_false_iff in B. split; tauto.
Qed.
Lemma steal_le g (s s1 : rstate) ev : steal g s = (s1, ev) -> le s s1.
Proof.
  unfold steal. destruct (aw (gens s g)) as [w|].
  - destruct (resume w _) as [x e]. intros H. injection H as <- <-. intros [A _]. discriminate A.
  - intros H. injection H as <- <-. intros A. exact A.
Qed.
Lemma complete_le k r (s : rstate) : le s (complete k r s).
Proof. intros A. exact A. Qed.
Lemma interrupt_one_le m k (s s1 : rstate) ev : interrupt_one nv m s k = (s1, ev) -> le s s1.
Proof.
  unfold interrupt_one. destruct (nth_error (mem s) k) as [mb|]; [|intros H; injection H as <- <-; now intros A].
  destruct (lv mb && (is_active (fk s k) || (k =? m))); [|intros H; injection H as <- <-; now intros A].
  destruct (on nv (gen mb) (LInterrupt (fid k)) s) as [[x e]|] eqn:O.
  - intros H. injection H as <- <-. apply on_le in O. destruct (woken e) as [[j r]|]; exact O.
  - destruct (steal (gen mb) s) as [x e] eqn:S. intros H. injection H as <- <-. apply steal_le in S. destruct (woken e) as [[j r]|]; exact S.
Qed.
Lemma emit_one_le k (s s1 : rstate) ev : emit_one nv s k = (s1, ev) -> le s s1.
Proof.
  unfold emit_one. destruct (nth_error (mem s) k) as [mb|]; [|intros H; injection H as <- <-; now intros A].
  destruct (armed s k); [|intros H; injection H as <- <-; now intros A].
  destruct (on nv (gen mb) (LSignal (fid k) ct) (set_armed k false s)) as [[x e]|] eqn:O.
  - intros H. injection H as <- <-. apply on_le in O. exact O.
  - intros H. injection H as <- <-. now intros A.
Qed.
Lemma forward_one_le t k (s s1 : rstate) ev : forward_one nv t s k = (s1, ev) -> le s s1.
Proof.
  unfold forward_one. destruct (nth_error (mem s) k) as [mb|]; [|intros H; injection H as <- <-; now intros A].
  destruct (armed s k); [|intros H; injection H as <- <-; now intros A].
  destruct (on nv (gen mb) (LSignal (fid k) t) s) as [[x e]|] eqn:O.
  - intros H. injection H as <- <-. apply on_le in O. exact O.
  - intros H. injection H as <- <-. now intros A.
Qed.
Lemma each_le f : (forall k (s s1 : rstate) ev, f s k = (s1, ev) -> le s s1) ->
  forall ks (s s1 : rstate) ev, each f ks s = (s1, ev) -> le s s1.
Proof.
  intros F. induction ks as [|k t IH]; intros s s1 ev H; cbn in H.
  - injection H as <- <-. now intros A.
  - destruct (f s k) as [x e] eqn:Fk. destruct (each f t x) as [y e'] eqn:Et. injection H as <- <-.
    intros A. eapply F; [exact Fk|]. eapply IH; eauto.
Qed.
Lemma cancel_all_le m (s s1 : rstate) ev : cancel_all nv m s = (s1, ev) -> le s s1.
Proof.
  unfold cancel_all, seq2. destruct (each (interrupt_one nv m) (all s) s) as [x e] eqn:A. destruct (each (emit_one nv) (all s) x) as [y e'] eqn:B.
  intros H. injection H as <- <-. intros G. eapply each_le; [apply interrupt_one_le|exact A|]. eapply each_le; [apply emit_one_le|exact B|exact G].
Qed.

(** *** Parts that change nothing but the forks and the generators *)
Record Frag (Q : nat -> glabel -> Prop) (s s1 : rstate) (ev : list revent) : Prop := {
  f_W : W s1;
  f_sim : sim Q s s1 ev;
  f_mem : mem s1 = mem s;
  f_pc : pc s1 = pc s;
  f_idx : idx s1 = idx s;
  f_out : out s1 = out s;
  f_fk : forall k, fk s1 k = fk s k \/ fk s k = Active /\ fk s1 k = Finished;
  f_raced : forall g, raced g ev = [];
  f_won : forall g, won g ev = [] }.

Lemma Frag_refl Q s : W s -> Frag Q s s [].
Proof. intros I. constructor; auto. now apply sim_refl. Qed.
Lemma Frag_trans Q s s1 s2 e1 e2 : Frag Q s s1 e1 -> Frag Q s1 s2 e2 -> Frag Q s s2 (e1 ++ e2).
Proof.
  intros A B. constructor.
  - apply B.
  - eapply sim_trans; [apply A|apply B].
  - rewrite (f_mem _ _ _ _ B). apply A.
  - rewrite (f_pc _ _ _ _ B). apply A.
  - rewrite (f_idx _ _ _ _ B). apply A.
  - rewrite (f_out _ _ _ _ B). apply A.
  - intros k. destruct (f_fk _ _ _ _ A k) as [H|[H1 H2]], (f_fk _ _ _ _ B k) as [K|[K1 K2]]; rewrite ?K; auto; try congruence.
    + right. split; congruence.
  - intros g. now rewrite raced_app, (f_raced _ _ _ _ A), (f_raced _ _ _ _ B).
  - intros g. now rewrite won_app, (f_won _ _ _ _ A), (f_won _ _ _ _ B).
Qed.
Lemma Frag_mono (Q R : nat -> glabel -> Prop) s s1 ev : (forall g l, Q g l -> R g l) -> Frag Q s s1 ev -> Frag R s s1 ev.
Proof. intros H A. destruct A. constructor; auto. eapply sim_mono; eauto. Qed.
Lemma Frag_active Q s s1 ev k : Frag Q s s1 ev -> fk s1 k = Active -> fk s k = Active.
Proof. intros A H. destruct (f_fk _ _ _ _ A k) as [K|[K1 K2]]; congruence. Qed.

Lemma each_Frag Q f (C : rstate -> Prop) :
  (forall k (s s1 : rstate) ev, f s k = (s1, ev) -> le s s1) ->
  (forall k (s s1 : rstate) ev, W s -> C s -> good s1 -> f s k = (s1, ev) -> Frag Q s s1 ev /\ C s1) ->
  forall ks (s s1 : rstate) ev, W s -> C s -> good s1 -> each f ks s = (s1, ev) -> Frag Q s s1 ev /\ C s1.
Proof.
  intros L F. induction ks as [|k t IH]; intros s s1 ev I HC G H; cbn in H.
  - injection H as <- <-. split; [now apply Frag_refl|exact HC].
  - destruct (f s k) as [x e] eqn:Fk. destruct (each f t x) as [y e'] eqn:Et. injection H as <- <-.
    assert (Gx : good x) by (eapply each_le; eauto).
    destruct (F _ _ _ _ I HC Gx Fk) as [A HC']. destruct (IH _ _ _ (f_W _ _ _ _ A) HC' G Et) as [B HC'']. split; [eapply Frag_trans; eauto|exact HC''].
Qed.

Definition interrupting (g : nat) (l : glabel) : Prop := exists k, l = LInterrupt (fid k).
Definition signalling (ms : list member) (t : nat) (g : nat) (l : glabel) : Prop :=
  exists k mb, l = LSignal (fid k) t /\ nth_error ms k = Some mb /\ gen mb = g.
(** What cancel_all does to the generators. *)
Definition cancelling (ms : list member) (g : nat) (l : glabel) : Prop :=
  interrupting g l \/ exists k mb, l = LSignal (fid k) ct /\ nth_error ms k = Some mb /\ gen mb = g /\ lv mb = false.

(** An await of a fork that is interrupted. *)
Lemma interrupted k mb (s s1 : rstate) ev : W s -> nth_error (mem s) k = Some mb -> good s1 ->
  on nv (gen mb) (LInterrupt (fid k)) s = Some (s1, ev) ->
  fk s k = Active /\ ev = [EInterrupt (fid k); EResult (fid k) (RExc XDetached)] /\
  W (complete k (RExc XDetached) s1) /\ sim interrupting s s1 (map (G (gen mb)) ev).
Proof.
  intros I M G O. destruct (on_gens _ _ _ _ _ _ O) as (x & S & Hx & Hn & Ep & Em & Ei & Eo & Ef & Ea & _).
  destruct (interrupt_cases _ _ _ _ _ S) as (tp & Ws & -> & Hw).
  destruct (w_susp _ _ I _ _ _ Ws) as [A _]. split; [exact A|]. split; [reflexivity|].
  pose proof (step_INV _ _ _ _ _ (w_gen _ _ I (gen mb)) (eq_refl : ok _ (LInterrupt (fid k)) = true) S) as [Ix _].
  split.
  - apply (W_complete nv k _ mb s); auto; try (rewrite ?Hx, ?Ef, ?Ea; auto).
    + intros j N. rewrite Hw, upd_ne; [reflexivity|]. intros H. apply fid_inj in H. contradiction.
    + intros tp'. rewrite Hw, upd_eq. discriminate.
  - refine (on_sim _ _ _ (LInterrupt (fid k)) _ _ _ eq_refl _ O). exists k. reflexivity.
Qed.
(** Nobody else is resumed. *)
Lemma not_stolen k mb (s s1 : rstate) ev : W s -> nth_error (mem s) k = Some mb -> good s1 -> 
  on nv (gen mb) (LInterrupt (fid k)) s = None -> steal (gen mb) s = (s1, ev) -> s1 = s /\ ev = [] /\ fk s k <> Active.
Proof.
  intros I M [G _] O S. unfold steal in S. destruct (aw (gens s (gen mb))) as [w|] eqn:A.
  - destruct (resume w _) as [x e]. injection S as <- <-. discriminate G.
  - injection S as <- <-. repeat split. intros F. destruct (w_act _ _ I _ F) as (mb' & tp & M' & Ws).
    assert (mb' = mb) by congruence. subst mb'. apply (i_ws _ _ (w_gen _ _ I (gen mb))) in Ws. congruence.
Qed.

Lemma interrupt_one_Frag m k (s s1 : rstate) ev : W s -> idx s <> None -> good s1 -> interrupt_one nv m s k = (s1, ev) ->
  Frag interrupting s s1 ev /\ (forall mb, nth_error (mem s) k = Some mb -> lv mb = true -> fk s1 k <> Active).
Proof.
  intros I D G H. unfold interrupt_one in H. destruct (nth_error (mem s) k) as [mb|] eqn:M.
  2:{ injection H as <- <-. split; [now apply Frag_refl|discriminate]. }
  destruct (lv mb && (is_active (fk s k) || (k =? m))) eqn:C.
  2:{ injection H as <- <-. split; [now apply Frag_refl|]. intros mb' X V. injection X as <-. rewrite V in C. cbn in C.
      apply orb_false_iff in C. destruct (fk s k); [discriminate|discriminate (proj1 C)|discriminate]. }
  destruct (on nv (gen mb) (LInterrupt (fid k)) s) as [[x e]|] eqn:O.
  - assert (Gx : good x) by (destruct (woken e) as [[j r]|]; injection H as <- <-; exact G).
    destruct (interrupted _ _ _ _ _ I M Gx O) as (A & -> & Ic & Sm). rewrite woken_results in H. cbn [results flat_map app filter] in H. cbn [fst] in H. rewrite fid_even, fid_div2 in H.
    injection H as <- <-. destruct (on_gens _ _ _ _ _ _ O) as (y & _ & _ & _ & Ep & Em & Ei & Eo & Ef & _ & _).
    destruct (idx s) as [i|] eqn:Ix; [|congruence]. destruct (w_idx _ _ I _ Ix) as (_ & Fi & _).
    assert (Ni : i <> k) by congruence.
    split; [constructor; try exact Ic|].
    + eapply sim_gens; [| |exact Sm]; reflexivity.
    + exact Em.
    + exact Ep.
    + cbn. now rewrite Ei, Ix.
    + cbn. rewrite Ei. apply Nat.eqb_neq in Ni. now rewrite Ni.
    + intros j. cbn. destruct (Nat.eq_dec j k) as [->|N]; [right; now rewrite upd_eq|left; rewrite upd_ne by exact N; now rewrite Ef].
    + intros g. unfold raced, at_gen. cbn. destruct (gen mb =? g); [|reflexivity]. cbn. now rewrite andb_false_r.
    + reflexivity.
    + intros mb' _ _. cbn. now rewrite upd_eq.
  - destruct (steal (gen mb) s) as [x e] eqn:S.
    assert (Gx : good x) by (destruct (woken e) as [[j r]|]; injection H as <- <-; exact G).
    destruct (not_stolen _ _ _ _ _ I M Gx O S) as (-> & -> & NA). cbn in H. injection H as <- <-.
    split; [now apply Frag_refl|]. auto.
Qed.

Lemma interrupt_all m : forall ks (s s1 : rstate) ev, W s -> idx s <> None -> good s1 -> each (interrupt_one nv m) ks s = (s1, ev) ->
  Frag interrupting s s1 ev /\ (forall k mb, In k ks -> nth_error (mem s) k = Some mb -> lv mb = true -> fk s1 k <> Active).
Proof.
  induction ks as [|k t IH]; intros s s1 ev I D G H; cbn in H.
  - injection H as <- <-. split; [now apply Frag_refl|intros k mb []].
  - destruct (interrupt_one nv m s k) as [x e] eqn:Fk. destruct (each (interrupt_one nv m) t x) as [y e'] eqn:Et. injection H as <- <-.
    assert (Gx : good x) by (eapply each_le; [apply interrupt_one_le|exact Et|exact G]).
    destruct (interrupt_one_Frag _ _ _ _ _ I D Gx Fk) as [A HA].
    assert (Dx : idx x <> None) by now rewrite (f_idx _ _ _ _ A).
    destruct (IH _ _ _ (f_W _ _ _ _ A) Dx G Et) as [B HB]. split; [eapply Frag_trans; eauto|].
    intros j mb [<-|Hj] Mj V.
    + intros X. apply (HA mb Mj V). exact (Frag_active _ _ _ _ _ B X).
    + apply (HB j mb Hj); [|exact V]. now rewrite (f_mem _ _ _ _ A).
Qed.

(** A signal does not change a generator. *)
Lemma signal_Frag (Q : nat -> glabel -> Prop) t k mb (s x : rstate) e : W s -> nth_error (mem s) k = Some mb ->
  Q (gen mb) (LSignal (fid k) t) ->
  on nv (gen mb) (LSignal (fid k) t) s = Some (x, e) -> Frag Q s x (map (G (gen mb)) e).
Proof.
  intros I M HQ O. destruct (on_gens _ _ _ _ _ _ O) as (y & S & Hy & Hn & Ep & Em & Ei & Eo & Ef & Ea & _).
  destruct (signal_cases _ _ _ _ _ _ S) as (-> & Rs & Rj).
  constructor.
  - apply (W_keep nv (gen mb) s); auto.
    + rewrite Hy. apply (w_gen _ _ I).
    + intros j tp X. exists tp. now rewrite Hy.
    + intros j tp X. exists tp. now rewrite <- Hy.
    + intros j. now rewrite Ea.
  - exact (on_sim _ _ _ (LSignal (fid k) t) _ _ _ eq_refl HQ O).
  - exact Em.
  - exact Ep.
  - exact Ei.
  - exact Eo.
  - intros j. left. now rewrite Ef.
  - intros g. rewrite raced_map, Rs. now destruct (gen mb =? g).
  - intros g. apply won_map.
Qed.

Lemma W_disarm k (s : rstate) : W s -> W (set_armed k false s).
Proof.
  intros I. apply (W_keep nv 0 s); auto.
  - apply (w_gen _ _ I).
  - cbn. eauto.
  - cbn. eauto.
  - intros j. cbn. destruct (Nat.eq_dec j k) as [->|N]; [rewrite upd_eq; discriminate|now rewrite upd_ne].
Qed.

Lemma emit_one_Frag (ms : list member) k (s s1 : rstate) ev : W s ->
  (mem s = ms /\ forall j mb, fk s j = Active -> nth_error ms j = Some mb -> lv mb = false) ->
  good s1 -> emit_one nv s k = (s1, ev) ->
  Frag (cancelling ms) s s1 ev /\ (mem s1 = ms /\ forall j mb, fk s1 j = Active -> nth_error ms j = Some mb -> lv mb = false).
Proof.
  intros I [Em HL] G H. cut (Frag (cancelling ms) s s1 ev).
  { intros F. split; [exact F|]. rewrite (f_mem _ _ _ _ F). split; [exact Em|]. intros j mb A. apply HL. exact (Frag_active _ _ _ _ _ F A). }
  unfold emit_one in H. destruct (nth_error (mem s) k) as [mb|] eqn:M; [|injection H as <- <-; now apply Frag_refl].
  destruct (armed s k) eqn:Ar; [|injection H as <- <-; now apply Frag_refl].
  assert (I0 : W (set_armed k false s)) by now apply W_disarm.
  assert (F0 : Frag (cancelling ms) s (set_armed k false s) []).
  { constructor; auto. now apply sim_refl. }
  destruct (on nv (gen mb) (LSignal (fid k) ct) (set_armed k false s)) as [[x e]|] eqn:O; injection H as <- <-; [|exact F0].
  refine (Frag_trans _ _ _ _ _ _ F0 _).
  eapply signal_Frag; [exact I0|exact M| |exact O]. right. exists k, mb. subst ms. repeat split; auto.
  eapply HL; [|exact M]. now apply (w_armed _ _ I).
Qed.

Lemma forward_one_Frag t (ms : list member) k (s s1 : rstate) ev : W s -> mem s = ms -> good s1 -> forward_one nv t s k = (s1, ev) ->
  Frag (signalling ms t) s s1 ev /\ mem s1 = ms.
Proof.
  intros I Em G H. cut (Frag (signalling ms t) s s1 ev).
  { intros F. split; [exact F|]. now rewrite (f_mem _ _ _ _ F). }
  unfold forward_one in H. destruct (nth_error (mem s) k) as [mb|] eqn:M; [|injection H as <- <-; now apply Frag_refl].
  destruct (armed s k) eqn:Ar; [|injection H as <- <-; now apply Frag_refl].
  destruct (on nv (gen mb) (LSignal (fid k) t) s) as [[x e]|] eqn:O; injection H as <- <-; [|now apply Frag_refl].
  eapply signal_Frag; [exact I|exact M| |exact O]. exists k, mb. subst ms. auto.
Qed.

(** While the race is decided, lvalue members are not waited for. *)
Definition L (s : rstate) : Prop := idx s <> None -> forall k mb, fk s k = Active -> nth_error (mem s) k = Some mb -> lv mb = false.

Lemma cancel_all_Frag m (s s1 : rstate) ev : W s -> idx s <> None -> good s1 -> cancel_all nv m s = (s1, ev) ->
  Frag (cancelling (mem s)) s s1 ev /\ L s1.
Proof.
  intros I D G H. unfold cancel_all, seq2 in H.
  destruct (each (interrupt_one nv m) (all s) s) as [x e] eqn:A. destruct (each (emit_one nv) (all s) x) as [y e'] eqn:B. injection H as <- <-.
  assert (Gx : good x) by (eapply each_le; [apply emit_one_le|exact B|exact G]).
  destruct (interrupt_all _ _ _ _ _ I D Gx A) as [FA HA].
  assert (C : mem x = mem s /\ forall j mb, fk x j = Active -> nth_error (mem s) j = Some mb -> lv mb = false).
  { split; [apply (f_mem _ _ _ _ FA)|]. intros j mb X Mj. destruct (lv mb) eqn:V; [|reflexivity]. exfalso. eapply HA; eauto.
    apply in_seq. assert (j < length (mem s)) by (apply nth_error_Some; congruence). lia. }
  destruct (each_Frag (cancelling (mem s)) (emit_one nv) (fun z => mem z = mem s /\ forall j mb, fk z j = Active -> nth_error (mem s) j = Some mb -> lv mb = false)
             emit_one_le (fun k s0 s2 ev0 => emit_one_Frag (mem s) k s0 s2 ev0) _ _ _ _ (f_W _ _ _ _ FA) C G B) as [FB [Em HB]].
  split; [eapply Frag_trans; [eapply Frag_mono; [|exact FA]|exact FB]; intros g l Hl; now left|].
  intros _ k mb Ak Mk. rewrite Em in Mk. eauto.
Qed.

(** A fork ends. *)
Lemma finish_spec k r (s s1 : rstate) ev : W (complete k r s) -> good s1 -> finish nv k r s = (s1, ev) ->
  good s /\ Frag (cancelling (mem s)) (complete k r s) s1 ev /\ L s1.
Proof.
  intros I G H. unfold finish in H. split; [exact (cancel_all_le _ _ _ _ H G)|].
  exact (cancel_all_Frag _ _ _ _ I ltac:(discriminate) G H).
Qed.
End Step.
