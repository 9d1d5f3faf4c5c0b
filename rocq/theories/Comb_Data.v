(** What the stored results of a combinator are, in terms of the trace. *)
From Coq Require Import List Bool Arith Lia Permutation.
From Verif Require Import Comb_Model Comb_Spec Comb_Core Comb_Trace.
Import ListNotations.

Section Data.
Context {V E : Type}.
Notation state := (state V E).
Notation label := (label V E).
Notation event := (event V E).
Implicit Types (s : state).

Lemma lookup_none {A} (l : list (nat * A)) i : lookup l i = None <-> ~ In i (map fst l).
Proof.
  induction l as [|[j x] l IH]; cbn; [tauto|]. destruct (Nat.eqb_spec j i).
  - split; [discriminate|tauto].
  - rewrite IH. tauto.
Qed.
Lemma lookup_in {A} (l : list (nat * A)) i x : lookup l i = Some x -> In (i, x) l.
Proof.
  induction l as [|[j y] l IH]; cbn; [discriminate|]. destruct (Nat.eqb_spec j i); [intros [= ->]; subst; auto|auto].
Qed.
Lemma in_lookup {A} (l : list (nat * A)) i x : NoDup (map fst l) -> In (i, x) l -> lookup l i = Some x.
Proof.
  induction l as [|[j y] l IH]; cbn; intros N; [tauto|]. inversion N; subst.
  intros [[= -> ->]|H]; [now rewrite Nat.eqb_refl|].
  destruct (Nat.eqb_spec j i); [subst; elim H2; now apply (in_map fst) in H|auto].
Qed.

(** The outcome a child had when it decided the race by finishing. *)
Fixpoint decider (tr : list event) : option (nat * option (comp V E)) :=
  match tr with
  | [] => None
  | EDone i x :: _ => Some (i, Some x)
  | ETxBegin i :: _ => Some (i, None)
  | _ :: t => decider t
  end.
Lemma decider_by tr : decided_by tr = option_map fst (decider tr).
Proof. induction tr as [|[] tr IH]; cbn; auto. Qed.
Lemma decider_app a b : decider (a ++ b) = match decider a with Some i => Some i | None => decider b end.
Proof. induction a as [|[] a IH]; cbn; rewrite ?IH; auto. Qed.
Lemma inert_decider (ev : list event) : inert ev = true -> decider ev = None.
Proof. induction ev as [|[] ev IH]; cbn; auto; discriminate. Qed.

Definition gather_data s (tr : list event) : Prop :=
  forall i, slot s i = option_map as_result (outcome_of tr i).
Definition join_data s (tr : list event) : Prop :=
  err s = first_error (finished tr) /\
  forall i v, outcome_of tr i = Some (CVal v) -> slot s i = Some (inl v).

(** Race: who decided, and what is stored. *)
Definition value_of (w : nat) (o : option (comp V E)) : option (nat * V) :=
  match o with Some (CVal v) => Some (w, v) | _ => None end.
Definition err_of (o : option (comp V E)) : option E :=
  match o with Some x => error_of x | None => None end.
(** Error stored for decider [w]: a void child that decided through a
    transaction stores only exceptions that escape as_result. *)
Definition race_err c w (d o : option (comp V E)) : option E :=
  if void c w then
    match d with
    | Some x => error_of x
    | None => match o with Some (CThrow e) => Some e | _ => None end
    end
  else err_of o.

Definition race_idx c s (tr : list event) : Prop :=
  idx s = decided_by tr /\
  forall w, decided_by tr = Some w -> In w (ord c) /\ (running s w = true \/ cls (ph s w) = 2).
Definition race_data c s (tr : list event) : Prop :=
  match decider tr with
  | None => win s = None /\ err s = None
  | Some (w, d) =>
      err s = race_err c w d (outcome_of tr w) /\
      (only_index c = false -> win s = value_of w (outcome_of tr w)) /\
      (d = None \/ d = outcome_of tr w)
  end.

Definition DI c s tr : Prop :=
  match knd c with
  | Gather => gather_data s tr
  | Join => join_data s tr
  | Race => race_idx c s tr
  end.

Lemma DI_same c s s' tr ev : data s' = data s -> finished ev = [] -> decided_by ev = None ->
  (forall i, cls (ph s' i) = 2 <-> cls (ph s i) = 2) ->
  (forall i, running s i = true -> running s' i = true) ->
  DI c s tr -> DI c s' (tr ++ ev).
Proof.
  unfold data. intros H F D P1 P2 I. injection H as H1 H2 H3 H4. unfold DI in *.
  assert (O : forall i, outcome_of (tr ++ ev) i = outcome_of tr i)
    by (intros; unfold outcome_of; now rewrite finished_app, F, app_nil_r).
  destruct (knd c).
  - intros i. rewrite H3, O. apply I.
  - unfold join_data in *. rewrite H4, H3, finished_app, F, app_nil_r. split; [apply I|].
    intros i v. rewrite O. apply I.
  - unfold race_idx in *. rewrite H1, decided_app, D. destruct (decided_by tr) eqn:Ed; (split; [apply I|]); [|discriminate].
    intros w Hw. destruct I as [_ I]. destruct (I w Hw) as [? [?|?]]; split; auto. right. now apply P1.
Qed.
Lemma decider_none (tr : list event) : decided_by tr = None <-> decider tr = None.
Proof. rewrite decider_by. destruct (decider tr); cbn; split; auto; discriminate. Qed.
Lemma RD_same c s s' tr ev : data s' = data s -> finished ev = [] -> decided_by ev = None ->
  race_data c s tr -> race_data c s' (tr ++ ev).
Proof.
  unfold data. intros H F D I. injection H as H1 H2 H3 H4. unfold race_data in *.
  assert (O : forall i, outcome_of (tr ++ ev) i = outcome_of tr i)
    by (intros; unfold outcome_of; now rewrite finished_app, F, app_nil_r).
  rewrite decider_app, (proj1 (decider_none ev) D), H2, H4.
  destruct (decider tr) as [[w d]|]; auto. now rewrite O.
Qed.

Lemma undecided_fin (tr : list event) : decided_by tr = None -> finished tr = [] /\ transactions tr = [].
Proof. induction tr as [|[] tr IH]; cbn; try discriminate; auto. Qed.

Lemma same_true o i : same o i = true <-> o = Some i.
Proof.
  unfold same. destruct o as [j|]; [|split; discriminate].
  rewrite Nat.eqb_eq. split; [now intros ->|now intros [=]].
Qed.

Lemma race_finish c i rd x s :
  knd c = Race -> idx (finish c i rd x s) = (match idx s with None => Some i | o => o end).
Proof.
  intros K. unfold finish. rewrite K. destruct x; unfold race_result, race_throw; cbn [idx set_ph];
    destruct (idx s) as [j|] eqn:Ei; cbn [idx set_ph set_idx];
    repeat match goal with |- context [if ?b then _ else _] => destruct b end; cbn; auto.
Qed.
(** A child that is not the decider changes nothing, except a ready void child
    of a range. *)
Lemma race_finish_other c i rd x s j :
  knd c = Race -> idx s = Some j -> j <> i -> ranged c && void c i && rd = false ->
  win (finish c i rd x s) = win s /\ err (finish c i rd x s) = err s.
Proof.
  intros K Hi Hj Hv. unfold finish. rewrite K.
  assert (Hs : same (Some j) i = false) by (cbn; now apply Nat.eqb_neq).
  destruct x; unfold race_result, race_throw; cbn [idx set_ph]; rewrite Hi;
    cbn [idx set_ph set_idx]; rewrite Hi, Hs, ?andb_false_r;
    destruct (void c i); destruct rd; destruct (ranged c); try discriminate Hv; cbn; auto.
Qed.
Lemma race_finish_mine c i rd x s :
  knd c = Race -> (idx s = None \/ idx s = Some i) -> In i (ord c) -> wf c ->
  (only_index c = false -> win (finish c i rd x s) = match x with CVal v => Some (i, v) | _ => win s end) /\
  err (finish c i rd x s) = match x with
    | CVal _ => err s
    | CErr e => if void c i && negb rd && match idx s with None => false | _ => true end then err s else Some e
    | CThrow e => Some e end.
Proof.
  intros K Hi Ho W.
  assert (Hlt : forall j, In j (ord c) -> j < size c).
  { intros j Hj. apply (Permutation_in _ (wf_perm c W)) in Hj. apply in_seq in Hj. lia. }
  assert (Hv : only_index c = false -> void c i = true -> ranged c = false /\ all_void c = false).
  { unfold only_index. intros H1 H2. destruct (ranged c) eqn:R; auto.
    specialize (Hlt i Ho). rewrite (wf_void c W R 0 i) in H1 by lia. congruence. }
  unfold finish. rewrite K.
  assert (Hs : same (Some i) i = true) by now apply same_true.
  destruct x; unfold race_result, race_throw; cbn [idx set_ph];
    destruct Hi as [Hi|Hi]; rewrite Hi; cbn [idx set_ph set_idx]; rewrite ?Hi, Hs;
    destruct (void c i) eqn:Ev; destruct rd; cbn;
    (split; [intros HO; try (destruct (Hv HO eq_refl) as [Z1 Z2]; rewrite ?Z1, ?Z2); cbn; auto|auto]);
    destruct (ranged c); cbn; try destruct (all_void c); cbn; auto.
Qed.

Lemma live_ord c s tr i : TI c s tr -> ph s i <> Idle -> In i (ord c).
Proof.
  intros T H. rewrite (t_start _ _ _ T). apply in_or_app. left.
  destruct (in_dec Nat.eq_dec i (started tr)); auto. apply (t_idle _ _ _ T) in n. contradiction.
Qed.

Lemma step_DI c s tr l s' ev : wf c -> TI c s tr -> DI c s tr -> step c l s = Some (s', ev) -> DI c s' (tr ++ ev).
Proof.
  intros W T D H. pose proof (step_effect c s l s' ev W (t_core _ _ _ T) (t_lf _ _ _ T) H) as F.
  destruct F as [i rd x Hp -> Hd Hph Hf Ht|i Hr Hrun Hi -> Hd Hph Hf Ht|fr Hin -> Hf Hf' Hu Hd Hph Ht
                |i -> Hi Hph Ht Hd Hf|Hin Hcls Hrr Hd Hf Ht].
  - assert (Hni : outcome_of tr i = None).
    { apply lookup_none. intros Q. apply (t_fin _ _ _ T) in Q.
      destruct Hp as [[_ Hp]|[_ [Hp|Hp]]]; rewrite Hp in Q; discriminate. }
    assert (O : forall j, outcome_of (tr ++ [EDone i x]) j = if i =? j then Some x else outcome_of tr j).
    { intros j. unfold outcome_of in *. rewrite finished_app, lookup_app. cbn.
      destruct (Nat.eqb_spec i j); [subst; now rewrite Hni|]. now destruct (lookup (finished tr) j). }
    unfold after, data in Hd. injection Hd as H1 H2 H3 H4. unfold DI in *.
    destruct (knd c) eqn:K.
    + intros j. rewrite H3, O. unfold finish. rewrite K. cbn. unfold upd.
      rewrite (Nat.eqb_sym i j). destruct (Nat.eqb_spec j i); [reflexivity|]. apply D.
    + destruct D as [D1 D2]. split.
      * rewrite H4, finished_app, first_error_app, <- D1. unfold finish. rewrite K. unfold join_result.
        destruct x; cbn; destruct (err s) eqn:Ee; cbn; auto.
      * intros j v. rewrite O, H3. unfold finish. rewrite K. unfold join_result.
        destruct (Nat.eqb_spec i j).
        -- subst. intros [= ->]. cbn. now rewrite upd_same.
        -- intros Q. specialize (D2 j v Q). destruct x; cbn; [rewrite upd_other by auto; auto| |];
             destruct (err s); auto.
    + destruct D as (D1 & D2). unfold race_idx. rewrite H1, decided_app, race_finish, <- D1 by auto.
      cbn. split; [destruct (idx s); auto|]. rewrite D1 in *.
      assert (Hi : In i (ord c) /\ (running s' i = true \/ cls (ph s' i) = 2)).
      { split; [apply (live_ord c s tr i T)|right; rewrite Hph, upd_same; reflexivity].
        destruct Hp as [[_ Hp]|[_ [Hp|Hp]]]; rewrite Hp; discriminate. }
      destruct (decided_by tr) as [j|]; intros w [= <-]; auto.
      destruct (Nat.eq_dec j i); [now subst|]. unfold running. rewrite Hph, upd_other by auto. now apply D2.
  - unfold DI in *. unfold is_race in Hr. destruct (knd c) eqn:K; try discriminate.
    destruct D as (D1 & D2). unfold data in Hd. injection Hd as H1 H2 H3 H4.
    rewrite Hi in D1. symmetry in D1.
    unfold race_idx. rewrite H1, decided_app, D1. cbn. split; auto.
    intros w [= <-]. split; [apply (live_ord c s tr i T); unfold running in Hrun; destruct (ph s i); discriminate|].
    left. unfold running in *. now rewrite Hph.
  - apply DI_same with (s := s); auto; cbn; [now apply inert_finished|now apply inert_decided| |];
      intros j; unfold running; rewrite Hph; auto. tauto.
  - apply DI_same with (s := s); auto; intros j; unfold running; rewrite Hph; unfold upd;
      destruct (Nat.eqb_spec j i); subst; try tauto; rewrite Hi; [split|]; discriminate.
  - apply DI_same with (s := s); auto; [now apply inert_finished|now apply inert_decided|].
    intros j. rewrite Hcls. tauto.
Qed.

(** No ready void child of a range finishes in this step after the decision. *)
Definition fine_step c s (ev : list event) : Prop :=
  forall i x, ev = [EDone i x] -> ranged c = true -> void c i = true -> ph s i = Starting -> idx s = None.

Lemma step_RD c s tr l s' ev : wf c -> knd c = Race -> TI c s tr -> DI c s tr -> race_data c s tr ->
  step c l s = Some (s', ev) -> fine_step c s ev -> race_data c s' (tr ++ ev).
Proof.
  intros W K T D R H FS. pose proof (step_effect c s l s' ev W (t_core _ _ _ T) (t_lf _ _ _ T) H) as F.
  destruct F as [i rd x Hp -> Hd Hph Hf Ht|i Hr Hrun Hi -> Hd Hph Hf Ht|fr Hin -> Hf Hf' Hu Hd Hph Ht
                |i -> Hi Hph Ht Hd Hf|Hin Hcls Hrr Hd Hf Ht].
  - assert (Hni : outcome_of tr i = None).
    { apply lookup_none. intros Q. apply (t_fin _ _ _ T) in Q.
      destruct Hp as [[_ Hp]|[_ [Hp|Hp]]]; rewrite Hp in Q; discriminate. }
    assert (O : forall j, outcome_of (tr ++ [EDone i x]) j = if i =? j then Some x else outcome_of tr j).
    { intros j. unfold outcome_of in *. rewrite finished_app, lookup_app. cbn.
      destruct (Nat.eqb_spec i j); [subst; now rewrite Hni|]. now destruct (lookup (finished tr) j). }
    assert (Hord : In i (ord c)).
    { apply (live_ord c s tr i T). destruct Hp as [[_ Hp]|[_ [Hp|Hp]]]; rewrite Hp; discriminate. }
    unfold after, data in Hd. injection Hd as H1 H2 H3 H4. unfold DI in D. rewrite K in D.
    destruct D as [D1 D2]. rewrite decider_by in D1, D2. unfold race_data in *.
    rewrite decider_app, H2, H4. cbn [decider].
    destruct (decider tr) as [[w d]|] eqn:Ed; cbn in D1, D2.
    + rewrite O. destruct R as (R1 & R2 & R3). destruct (Nat.eqb_spec i w).
      * subst w. rewrite Hni in *.
        destruct (race_finish_mine c i rd x s K (or_intror D1) Hord W) as [Q1 ->].
        assert (Hd : d = None) by (destruct R3; auto). subst d. rewrite D1.
        assert (Hrd : void c i = true -> ranged c = true -> rd = false).
        { intros A1 A2. destruct Hp as [[-> Hp]|[-> _]]; auto.
          rewrite (FS i x eq_refl A2 A1 Hp) in D1. discriminate. }
        split; [|split; auto].
        -- unfold race_err in *. rewrite R1. destruct (void c i) eqn:Ev; destruct x; cbn; auto.
           destruct rd; auto. cbn. destruct Hp as [[_ Hp]|[Q _]]; [|discriminate].
           destruct (D2 i eq_refl) as [_ [D2'|D2']]; [unfold running in D2'|]; rewrite Hp in D2'; discriminate.
        -- intros HO. rewrite (Q1 HO), (R2 HO). destruct x; reflexivity.
      * destruct (race_finish_other c i rd x s w K D1) as [-> ->]; auto.
        destruct (ranged c) eqn:A1; auto. destruct (void c i) eqn:A2; auto. destruct rd; auto.
        destruct Hp as [[_ Hp]|[Q _]]; [|discriminate]. rewrite (FS i x eq_refl A1 A2 Hp) in D1. discriminate.
    + rewrite O, Nat.eqb_refl. destruct R as [R1 R2].
      destruct (race_finish_mine c i rd x s K (or_introl D1) Hord W) as [Q1 ->]. rewrite D1, R2.
      split; [|split; auto].
      * unfold race_err. destruct (void c i); destruct x; cbn; rewrite ?andb_false_r; auto.
      * intros HO. rewrite (Q1 HO), R1. destruct x; reflexivity.
  - unfold DI in D. rewrite K in D. destruct D as [D1 _]. rewrite decider_by, Hi in D1.
    unfold race_data in *. unfold data in Hd. injection Hd as H1 H2 H3 H4.
    rewrite decider_app. destruct (decider tr) as [[w d]|] eqn:Ed; [discriminate|]. cbn.
    apply decider_none in Ed. apply undecided_fin in Ed as [Ef _].
    unfold outcome_of. rewrite finished_app, Ef. cbn. destruct R as [R1 R2]. rewrite H2, H4, R1, R2.
    split; [|auto]. unfold race_err. now destruct (void c i).
  - apply RD_same with (s := s); auto; cbn; [now apply inert_finished|now apply inert_decided].
  - apply RD_same with (s := s); auto.
  - apply RD_same with (s := s); auto; [now apply inert_finished|now apply inert_decided].
Qed.

Lemma init_DI c : DI c (init c) [].
Proof.
  unfold DI. destruct (knd c); [intros i; reflexivity|split; [reflexivity|discriminate]|split; [reflexivity|discriminate]].
Qed.
Theorem run_DI c ls s tr : wf c -> run c (init c) ls = Some (s, tr) -> TI c s tr /\ DI c s tr.
Proof.
  intros W. apply (run_ind c (fun s tr => TI c s tr /\ DI c s tr)).
  - split; [now apply init_TI|apply init_DI].
  - intros s0 tr0 l s' ev [T D] H. split; [eapply step_TI; eauto|eapply step_DI; eauto].
Qed.

(** Every race that is not over a range of void awaitables. *)
Theorem run_RD c ls s tr : wf c -> knd c = Race -> (ranged c = true -> void c 0 = false) ->
  run c (init c) ls = Some (s, tr) -> TI c s tr /\ DI c s tr /\ race_data c s tr.
Proof.
  intros W K HV. apply (run_ind c (fun s tr => TI c s tr /\ DI c s tr /\ race_data c s tr)).
  - split; [now apply init_TI|]. split; [apply init_DI|]. cbn. auto.
  - intros s0 tr0 l s' ev (T & D & R) H. split; [eapply step_TI; eauto|]. split; [eapply step_DI; eauto|].
    eapply step_RD; eauto. intros i x -> Hr Hv Hp. exfalso.
    assert (Hi : In i (ord c)) by (apply (live_ord c s0 tr0 i T); rewrite Hp; discriminate).
    apply (Permutation_in _ (wf_perm c W)), in_seq in Hi.
    rewrite (wf_void c W Hr i 0) in Hv by lia. rewrite (HV Hr) in Hv. discriminate.
Qed.
End Data.
