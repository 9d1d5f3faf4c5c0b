(** When a destroyed combinator is accessed. *)
From Coq Require Import List Bool Arith Lia Permutation.
From Verif Require Import Comb_Model Comb_Spec Comb_Core Comb_Trace Comb_Data Comb_Calm Comb_Signal Comb_Sent Comb_Final Comb_Result.
Import ListNotations.

Section Tidy.
Context {V E : Type}.
Notation state := (state V E).
Notation label := (label V E).
Notation event := (event V E).
Implicit Types (s : state) (tr : list event).

Definition hasmain (l : list item) : Prop := exists k, In k l /\ main k = true.
Definition ob (l : list item) : Prop := forall a i b, l = a ++ KEnd i :: b -> b = [] \/ hasmain b.
Definition noend (l : list item) : Prop := forall i, ~ In (KEnd i) l.
Definition nores (l : list item) : Prop := ~ In KResume l.

Lemma ob_push ns l : noend ns -> ob l -> ob (ns ++ l).
Proof.
  induction ns as [|k ns IH]; cbn; auto. intros N O a i b H. destruct a as [|y a]; cbn in H; injection H as -> H.
  - elim (N i). now left.
  - eapply IH; eauto. intros j Hj. apply (N j). now right.
Qed.
Lemma ob_pop k l : ob (k :: l) -> ob l.
Proof. intros O a i b ->. apply (O (k :: a) i b). reflexivity. Qed.
Lemma ob_top i l : ob l -> (l = [] \/ hasmain l) -> ob (KEnd i :: l).
Proof.
  intros O H a j b Q. destruct a as [|y a]; cbn in Q; injection Q as Q0 Q; [now subst|]. eapply O; eauto.
Qed.
Lemma ob_nil : ob []. Proof. intros a i b H. destruct a; discriminate. Qed.

Lemma item_dec (a b : item) : {a = b} + {a <> b}.
Proof. decide equality; apply Nat.eq_dec. Defined.

Record OB s tr : Prop := {
  o_ob : ob (stk s);
  o_res : In KResume (stk s) -> stk s = [KResume];
  o_fin : fin s = true -> stk s = [];
  o_dang : ~ In (EDangling : event) tr }.

Definition ends (c : cfg) (i : nat) (rd : bool) (x : comp V E) : list item :=
  match knd c with
  | Gather => []
  | Join => if is_err x then cancel_all c else []
  | Race => match x with CThrow _ => [] | _ => cancel_all c ++ [KFin i] end
  end.
Lemma finish_stk c i rd x s : stk (finish c i rd x s) = ends c i rd x ++ KEnd i :: stk s /\ fin (finish c i rd x s) = fin s.
Proof.
  unfold finish, ends. destruct (knd c); [auto| |].
  - destruct x; unfold join_result; cbn; auto; destruct (err s); cbn; rewrite <- app_assoc; auto.
  - destruct x; unfold race_result, race_throw, store; cbn [idx set_ph].
    3:{ destruct (idx s); repeat match goal with |- context [if ?b then _ else _] => destruct b end; auto. }
    all: unfold push; cbn [stk set_stk fin]; rewrite <- !app_assoc; cbn;
      destruct (idx s); repeat match goal with |- context [if ?b then _ else _] => destruct b; cbn end; auto.
Qed.
Lemma ends_ok c i rd x k : In k (ends c i rd x) -> (forall j, k <> KEnd j) /\ k <> KResume.
Proof.
  assert (A : In k (cancel_all c) -> (forall j, k <> KEnd j) /\ k <> KResume).
  { intros H. apply in_cancel_all in H as (a & [[-> _]| ->]); split; try intros; discriminate. }
  unfold ends. destruct (knd c); [intros []| |].
  - destruct (is_err x); [exact A|intros []].
  - destruct x; try intros []; intros H; apply in_app_or in H as [H|[<-|[]]]; auto; split; try intros; discriminate.
Qed.

Ltac nd := intros QQ; repeat (destruct QQ as [QQ|QQ]; [discriminate|]); contradiction.
Ltac nq := intros q Hq; cbn in Hq; repeat (destruct Hq as [<-|Hq]; [exact Logic.I|]); contradiction.

(** Children complete only from the event loop, the combinator is not cancelled after it finished. *)
Lemma step_OB c s tr l s' ev : wf c -> TI c s tr -> OB s tr -> step c l s = Some (s', ev) ->
  (forall i x, l = LComplete i x -> at_rest s) -> (forall u, l = LCancel u -> fin s = false) -> OB s' (tr ++ ev).
Proof.
  intros W T [O1 O2 O3 O4] H Hl Hc. pose proof (t_core _ _ _ T) as C. unfold Core in C.
  assert (DG : ~ In (EDangling : event) ev -> ~ In (EDangling : event) (tr ++ ev)).
  { intros A Q. apply in_app_or in Q as []; auto. }
  assert (CA : forall k, In k (cancel_all c) -> (forall j, k <> KEnd j) /\ k <> KResume).
  { intros k Q. apply in_cancel_all in Q as (a & [[-> _]| ->]); split; try intros; discriminate. }
  destruct l; cbn in H.
  - destruct (stk s) as [|k t] eqn:Es; [discriminate|].
    assert (F : fin s = false) by (destruct (fin s); auto; specialize (O3 eq_refl); discriminate).
    assert (M : main k = true -> t = []) by (intros M; now apply (main_top _ _ _ _ _ _ _ _ _ _ M C)).
    assert (R : k = KResume \/ ~ In KResume (k :: t)).
    { destruct (in_dec item_dec KResume (k :: t)) as [Q|]; auto.
      left. specialize (O2 Q). congruence. }
    assert (Ot : ob t) by now apply ob_pop in O1.
    assert (GO : forall ns, stk s' = ns ++ t -> noend ns -> (~ In KResume ns \/ ns = [KResume] /\ t = []) -> fin s' = fin s ->
       ~ In (EDangling : event) ev -> ~ In KResume t -> OB s' (tr ++ ev)).
    { intros ns Q1 Q2 Q3 Q4 Q5 Q6. constructor; auto.
      - rewrite Q1. now apply ob_push.
      - rewrite Q1. intros Z. apply in_app_or in Z as [Z|Z]; [|contradiction].
        destruct Q3 as [Q3|[-> ->]]; [contradiction|reflexivity].
      - rewrite Q4, F. discriminate. }
    destruct R as [-> |R].
    { cbn in H. inj H. pose proof (O2 (or_introl eq_refl)) as Z. injection Z as ->.
      constructor; cbn; auto using ob_nil; [intros []|].
      apply DG. intros [Q|Q]; [discriminate|]. destruct (lastf s); [destruct Q as [Q|[]]; discriminate|destruct Q]. }
    assert (Rt : ~ In KResume t) by (intros Q; apply R; now right).
    assert (NE : forall (ns : list item), (forall q, In q ns -> match q with KEnd _ | KResume => False | _ => True end) -> noend ns /\ ~ In KResume ns).
    { intros ns A. split; [intros j Q|intros Q]; apply (A _ Q). }
    assert (GO2 : forall ns, stk s' = ns ++ t -> (forall q, In q ns -> match q with KEnd _ | KResume => False | _ => True end) -> fin s' = fin s ->
       ~ In (EDangling : event) ev -> OB s' (tr ++ ev)).
    { intros ns Q1 Q2 Q3 Q4. destruct (NE ns Q2). eapply (GO ns); eauto. }
    assert (GO3 : t = [] -> stk s' = [KResume] -> fin s' = fin s -> ~ In (EDangling : event) ev -> OB s' (tr ++ ev)).
    { intros -> Q2 Q3 Q4. eapply (GO [KResume]); eauto. intros j [Q|[]]; discriminate. }
    assert (MAIN : forall ns, main k = true -> stk s' = ns -> (forall q, In q ns -> match q with KEnd _ | KResume => False | _ => True end) -> fin s' = fin s ->
       ~ In (EDangling : event) ev -> OB s' (tr ++ ev)).
    { intros ns Q0 Q1 Q2 Q3 Q4. apply (GO2 ns); auto. now rewrite (M Q0), app_nil_r. }
    destruct k; cbn in H;
      try (rewrite F in H);
      unfold settle, emit, create in H;
      repeat match type of H with
      | context [match todo s with _ => _ end] => destruct (todo s)
      | context [match lastf s with _ => _ end] => destruct (lastf s)
      | context [match knd c with _ => _ end] => destruct (knd c)
      | context [match err s with _ => _ end] => destruct (err s)
      | context [if ?b then _ else _] => destruct b eqn:?
      end; try discriminate; try (injection H as <- <-);
      try (elim R; now left);
      try (apply GO3; [apply (M eq_refl)|cbn; rewrite (M eq_refl); reflexivity|reflexivity|nd]; fail);
      try (match goal with |- OB (push ?ns _) _ => apply (GO2 ns) | _ => apply (GO2 []) end; [reflexivity|nq|reflexivity|nd]; fail).
    + apply (GO2 (cancel_all c ++ [KArm2])); [reflexivity| |reflexivity|nd].
      intros q Hq. apply in_app_or in Hq as [Hq|[<-|[]]]; [|exact Logic.I]. destruct (CA q Hq) as [A B]. destruct q; auto. now elim (A i).
    + apply GO3; [|cbn|reflexivity|nd].
      * destruct (O1 [] i t eq_refl) as [|(q & Q1 & Q2)]; auto. exfalso.
        pose proof (c_tok _ _ _ _ _ _ _ _ _ C) as Z. rewrite !cnt_cons in Z. cbn in Z. pose proof (cnt_pos main _ _ Q1 Q2).
        cbn in *; lia.
      * destruct (O1 [] i t eq_refl) as [->|(q & Q1 & Q2)]; auto. exfalso.
        pose proof (c_tok _ _ _ _ _ _ _ _ _ C) as Z. rewrite !cnt_cons in Z. cbn in Z. pose proof (cnt_pos main _ _ Q1 Q2).
        cbn in *; lia.
  - destruct (stk s) as [|[] t] eqn:Es; try discriminate. injection H as H.
    assert (F : fin s = false) by (destruct (fin s); auto; specialize (O3 eq_refl); discriminate).
    assert (Rt : ~ In KResume t) by (intros Q; specialize (O2 (or_intror Q)); discriminate).
    assert (Hp : ph s i = Starting).
    { pose proof (c_beg _ _ _ _ _ _ _ _ _ C i) as H0. rewrite cnt_cons in H0. cbn in H0.
      rewrite Nat.eqb_refl in H0. destruct (ph s i); cbn in H0; auto; discriminate. }
    assert (Ht : hasmain t).
    { destruct (c_start _ _ _ _ _ _ _ _ _ C i Hp) as [[Q|Q]|[Q|Q]]; try discriminate; eexists; split; eauto. }
    apply ob_pop in O1.
    assert (FI : forall rd x, OB (finish c i rd x (set_stk t s)) (tr ++ [EDone i x])).
    { intros rd x. destruct (finish_stk c i rd x (set_stk t s)) as [Q1 Q2]. cbn in Q1, Q2. constructor.
      - rewrite Q1. apply ob_push; [|now apply ob_top; auto]. intros j Hj. now apply ends_ok in Hj as [Hj _]; elim (Hj j).
      - rewrite Q1. intros Z. apply in_app_or in Z as [Z|[Z|Z]]; [now apply ends_ok in Z as [_ Z]; elim Z|discriminate|contradiction].
      - rewrite Q2, F. discriminate.
      - intros Z. apply in_app_or in Z as [|[Z|[]]]; [contradiction|discriminate]. }
    destruct b as [x|e|]; cbn in H; [inj H; auto|inj H; auto|].
    destruct (knd c); cbn in H; destruct (wired s); inj H; (constructor; [|intros Z| |]); cbn; rewrite ?app_nil_r; auto; try (rewrite F; discriminate);
      try (apply (ob_push [KUser]); [intros j [|[]]; discriminate|auto]; fail); cbn in Z; try contradiction; destruct Z; try discriminate; contradiction.
  - destruct (user s && running s i) eqn:Eu; [|discriminate]. inj H. apply andb_prop in Eu as [_ Rn].
    assert (F : fin s = false).
    { destruct (fin s) eqn:F; auto. pose proof (fin_no_live c s W (t_core _ _ _ T) (or_introl F) i) as Z.
      unfold running in Rn. destruct (ph s i); cbn in Z; congruence. }
    specialize (Hl i x eq_refl). unfold at_rest in Hl.
    destruct (finish_stk c i false x s) as [Q1 Q2]. rewrite Hl in Q1. constructor.
    + rewrite Q1. apply ob_push; [intros j Hj; now apply ends_ok in Hj as [Hj _]; elim (Hj j)|apply ob_top; auto using ob_nil].
    + rewrite Q1. intros Z. apply in_app_or in Z as [Z|[Z|[]]]; [now apply ends_ok in Z as [_ Z]; elim Z|discriminate].
    + rewrite Q2, F. discriminate.
    + apply DG. nd.
  - destruct (user s) eqn:U; [|discriminate]. unfold transact in H.
    destruct (is_race c && running s i) eqn:Er; [|discriminate]. apply andb_prop in Er as [_ Rn].
    assert (F : fin s = false).
    { destruct (fin s) eqn:F; auto. pose proof (fin_no_live c s W (t_core _ _ _ T) (or_introl F) i) as Z.
      unfold running in Rn. destruct (ph s i); cbn in Z; congruence. }
    destruct (idx s); inj H.
    + constructor; auto. apply DG. nd.
    + constructor; cbn.
      * apply ob_push; auto. intros j Hj. apply in_app_or in Hj as [Hj|[Hj|[]]]; [|discriminate]. now apply CA in Hj as [Hj _]; elim (Hj j).
      * intros Z. exfalso. apply in_app_or in Z as [Z|Z].
        -- apply in_app_or in Z as [Z|[Z|[]]]; [|discriminate]. now apply CA in Z as [_ Z]; elim Z.
        -- specialize (O2 Z). unfold user in U. rewrite O2 in U. discriminate.
      * rewrite F. discriminate.
      * apply DG. nd.
  - destruct (user s && armed s) eqn:Eu; [|discriminate]. apply andb_prop in Eu as [U _].
    rewrite (Hc t eq_refl) in H. inj H. constructor; cbn.
    + apply ob_push; auto. intros j Hj. apply in_map_iff in Hj as (q & Hj & _). discriminate.
    + intros Z. exfalso. apply in_app_or in Z as [Z|Z]; [apply in_map_iff in Z as (q & Z & _); discriminate|].
      specialize (O2 Z). unfold user in U. rewrite O2 in U. discriminate.
    + rewrite (Hc t eq_refl). discriminate.
    + apply DG. nd.
  - destruct (user s && coro s) eqn:Eu; [|discriminate]. apply andb_prop in Eu as [U Co]. inj H.
    assert (F : fin s = false).
    { destruct (fin s) eqn:F; auto. pose proof (c_tok _ _ _ _ _ _ _ _ _ C) as Z. rewrite Co in Z. cbn in Z. lia. }
    constructor; cbn.
    + apply ob_push; auto. intros j Hj. apply in_map_iff in Hj as (q & Hj & _). destruct (is_race c); discriminate.
    + intros Z. exfalso. apply in_app_or in Z as [Z|Z]; [apply in_map_iff in Z as (q & Z & _); destruct (is_race c); discriminate|].
      specialize (O2 Z). unfold user in U. rewrite O2 in U. discriminate.
    + rewrite F. discriminate.
    + apply DG. nd.
Qed.

Lemma run_OB c ls : wf c -> forall s tr s' ev, ALL c s tr -> OB s tr -> run c s ls = Some (s', ev) -> orderly c s ls ->
  cancelled_in_time (tr ++ ev) -> OB s' (tr ++ ev).
Proof.
  intros W. induction ls as [|l ls IH]; cbn; intros s tr s' ev A O H Or Ct.
  - inj H. now rewrite app_nil_r.
  - destruct (step c l s) as [[s1 e1]|] eqn:Es; [|discriminate].
    destruct (run c s1 ls) as [[s2 e2]|] eqn:Er; [|discriminate]. inj H. destruct Or as [Or1 Or2].
    rewrite app_assoc in *. eapply IH; eauto; [eapply step_ALL; eauto|].
    eapply step_OB; eauto; [apply (a_ti _ _ _ A)|intros i x ->; auto|].
    intros u ->. cbn in Es. destruct (user s && armed s); [|discriminate].
    destruct (fin s) eqn:F; auto. exfalso. inj Es.
    specialize (Ct tr u (EDangling :: e2)). rewrite <- app_assoc in Ct. specialize (Ct eq_refl).
    rewrite (t_res _ _ _ (a_ti _ _ _ A)), F in Ct. discriminate.
Qed.

Theorem orderly_no_dangling c ls s tr : wf c -> run c (init c) ls = Some (s, tr) -> orderly c (init c) ls ->
  cancelled_in_time tr -> ~ dangling tr.
Proof.
  intros W H Or Ct. apply (o_dang s). apply (run_OB c ls W (init c) [] s tr); auto; [now apply init_ALL|].
  assert (NK : forall k, In k (stk (init (V := V) (E := E) c)) -> k = KRdy \/ exists i, k = KProbe i).
  { intros k. cbn. intros Q. apply in_app_or in Q as [Q|[Q|[]]]; auto.
    destruct (ranged c && negb (is_race c)); [|destruct Q]. apply in_map_iff in Q as (i & <- & _). eauto. }
  constructor; auto; try discriminate.
  - intros a i b Q. exfalso. destruct (NK (KEnd i)) as [|[]]; try discriminate. rewrite Q. apply in_or_app. right. now left.
  - intros Q. apply NK in Q as [|[]]; discriminate.
Qed.
End Tidy.
