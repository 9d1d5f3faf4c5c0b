(** Shape of the control stack; calm runs. *)
From Coq Require Import List Bool Arith Lia Permutation.
From Verif Require Import Comb_Model Comb_Spec Comb_Core Comb_Trace Comb_Data.
Import ListNotations.

Section Calm.
Context {V E : Type}.
Notation state := (state V E).
Notation label := (label V E).
Notation event := (event V E).
Implicit Types (s : state).

Definition isbegin (k : item) : bool := match k with KBeg _ => true | _ => false end.
(** Neither part of await_ready/await_suspend nor a fork waiting for await_ready. *)
Definition plain (k : item) : bool := negb (main k) && negb (isbegin k).
Definition nomain (l : list item) : Prop := forall k, In k l -> plain k = true.
(** Neither a cancellation by the combinator nor a commit. *)
Definition soft (l : list item) : Prop := forall k, In k l -> match k with KEmit _ | KTx _ => False | _ => True end.
Definition decides (ev : list event) : Prop := exists i, ev = [ETxBegin i] \/ exists x, ev = [EDone i x].

Lemma nomain_neutral l : forallb neutral l = true -> nomain l.
Proof. intros H k Hk. rewrite forallb_forall in H. specialize (H k Hk). now destruct k. Qed.
Lemma nomain_app l m : nomain l -> nomain m -> nomain (l ++ m).
Proof. intros A B k H. apply in_app_or in H as []; auto. Qed.
Lemma nomain_cons k l : plain k = true -> nomain l -> nomain (k :: l).
Proof. intros A B x [<-|]; auto. Qed.
Lemma nomain_nil : nomain []. Proof. intros k []. Qed.
Lemma nomain_main l k : nomain l -> In k l -> main k = false.
Proof. intros A B. specialize (A k B). unfold plain in A. destruct (main k); auto. Qed.
Lemma nomain_beg l i : nomain l -> ~ In (KBeg i) l.
Proof. intros A B. specialize (A _ B). discriminate. Qed.

(** How the main part of the stack moves. *)
Inductive move c s s' ev : Prop :=
| mv_push ns : user s = true -> stk s' = ns ++ stk s -> nomain ns -> (decides ev \/ soft ns) -> todo s' = todo s -> move c s s' ev
| mv_pop k t ns : stk s = k :: t -> main k = false -> stk s' = ns ++ t -> nomain ns -> (decides ev \/ soft ns) -> todo s' = todo s -> move c s s' ev
| mv_none k ns : stk s = [k] -> main k = true -> stk s' = ns -> nomain ns -> soft ns -> todo s' = todo s -> move c s s' ev
| mv_rdy i l : stk s = [KRdy] -> todo s = i :: l -> todo s' = l -> stk s' = [KUser; KBeg i; KRdyChk i] -> move c s s' ev
| mv_rdychk i : stk s = [KRdyChk i] -> todo s' = todo s -> gone s i = true -> is_race c = false -> stk s' = [KRdy] -> move c s s' ev
| mv_rdygo i : stk s = [KRdyChk i] -> todo s' = todo s -> gone s i = false -> stk s' = [KGo i] -> move c s s' ev
| mv_go i : stk s = [KGo i] -> todo s' = todo s -> stk s' = [KUser; KOut i] -> move c s s' ev
| mv_out i : stk s = [KOut i] -> todo s' = todo s -> (is_race c = true -> uc s <> 0) -> stk s' = [KStart] -> move c s s' ev
| mv_start i l : stk s = [KStart] -> todo s = i :: l -> todo s' = l -> stk s' = [KUser; KBeg i; KChk i] -> move c s s' ev
| mv_startarm : stk s = [KStart] -> todo s = [] -> todo s' = [] -> stk s' = [KArm] -> move c s s' ev
| mv_chk i : stk s = [KChk i] -> todo s' = todo s -> (is_race c = true -> gone s i = false) -> stk s' = [KStart] -> move c s s' ev
| mv_chkarm i : stk s = [KChk i] -> todo s' = todo s -> gone s i = true -> is_race c = true -> stk s' = [KArm] -> move c s s' ev
| mv_arm ns : stk s = [KArm] -> todo s' = todo s -> stk s' = ns ++ [KArm2] -> nomain ns -> (is_race c = true -> ns = []) -> move c s s' ev.

Ltac nm := try (right; intros ? QQ; cbn in QQ; repeat destruct QQ as [<-|QQ]; try contradiction; exact Logic.I);
  try (intros ? QQ; cbn in QQ; repeat destruct QQ as [<-|QQ]; try contradiction; exact Logic.I);
  try (repeat (apply nomain_cons; [reflexivity|]); apply nomain_nil).
Lemma dec_done i x : decides [EDone i x]. Proof. exists i. eauto. Qed.
Lemma dec_tx i : decides [ETxBegin i]. Proof. exists i. auto. Qed.


Lemma step_move c s l s' ev : wf c -> Core c s -> step c l s = Some (s', ev) -> move c s s' ev.
Proof.
  intros W C H. unfold Core in C. destruct l; cbn in H.
  - destruct (stk s) as [|k t] eqn:Es; [discriminate|].
    assert (M : main k = true -> t = []) by (intros M; now apply (main_top _ _ _ _ _ _ _ _ _ _ M C)).
    destruct k; try (rewrite (M eq_refl) in *; clear M); cbn in H.
    + inj H. eapply mv_pop with (ns := []); cbn; eauto; nm.
    + destruct (todo s) as [|i l] eqn:Et.
      * destruct (lastf s); inj H; eapply mv_none; cbn; eauto; nm.
      * inj H. eapply mv_rdy; unfold create; destruct (is_race c); cbn; eauto.
    + change (gone (set_stk [] s) i) with (gone s i) in H. destruct (gone s i) eqn:G.
      * destruct (knd c) eqn:K; inj H.
        -- eapply mv_rdychk; unfold is_race; try rewrite K; cbn; eauto.
        -- eapply mv_rdychk; unfold is_race; try rewrite K; cbn; eauto.
        -- eapply mv_none; cbn; eauto; nm.
      * inj H. eapply mv_rdygo; cbn; eauto.
    + inj H. eapply mv_go; cbn; eauto.
    + unfold settle in H. destruct (entering (set_stk [] s) i); cbn in H;
        (destruct (knd c) eqn:K; [| |destruct (uc s =? 0) eqn:U]; inj H;
         try (eapply mv_out; unfold is_race; try rewrite K; cbn; eauto; try discriminate;
              intros _; now apply Nat.eqb_neq); eapply mv_none; cbn; eauto; nm).
    + destruct (todo s) as [|i l] eqn:Et.
      * inj H. eapply mv_startarm; cbn; eauto.
      * inj H. eapply mv_start; unfold create; destruct (is_race c); cbn; eauto.
    + discriminate.
    + unfold settle in H. destruct (entering (set_stk [] s) i) eqn:En; cbn in H.
      * assert (G : gone (set_ph i Susp (set_stk [] s)) i = false /\ gone s i = false).
        { unfold gone, entering in *. cbn in *. rewrite upd_same. destruct (ph s i); auto; discriminate. }
        destruct G as [G1 G2]. rewrite G1 in H.
        destruct (knd c) eqn:K; inj H; eapply mv_chk; cbn; eauto.
      * change (gone (set_stk [] s) i) with (gone s i) in H.
        destruct (knd c) eqn:K; [| |destruct (gone s i) eqn:G]; inj H;
          first [solve [eapply mv_chk; unfold is_race; try rewrite K; cbn; eauto; discriminate]
                |eapply mv_chkarm; unfold is_race; try rewrite K; cbn; eauto].
    + destruct (knd c) eqn:K; try (destruct (err s)); inj H;
        try solve [eapply mv_arm with (ns := []); cbn; eauto; nm].
      eapply mv_arm with (ns := cancel_all c); cbn; rewrite ?app_nil_r; eauto.
      * apply nomain_neutral, cancel_all_neutral.
      * unfold is_race. rewrite K. discriminate.
    + destruct (uc s =? 0); inj H; eapply mv_none; cbn; eauto; nm.
    + inj H. eapply mv_pop with (ns := [KUser]); cbn; eauto; nm.
    + inj H. eapply mv_pop with (ns := []); cbn; eauto; nm.
    + destruct (fin s); [|destruct (work s i && intr c i)]; inj H;
        first [solve [eapply mv_pop with (ns := []); cbn; eauto; nm]|eapply mv_pop with (ns := [KUser]); cbn; eauto; nm].
    + destruct (fin s); [|destruct (intr c i && _)]; inj H;
        first [solve [eapply mv_pop with (ns := []); cbn; eauto; nm]|eapply mv_pop with (ns := [KUser]); cbn; eauto; nm].
    + destruct (fin s); [|destruct (canc s i)]; [|unfold emit in H; destruct (running _ i)|];
        inj H; first [solve [eapply mv_pop with (ns := []); cbn; eauto; nm]|eapply mv_pop with (ns := [KUser]); cbn; eauto; nm].
    + destruct (fin s); [|destruct (match knd c with Gather => true | _ => canc s i end)];
        [|unfold emit in H; destruct (running _ i)|]; inj H;
        first [solve [eapply mv_pop with (ns := []); cbn; eauto; nm]|eapply mv_pop with (ns := [KUser]); cbn; eauto; nm].
    + inj H; eapply mv_pop with (ns := []); cbn; eauto; nm.
    + inj H; eapply mv_pop with (ns := []); cbn; eauto; nm.
    + destruct (uc s =? 1); [destruct (coro s)|]; inj H;
        first [solve [eapply mv_pop with (ns := []); cbn; eauto; nm]|eapply mv_pop with (ns := [KResume]); cbn; eauto; nm].
  - destruct (stk s) as [|[] t] eqn:Es; try discriminate. injection H as H.
    destruct b as [x|e|]; cbn in H.
    + inj H. destruct (finish_shape c i true x (set_stk t s)) as (ns & N & Q1 & Q2 & _ & _ & _ & _ & _ & _ & Q).
      eapply mv_pop with (ns := ns ++ [KEnd i]); eauto; [rewrite Q; now rewrite <- app_assoc| |left; apply dec_done].
      apply nomain_app; [now apply nomain_neutral|nm].
    + inj H. destruct (finish_shape c i true (CThrow e) (set_stk t s)) as (ns & N & Q1 & Q2 & _ & _ & _ & _ & _ & _ & Q).
      eapply mv_pop with (ns := ns ++ [KEnd i]); eauto; [rewrite Q; now rewrite <- app_assoc| |left; apply dec_done].
      apply nomain_app; [now apply nomain_neutral|nm].
    + destruct (wired s) eqn:Ew; destruct (knd c); cbn in H; rewrite Ew in H; inj H;
        first [solve [eapply mv_pop with (ns := []); cbn; eauto; nm]|eapply mv_pop with (ns := [KUser]); cbn; eauto; nm].
  - destruct (user s && running s i) eqn:Eu; [|discriminate]. inj H.
    apply andb_prop in Eu as [Eu _].
    destruct (finish_shape c i false x s) as (ns & N & Q1 & Q2 & _ & _ & _ & _ & _ & _ & Q).
    eapply mv_push with (ns := ns ++ [KEnd i]); eauto; [rewrite Q; now rewrite <- app_assoc| |left; apply dec_done].
    apply nomain_app; [now apply nomain_neutral|nm].
  - destruct (user s) eqn:Eu; [|discriminate]. unfold transact in H.
    destruct (is_race c && running s i) eqn:Er; [|discriminate].
    destruct (idx s) eqn:Ei; inj H.
    + eapply mv_push with (ns := []); auto; nm.
    + eapply mv_push; [auto|reflexivity| |left; apply dec_tx|auto]. apply nomain_app; [apply nomain_neutral, cancel_all_neutral|nm].
  - destruct (user s && armed s) eqn:Eu; [|discriminate]. apply andb_prop in Eu as [Eu _].
    destruct (fin s); inj H; [eapply mv_push with (ns := []); auto; nm|].
    eapply mv_push; [auto|reflexivity| | |auto]; [apply nomain_neutral, forallb_map_neutral; reflexivity|].
    right. intros k Hk. apply in_map_iff in Hk as (j & <- & _). exact Logic.I.
  - destruct (user s && coro s) eqn:Eu; [|discriminate]. apply andb_prop in Eu as [Eu _]. inj H.
    eapply mv_push; [auto|reflexivity| | |auto]; [apply nomain_neutral, forallb_map_neutral; now destruct (is_race c)|].
    right. intros k Hk. apply in_map_iff in Hk as (j & <- & _). destruct (is_race c); exact Logic.I.
Qed.

Record SH c s : Prop := {
  sh_rdy : is_race c = true -> In KRdy (stk s) -> stk s = [KRdy] /\ todo s = ord c;
  sh_start : In KStart (stk s) -> stk s = [KStart];
  sh_go : forall i, In (KGo i) (stk s) -> stk s = [KGo i];
  sh_first : is_race c = true -> forall i k, In k (stk s) -> k = KRdyChk i \/ k = KGo i \/ k = KOut i -> ord c = i :: todo s }.

Lemma in_nomain k ns t : nomain ns -> main k = true -> In k (ns ++ t) -> In k t.
Proof. intros N M H. apply in_app_or in H as [H|]; auto. rewrite (nomain_main _ _ N H) in M. discriminate. Qed.
Lemma user_not k s : user s = true -> main k = true -> stk s = [k] -> False.
Proof. unfold user. intros U M H. rewrite H in U. destruct k; discriminate. Qed.

Lemma init_SH c : SH c (init c).
Proof.
  assert (G : forall k, In k (stk (init (V := V) (E := E) c)) -> k = KRdy \/ exists i, k = KProbe i).
  { intros k. cbn. intros H. apply in_app_or in H as [H|[H|[]]]; auto.
    destruct (ranged c && negb (is_race c)); [|destruct H].
    apply in_map_iff in H as (i & <- & _). eauto. }
  constructor.
  - intros R _. cbn. rewrite R, andb_false_r. auto.
  - intros H. apply G in H as [|[]]; discriminate.
  - intros i H. apply G in H as [|[]]; discriminate.
  - intros _ i k H. apply G in H as [->|[j ->]]; intros [|[|]]; discriminate.
Qed.

Lemma step_SH c s l s' ev : wf c -> Core c s -> SH c s -> step c l s = Some (s', ev) -> SH c s'.
Proof.
  intros W C [S1 S2 S3 S4] H. pose proof (step_move c s l s' ev W C H) as M.
  destruct M as [ns U Q N _ T|k t ns Q1 Mk Q N _ T|k ns Q1 Mk Q N _ T|i l0 Q1 T1 T2 Q|i Q1 T G R Q|i Q1 T G Q|i Q1 T Q
                |i Q1 T U Q|i l0 Q1 T1 T2 Q|Q1 T1 T2 Q|i Q1 T U Q|i Q1 T G R Q|ns Q1 T Q N _].
  - rewrite <- T in *. constructor; rewrite Q.
    + intros R Hi. apply in_nomain in Hi; auto. destruct (S1 R Hi) as [S _].
      now apply (user_not KRdy s U eq_refl) in S.
    + intros Hi. apply in_nomain in Hi; auto. now apply (user_not KStart s U eq_refl) in S2.
    + intros i Hi. apply in_nomain in Hi; auto. now apply (user_not (KGo i) s U eq_refl) in S3.
    + intros R i k Hi Hk. apply in_nomain in Hi; [eauto|auto|]. destruct Hk as [->|[->| ->]]; reflexivity.
  - rewrite Q1 in *.
    assert (A : forall k', main k' = true -> In k' (ns ++ t) -> In k' (k :: t))
      by (intros k' M' Hi; apply in_nomain in Hi; auto; now right).
    assert (B : forall k', main k' = true -> In k' (ns ++ t) -> k :: t = [k'] -> False)
      by (intros k' M' Hi [= -> _]; congruence).
    constructor; rewrite Q.
    + intros R Hi. destruct (S1 R (A KRdy eq_refl Hi)) as [S _]. now apply (B KRdy eq_refl) in S.
    + intros Hi. pose proof (S2 (A KStart eq_refl Hi)) as S. now apply (B KStart eq_refl) in S.
    + intros i Hi. pose proof (S3 i (A (KGo i) eq_refl Hi)) as S. now apply (B (KGo i) eq_refl) in S.
    + intros R i k' Hi Hk. rewrite T. apply (S4 R i k'); auto. apply A; auto.
      destruct Hk as [->|[->| ->]]; reflexivity.
  - assert (A : forall k', main k' = true -> In k' ns -> False)
      by (intros k' M' Hi; rewrite (nomain_main _ _ N Hi) in M'; discriminate).
    constructor; rewrite Q.
    + intros _ Hi. now apply A in Hi.
    + intros Hi. now apply A in Hi.
    + intros i Hi. now apply A in Hi.
    + intros _ i k' Hi Hk. apply A in Hi; [contradiction|]. destruct Hk as [->|[->| ->]]; reflexivity.
  - constructor; rewrite Q.
    + intros _ [|[|[|[]]]]; discriminate.
    + intros [|[|[|[]]]]; discriminate.
    + intros j [|[|[|[]]]]; discriminate.
    + intros R j k Hi Hk. rewrite Q1 in S1. destruct (S1 R (or_introl eq_refl)) as [_ To].
      destruct Hi as [<-|[<-|[<-|[]]]]; try (destruct Hk as [|[|]]; discriminate).
      destruct Hk as [[= <-]|[|]]; try discriminate. congruence.
  - constructor; rewrite Q.
    + congruence.
    + intros [|[]]; discriminate.
    + intros j [|[]]; discriminate.
    + congruence.
  - constructor; rewrite Q.
    + intros _ [|[]]; discriminate.
    + intros [|[]]; discriminate.
    + intros j [[= ->]|[]]; auto.
    + intros R j k [<-|[]] Hk. destruct Hk as [|[[= <-]|]]; try discriminate. rewrite T.
      apply (S4 R i (KRdyChk i)); auto. rewrite Q1. now left.
  - constructor; rewrite Q.
    + intros _ [|[|[]]]; discriminate.
    + intros [|[|[]]]; discriminate.
    + intros j [|[|[]]]; discriminate.
    + intros R j k [<-|[<-|[]]] Hk; try (destruct Hk as [|[|]]; discriminate).
      destruct Hk as [|[|[= <-]]]; try discriminate. rewrite T.
      apply (S4 R i (KGo i)); auto. rewrite Q1. now left.
  - constructor; rewrite Q.
    + intros _ [|[]]; discriminate.
    + auto.
    + intros j [|[]]; discriminate.
    + intros R j k [<-|[]] [|[|]]; discriminate.
  - constructor; rewrite Q.
    + intros _ [|[|[|[]]]]; discriminate.
    + intros [|[|[|[]]]]; discriminate.
    + intros j [|[|[|[]]]]; discriminate.
    + intros R j k [<-|[<-|[<-|[]]]] [|[|]]; discriminate.
  - constructor; rewrite Q.
    + intros _ [|[]]; discriminate.
    + intros [|[]]; discriminate.
    + intros j [|[]]; discriminate.
    + intros R j k [<-|[]] [|[|]]; discriminate.
  - constructor; rewrite Q.
    + intros _ [|[]]; discriminate.
    + auto.
    + intros j [|[]]; discriminate.
    + intros R j k [<-|[]] [|[|]]; discriminate.
  - constructor; rewrite Q.
    + intros _ [|[]]; discriminate.
    + intros [|[]]; discriminate.
    + intros j [|[]]; discriminate.
    + intros R' j k [<-|[]] [|[|]]; discriminate.
  - assert (A : forall k', main k' = true -> k' <> KArm2 -> In k' (ns ++ [KArm2]) -> False).
    { intros k' M' Hn Hi. apply in_nomain in Hi; auto. destruct Hi as [<-|[]]. now apply Hn. }
    constructor; rewrite Q.
    + intros _ Hi. exfalso. apply (A KRdy); auto; discriminate.
    + intros Hi. exfalso. apply (A KStart); auto; discriminate.
    + intros i Hi. exfalso. apply (A (KGo i)); auto; discriminate.
    + intros _ i k' Hi Hk. exfalso. apply (A k'); auto; destruct Hk as [->|[->| ->]]; try reflexivity; discriminate.
Qed.

(** *** Calm runs. *)
Definition names i k : Prop := k = KRdyChk i \/ k = KGo i \/ k = KOut i \/ k = KChk i.
Lemma names_main i k : names i k -> main k = true.
Proof. intros [->|[->|[->| ->]]]; reflexivity. Qed.
Lemma loop_main k : looping k = true -> main k = true.
Proof. now destruct k. Qed.

Record CI c s (tr : list event) : Prop := {
  ci_cur : forall cur, window tr = Some cur -> forall k i, In k (stk s) -> names i k -> cls (ph s i) = 1 -> cur = Some i;
  ci_stop : is_race c = true -> calm tr -> idx s <> None -> forall k, In k (stk s) -> looping k = true ->
            exists i, names i k /\ k <> KGo i /\ cls (ph s i) = 2 }.

Definition quiet1 (e : event) : bool :=
  match e with EStart _ | EDone _ _ | ETxBegin _ | ESusp _ => false | _ => true end.
Lemma window_quiet (ev : list event) w : forallb quiet1 ev = true -> fold_left window_step ev w = w.
Proof.
  revert w. induction ev as [|e ev IH]; cbn; auto. intros w H. apply andb_prop in H as [H1 H2].
  rewrite IH by auto. destruct w; auto. destruct e; auto; discriminate.
Qed.
Lemma window_quiet_app tr ev : forallb quiet1 ev = true -> window (tr ++ ev) = window tr.
Proof. intros. rewrite window_app. now apply window_quiet. Qed.

Lemma step_susp c s l s' ev i : step c l s = Some (s', ev) -> In (ESusp i) ev ->
  exists t, stk s = KOut i :: t \/ stk s = KChk i :: t.
Proof.
  intros H Hi. destruct l; cbn in H.
  - destruct (stk s) as [|k t] eqn:Es; [discriminate|]. exists t.
    assert (HK : forall ev' : list event, ev' = ev ->
       forallb (fun e => match e with ESusp _ => false | _ => true end) ev' = true -> False).
    { intros ev' -> Hf. rewrite forallb_forall in Hf. specialize (Hf _ Hi). discriminate. }
    destruct k; cbn in H;
      repeat match type of H with
      | context [match lastf s with _ => _ end] => destruct (lastf s)
      | context [match todo s with _ => _ end] => destruct (todo s)
      | context [match knd c with _ => _ end] => destruct (knd c)
      | context [match err s with _ => _ end] => destruct (err s)
      | context [settle ?j ?z] => unfold settle in H
      | context [emit ?j ?u ?z] => unfold emit in H
      | context [if ?b then _ else _] => destruct b
      end; try discriminate; inj H; try (exfalso; eapply HK; reflexivity);
      cbn in Hi; destruct Hi as [[= ->]|[]]; auto.
  - destruct (stk s) as [|[] t]; try discriminate. injection H as H.
    destruct b; cbn in H; [inj H; destruct Hi as [|[]]; discriminate|inj H; destruct Hi as [|[]]; discriminate|].
    destruct (knd c); cbn in H; destruct (wired s); inj H; destruct Hi.
  - destruct (user s && running s i0); [|discriminate]. inj H. destruct Hi as [|[]]; discriminate.
  - destruct (user s); [|discriminate]. unfold transact in H. destruct (is_race c && running s i0); [|discriminate].
    destruct (idx s); inj H; destruct Hi as [|[]]; discriminate.
  - destruct (user s && armed s); [|discriminate]. destruct (fin s); inj H; [destruct Hi as [|[|[]]]; discriminate|destruct Hi as [|[]]; discriminate].
  - destruct (user s && coro s); [|discriminate]. inj H. destruct Hi as [|[]]; discriminate.
Qed.

Lemma step_main_data c s l s' ev k : main k = true -> stk s = [k] -> step c l s = Some (s', ev) -> data s' = data s.
Proof.
  intros M Es H. assert (U : user s = false) by (unfold user; rewrite Es; destruct k; auto; discriminate).
  destruct l; cbn in H; rewrite ?U in H; cbn in H; try discriminate; rewrite Es in H.
  - destruct k; try discriminate; cbn in H;
      repeat match type of H with
      | context [match lastf s with _ => _ end] => destruct (lastf s)
      | context [match todo s with _ => _ end] => destruct (todo s)
      | context [match knd c with _ => _ end] => destruct (knd c)
      | context [match err s with _ => _ end] => destruct (err s) eqn:?
      | context [settle ?j ?z] => unfold settle in H
      | context [if ?b then _ else _] => destruct b
      end; try discriminate; inj H; unfold create; try destruct (is_race c); try reflexivity.
  - destruct k; discriminate.
Qed.

Lemma inert_quiet (ev : list event) : inert ev = true -> (forall i, ~ In (ESusp i) ev) -> forallb quiet1 ev = true.
Proof.
  intros H N. rewrite forallb_forall. unfold inert in H. rewrite forallb_forall in H.
  intros e He. specialize (H e He). destruct e; auto. now apply N in He.
Qed.

(** The window of a child under way is kept. *)
Lemma cur_keep c s tr l s' ev i k cur' :
  wf c -> TI c s tr -> CI c s tr -> step c l s = Some (s', ev) -> todo s' = todo s ->
  In k (stk s) -> names i k -> (forall j t, stk s <> KOut j :: t) -> (forall j t, stk s <> KChk j :: t) ->
  cls (ph s' i) = 1 -> window (tr ++ ev) = Some cur' -> cur' = Some i.
Proof.
  intros W T [I1 _] H Ht Hk Hn N1 N2 Hc Hw.
  assert (NS : forall j, ~ In (ESusp j) ev).
  { intros j Q. destruct (step_susp _ _ _ _ _ _ H Q) as [t [Q1|Q1]]; [now apply N1 in Q1|now apply N2 in Q1]. }
  pose proof (step_effect c s l s' ev W (t_core _ _ _ T) (t_lf _ _ _ T) H) as F.
  destruct F as [j rd x Hp -> Hd Hph Hf _|j Hr Hrun Hi -> Hd Hph Hf _|fr Hin -> Hf Hf' Hu Hd Hph _
                |j -> Hi Hph Ht' Hd Hf|Hin Hcls Hrr Hd Hf _].
  - rewrite window_app in Hw. cbn in Hw. destruct (window tr) as [cur|] eqn:Ew; [|discriminate].
    assert (Hij : i <> j). { intros ->. rewrite Hph, upd_same in Hc. discriminate. }
    rewrite Hph, upd_other in Hc by auto.
    rewrite (I1 cur eq_refl k i Hk Hn Hc) in Hw. cbn in Hw. destruct (Nat.eqb_spec i j); congruence.
  - rewrite window_app in Hw. cbn in Hw. destruct (window tr) as [cur|] eqn:Ew; [|discriminate].
    rewrite Hph in Hc. rewrite (I1 cur eq_refl k i Hk Hn Hc) in Hw. discriminate.
  - rewrite window_quiet_app in Hw.
    + rewrite Hph in Hc. eauto.
    + cbn. apply inert_quiet; auto. intros j Q. apply (NS j). now right.
  - rewrite Ht in Ht'. exfalso. clear -Ht'. induction (todo s) as [|a q IH]; [discriminate|].
    injection Ht' as -> Q. auto.
  - rewrite window_quiet_app in Hw; [|now apply inert_quiet]. rewrite Hcls in Hc. eauto.
Qed.

Lemma cls_mono c s tr l s' ev i : wf c -> TI c s tr -> step c l s = Some (s', ev) -> cls (ph s i) = 2 -> cls (ph s' i) = 2.
Proof.
  intros W T H Hc. pose proof (step_effect c s l s' ev W (t_core _ _ _ T) (t_lf _ _ _ T) H) as F.
  destruct F as [j rd x Hp -> Hd Hph Hf _|j Hr Hrun Hi -> Hd Hph Hf _|fr Hin -> Hf Hf' Hu Hd Hph _
                |j -> Hi Hph Ht' Hd Hf|Hin Hcls Hrr Hd Hf _].
  - rewrite Hph. unfold upd. destruct (i =? j); auto.
  - now rewrite Hph.
  - now rewrite Hph.
  - rewrite Hph. unfold upd. destruct (Nat.eqb_spec i j); auto. subst. rewrite Hi in Hc. discriminate.
  - now rewrite Hcls.
Qed.

Lemma cons_neq {A} (a : A) l : l = a :: l -> False.
Proof. revert a. induction l as [|b l IH]; [discriminate|]. intros a [= -> Q]. eauto. Qed.

Lemma start_window c s tr l s' ev i l0 cur' : wf c -> TI c s tr -> step c l s = Some (s', ev) ->
  todo s = i :: l0 -> todo s' = l0 -> window (tr ++ ev) = Some cur' -> cur' = Some i /\ ph s' i = Starting.
Proof.
  intros W T H T1 T2 Hw. pose proof (step_effect c s l s' ev W (t_core _ _ _ T) (t_lf _ _ _ T) H) as F.
  destruct F as [j rd x Hp -> Hd Hph Hf Q|j Hr Hrun Hi -> Hd Hph Hf Q|fr Hin -> Hf Hf' Hu Hd Hph Q
                |j -> Hi Hph Ht' Hd Hf|Hin Hcls Hrr Hd Hf Q];
    try (exfalso; rewrite T1, T2 in Q; now apply cons_neq in Q).
  rewrite T1, T2 in Ht'. injection Ht' as <-. rewrite Hph, upd_same. split; auto.
  rewrite window_app in Hw. destruct (window tr) as [[]|]; cbn in Hw; congruence.
Qed.

Lemma step_CI c s tr l s' ev : wf c -> TI c s tr -> SH c s -> CI c s tr -> step c l s = Some (s', ev) ->
  CI c s' (tr ++ ev).
Proof.
  intros W T S I H. pose proof (step_move c s l s' ev W (t_core _ _ _ T) H) as M.
  pose proof (step_effect c s l s' ev W (t_core _ _ _ T) (t_lf _ _ _ T) H) as F.
  (* decided already, or deciding now while the stack is only extended or popped *)
  assert (KEEP : (user s = true \/ exists k t, stk s = k :: t /\ main k = false) ->
     is_race c = true -> calm (tr ++ ev) -> idx s' <> None -> todo s' = todo s -> forall k, In k (stk s) -> looping k = true ->
     exists i, names i k /\ k <> KGo i /\ cls (ph s' i) = 2).
  { intros U R Hc Hi Ht k Hk Lk.
    assert (NK : forall k', main k' = true -> stk s <> [k']).
    { intros k' M' Q. destruct U as [U|(k0 & t & Q2 & M2)]; [now apply (user_not k' s U M') in Q|].
      rewrite Q in Q2. injection Q2 as -> _. congruence. }
    destruct (idx s) as [w|] eqn:Ei.
    - destruct (ci_stop _ _ _ I R (calm_app _ _ Hc)) with (k := k) as (i & Q1 & Q2 & Q3); auto; [congruence|].
      exists i. split; auto. split; auto. eapply cls_mono; eauto.
    - assert (HN : exists i, names i k /\ k <> KGo i).
      { destruct k; try discriminate Lk.
        - exfalso. destruct (sh_rdy _ _ S R Hk) as [Q _]. now apply (NK KRdy eq_refl) in Q.
        - exists i. split; [red; auto|discriminate].
        - exfalso. apply (NK (KGo i) eq_refl). now apply (sh_go _ _ S).
        - exists i. split; [red; auto|discriminate].
        - exfalso. apply (NK KStart eq_refl). now apply (sh_start _ _ S).
        - exists i. split; [red; auto|discriminate]. }
      destruct HN as (i & Hn & Hg). exists i. split; auto. split; auto.
      destruct (cls (ph s i)) as [|[|[|]]] eqn:Ec.
      + exfalso. pose proof (c_at _ _ _ _ _ _ _ _ _ (t_core _ _ _ T) k Hk) as Q.
        destruct (ph s i) eqn:Ep; try discriminate.
        destruct Hn as [->|[->|[->| ->]]]; cbn in Q; rewrite Ep in Q; try contradiction; discriminate.
      + unfold calm in Hc. destruct (window tr) as [cur|] eqn:Ew;
          [|rewrite window_app, Ew, window_none in Hc; now elim Hc].
        pose proof (ci_cur _ _ _ I cur Ew k i Hk Hn Ec) as ->.
        destruct F as [j rd x Hp -> Hd Hph Hf _|j Hr Hrun Hj -> Hd Hph Hf _|fr Hin -> Hf Hf' Hu Hd Hph _
                      |j -> Hj Hph Ht' Hd Hf|Hin Hcls Hrr Hd Hf _].
        * rewrite window_app, Ew in Hc. cbn in Hc. destruct (Nat.eqb_spec i j); [|now elim Hc].
          subst. rewrite Hph, upd_same. reflexivity.
        * rewrite window_app, Ew in Hc. cbn in Hc. now elim Hc.
        * exfalso. unfold data in Hd. injection Hd as Hd _ _ _. congruence.
        * exfalso. unfold data in Hd. injection Hd as Hd _ _ _. congruence.
        * exfalso. unfold data in Hd. injection Hd as Hd _ _ _. congruence.
      + eapply cls_mono; eauto.
      + destruct (ph s i); discriminate. }
  assert (STOP : forall k, stk s = [k] -> main k = true -> looping k = true -> is_race c = true -> calm (tr ++ ev) -> idx s' <> None ->
     exists i, names i k /\ k <> KGo i /\ gone s i = true).
  { intros k Es Mk Lk R Hc Hi. pose proof (step_main_data c s l s' ev k Mk Es H) as Hd.
    unfold data in Hd. injection Hd as Hd _ _ _. rewrite Hd in Hi.
    destruct (ci_stop _ _ _ I R (calm_app _ _ Hc) Hi k) as (i & Q1 & Q2 & Q3); auto; [rewrite Es; now left|].
    exists i. split; auto. split; auto. pose proof (t_core _ _ _ T) as C. unfold Core in C. rewrite Es in C.
    destruct (main_top _ _ _ _ _ _ _ _ _ _ Mk C) as (_ & _ & _ & Q & _). destruct (Q i) as [_ Q4].
    unfold gone. destruct (ph s i); try discriminate Q3; auto. }
  destruct M as [ns U Q N _ Td|k0 t ns Q1 Mk Q N _ Td|k0 ns Q1 Mk Q N _ Td|i0 l0 Q1 T1 T2 Q|i0 Q1 Td G R Q|i0 Q1 Td G Q|i0 Q1 Td Q
                |i0 Q1 Td U Q|i0 l0 Q1 T1 T2 Q|Q1 T1 T2 Q|i0 Q1 Td U Q|i0 Q1 Td G R Q|ns Q1 Td Q N _].
  - constructor.
    + intros cur Hw k i Hk Hn Hc. rewrite Q in Hk. apply in_nomain in Hk; [|auto|now apply (names_main i)].
      eapply cur_keep; eauto; intros j t Z; unfold user in U; rewrite Z in U; discriminate.
    + intros R Hc Hi k Hk Lk. rewrite Q in Hk. apply in_nomain in Hk; [|auto|now apply loop_main].
      apply KEEP; auto.
  - constructor.
    + intros cur Hw k i Hk Hn Hc. rewrite Q in Hk. apply in_nomain in Hk; [|auto|now apply (names_main i)].
      eapply cur_keep; eauto; [rewrite Q1; now right| |]; intros j t' Z; rewrite Q1 in Z;
        injection Z as -> _; discriminate.
    + intros R Hc Hi k Hk Lk. rewrite Q in Hk. apply in_nomain in Hk; [|auto|now apply loop_main].
      apply KEEP; auto; [right; eauto|rewrite Q1; now right].
  - constructor.
    + intros cur Hw k i Hk Hn. rewrite Q in Hk. apply names_main in Hn. rewrite (nomain_main _ _ N Hk) in Hn. discriminate.
    + intros R Hc Hi k Hk Lk. rewrite Q in Hk. apply loop_main in Lk. rewrite (nomain_main _ _ N Hk) in Lk. discriminate.
  - constructor.
    + intros cur Hw k i Hk Hn Hc. destruct (start_window _ _ _ _ _ _ _ _ _ W T H T1 T2 Hw) as [-> _].
      rewrite Q in Hk. destruct Hk as [<-|[<-|[<-|[]]]]; destruct Hn as [Z|[Z|[Z|Z]]]; congruence.
    + intros R Hc Hi. destruct (STOP KRdy) as (i & [Z|[Z|[Z|Z]]] & _); auto; discriminate.
  - constructor.
    + intros cur Hw k i Hk Hn Hc. rewrite Q in Hk. destruct Hk as [<-|[]]. destruct Hn as [Z|[Z|[Z|Z]]]; discriminate.
    + congruence.
  - constructor.
    + intros cur Hw k i Hk Hn Hc. rewrite Q in Hk. destruct Hk as [<-|[]].
      destruct Hn as [Z|[Z|[Z|Z]]]; try discriminate. injection Z as <-.
      eapply cur_keep with (k := KRdyChk i0); eauto; [rewrite Q1; now left|red; auto| |]; intros j t' Z; rewrite Q1 in Z; discriminate.
    + intros R Hc Hi. destruct (STOP (KRdyChk i0)) as (i & [Z|[Z|[Z|Z]]] & _ & G2); auto; try discriminate.
      injection Z as <-. congruence.
  - constructor.
    + intros cur Hw k i Hk Hn Hc. rewrite Q in Hk. destruct Hk as [<-|[<-|[]]];
      destruct Hn as [Z|[Z|[Z|Z]]]; try discriminate. injection Z as <-.
      eapply cur_keep with (k := KGo i0); eauto; [rewrite Q1; now left|red; auto| |]; intros j t' Z; rewrite Q1 in Z; discriminate.
    + intros R Hc Hi. destruct (STOP (KGo i0)) as (i & [Z|[Z|[Z|Z]]] & G1 & G2); auto; try discriminate.
      congruence.
  - constructor.
    + intros cur Hw k i Hk Hn Hc. rewrite Q in Hk. destruct Hk as [<-|[]]. destruct Hn as [Z|[Z|[Z|Z]]]; discriminate.
    + intros R Hc Hi. destruct (STOP (KOut i0)) as (i & [Z|[Z|[Z|Z]]] & _ & G2); auto; try discriminate.
      injection Z as <-. exfalso. apply (U R).
      pose proof (t_core _ _ _ T) as C. rewrite (c_uc _ _ _ _ _ _ _ _ _ C).
      assert (Eo : ord c = i0 :: todo s) by (apply (sh_first _ _ S R i0 (KOut i0)); auto; rewrite Q1; now left).
      destruct (c_pre _ _ _ _ _ _ _ _ _ C) as (pre & Eo2 & Hpre).
      assert (pre = [i0]). { apply (app_inv_tail (todo s)). now rewrite <- Eo2. }
      subst pre. apply cnt_zero. intros j _. destruct (Nat.eq_dec j i0).
      * subst. unfold gone in G2. destruct (ph s i0); auto; discriminate.
      * rewrite (proj2 (Hpre j)); auto. intros [|[]]; congruence.
  - constructor.
    + intros cur Hw k i Hk Hn Hc. destruct (start_window _ _ _ _ _ _ _ _ _ W T H T1 T2 Hw) as [-> _].
      rewrite Q in Hk. destruct Hk as [<-|[<-|[<-|[]]]]; destruct Hn as [Z|[Z|[Z|Z]]]; congruence.
    + intros R Hc Hi. destruct (STOP KStart) as (i & [Z|[Z|[Z|Z]]] & _); auto; discriminate.
  - constructor.
    + intros cur Hw k i Hk Hn Hc. rewrite Q in Hk. destruct Hk as [<-|[]]. destruct Hn as [Z|[Z|[Z|Z]]]; discriminate.
    + intros R Hc Hi k Hk Lk. rewrite Q in Hk. destruct Hk as [<-|[]]. discriminate.
  - constructor.
    + intros cur Hw k i Hk Hn Hc. rewrite Q in Hk. destruct Hk as [<-|[]]. destruct Hn as [Z|[Z|[Z|Z]]]; discriminate.
    + intros R Hc Hi. destruct (STOP (KChk i0)) as (i & [Z|[Z|[Z|Z]]] & _ & G2); auto; try discriminate.
      injection Z as <-. rewrite (U R) in G2. discriminate.
  - constructor.
    + intros cur Hw k i Hk Hn Hc. rewrite Q in Hk. destruct Hk as [<-|[]]. destruct Hn as [Z|[Z|[Z|Z]]]; discriminate.
    + intros _ Hc Hi k Hk Lk. rewrite Q in Hk. destruct Hk as [<-|[]]. discriminate.
  - constructor.
    + intros cur Hw k i Hk Hn. rewrite Q in Hk. apply in_nomain in Hk; [|auto|now apply (names_main i)].
      destruct Hk as [<-|[]]. destruct Hn as [Z|[Z|[Z|Z]]]; discriminate.
    + intros R Hc Hi k Hk Lk. rewrite Q in Hk. apply in_nomain in Hk; [|auto|now apply loop_main].
      destruct Hk as [<-|[]]. discriminate.
Qed.

Lemma init_CI c : CI c (init c) [].
Proof.
  constructor.
  - intros cur [= <-] k i _ _. discriminate.
  - intros _ _ H. now elim H.
Qed.

Theorem run_CI c ls s tr : wf c -> run c (init c) ls = Some (s, tr) -> TI c s tr /\ DI c s tr /\ SH c s /\ CI c s tr.
Proof.
  intros W. apply (run_ind c (fun s tr => TI c s tr /\ DI c s tr /\ SH c s /\ CI c s tr)).
  - split; [now apply init_TI|]. split; [apply init_DI|]. split; [apply init_SH|apply init_CI].
  - intros s0 tr0 l s' ev (T & D & S & I) H. split; [eapply step_TI; eauto|]. split; [eapply step_DI; eauto|].
    split; [eapply step_SH; eauto; apply (t_core _ _ _ T)|eapply step_CI; eauto].
Qed.

End Calm.
