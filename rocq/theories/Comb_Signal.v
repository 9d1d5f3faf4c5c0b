(** Cancellation signals sent to the children. *)
From Coq Require Import List Bool Arith Lia Permutation.
From Verif Require Import Comb_Model Comb_Spec Comb_Core Comb_Trace Comb_Data Comb_Calm.
Import ListNotations.

Section Signal.
Context {V E : Type}.
Notation state := (state V E).
Notation label := (label V E).
Notation event := (event V E).
Implicit Types (s : state).

Definition pre (p : phase) : bool := match p with Idle | Starting | Parked => true | _ => false end.
Definition silent1 (e : event) : bool :=
  match e with EEmit _ _ _ | ECancelled _ | ETxBegin _ | EDone _ _ => false | _ => true end.
Definition silent (ev : list event) : bool := forallb silent1 ev.

Inductive sig c s s' ev : Prop :=
| sg_emit i t : stk s = KEmit i :: t -> fin s = false -> canc s i = true ->
    canc s' = upd (canc s) i false -> ph s' = ph s ->
    (running s i = true /\ ev = [EEmit i (own c) (entering s i)] /\ stk s' = KUser :: t \/
     running s i = false /\ ev = [] /\ stk s' = t) -> sig c s s' ev
| sg_skip i t : stk s = KEmit i :: t -> (fin s = true \/ canc s i = false) -> canc s' = canc s ->
    ph s' = ph s -> silent ev = true -> stk s' = t -> sig c s s' ev
| sg_fwd i u t : stk s = KFwd i u :: t -> fin s = false ->
    ph s' = ph s -> canc s' = canc s ->
    (running s i = true /\ (is_race c = true \/ knd c = Join -> canc s i = true) /\
       ev = [EEmit i u (entering s i)] /\ stk s' = KUser :: t \/
     (running s i = false \/ knd c <> Gather /\ canc s i = false) /\ ev = [] /\ stk s' = t) -> sig c s s' ev
| sg_fwdskip i u t : stk s = KFwd i u :: t -> fin s = true ->
    ph s' = ph s -> canc s' = canc s -> ev = [EDangling] -> stk s' = t -> sig c s s' ev
| sg_park i t : stk s = KBeg i :: t -> ph s i = Starting -> ev = [] ->
    (knd c <> Gather -> canc s' = upd (canc s) i true) ->
    (wired s = true /\ ph s' = upd (ph s) i Entering /\ stk s' = KUser :: t \/
     wired s = false /\ ph s' = upd (ph s) i Parked /\ stk s' = t) -> sig c s s' ev
| sg_done i x t ns : ev = [EDone i x] ->
    (stk s = KBeg i :: t /\ ph s i = Starting \/ stk s = t /\ user s = true /\ running s i = true) ->
    ph s' = upd (ph s) i Ending -> stk s' = ns ++ t -> nomain ns ->
    (forall j, j <> i -> canc s' j = canc s j) -> (canc s' i = canc s i \/ canc s' i = false) ->
    (forall j, j < size c -> knd c = Join /\ is_err x = true \/ knd c = Race /\ is_throw x = false -> In (KEmit j) ns) ->
    (forall j, ~ In (KTx j) ns) -> (forall j u, ~ In (KFwd j u) ns) -> (forall j, In (KEmit j) ns -> knd c <> Gather) -> sig c s s' ev
| sg_tx i ns : ev = [ETxBegin i] -> user s = true -> running s i = true -> knd c = Race -> idx s = None ->
    ph s' = ph s -> canc s' = upd (canc s) i false -> stk s' = (ns ++ [KTx i]) ++ stk s ->
    (forall j, j < size c -> In (KEmit j) ns) -> (forall j, ~ In (KTx j) ns) -> (forall j u, ~ In (KFwd j u) ns) -> sig c s s' ev
| sg_go i : stk s = [KGo i] -> ev = [] -> ph s i = Parked -> ph s' = upd (ph s) i Entering ->
    canc s' = canc s -> stk s' = [KUser; KOut i] -> sig c s s' ev
| sg_arm : stk s = [KArm] -> knd c = Join -> err s <> None -> ev = [] -> canc s' = canc s -> ph s' = ph s ->
    stk s' = cancel_all c ++ [KArm2] -> sig c s s' ev
| sg_cancel u ev' : ev = ECancelled u :: ev' -> silent ev' = true -> user s = true -> canc s' = canc s -> ph s' = ph s ->
    (fin s = true /\ stk s' = stk s \/ fin s = false /\ stk s' = map (fun i => KFwd i u) (idxs c) ++ stk s) -> sig c s s' ev
| sg_other : canc s' = canc s -> (forall i, running s' i = running s i) ->
    (forall i, entering s' i = true -> entering s i = true) ->
    (forall i, pre (ph s' i) = pre (ph s i)) -> (forall i, ph s' i = Parked <-> ph s i = Parked) ->
    silent ev = true ->
    (forall k, match k with KEmit _ | KFwd _ _ => True | _ => False end -> In k (stk s') <-> In k (stk s)) -> sig c s s' ev.

Lemma in_emit c j : j < size c -> In (KEmit j) (cancel_all c).
Proof.
  intros H. unfold cancel_all. apply in_or_app. right. apply in_map. unfold idxs. apply in_seq. lia.
Qed.
Lemma in_cancel_all c k : In k (cancel_all c) -> exists i, k = KInt i /\ is_race c = true \/ k = KEmit i.
Proof.
  unfold cancel_all. intros H. apply in_app_or in H as [H|H].
  - destruct (is_race c); [|destruct H]. apply in_map_iff in H as (i & <- & _). eauto.
  - apply in_map_iff in H as (i & <- & _). eauto.
Qed.

Lemma finish_sig c i rd x s : exists ns, stk (finish c i rd x s) = ns ++ stk s /\ nomain ns /\
  ph (finish c i rd x s) = upd (ph s) i Ending /\
  (forall j, j <> i -> canc (finish c i rd x s) j = canc s j) /\
  (canc (finish c i rd x s) i = canc s i \/ canc (finish c i rd x s) i = false) /\
  (forall j, j < size c -> knd c = Join /\ is_err x = true \/ knd c = Race /\ is_throw x = false -> In (KEmit j) ns) /\
  (forall j, ~ In (KTx j) ns) /\ (forall j u, ~ In (KFwd j u) ns) /\ (forall j, In (KEmit j) ns -> knd c <> Gather).
Proof.
  assert (A : forall k (ks : list item), In k (cancel_all c ++ ks) -> (exists i, k = KInt i \/ k = KEmit i) \/ In k ks).
  { intros k ks H. apply in_app_or in H as [H|]; auto. apply in_cancel_all in H as (a & [[-> _]| ->]); eauto. }
  assert (B : forall ks, nomain ks -> nomain (cancel_all c ++ ks)).
  { intros ks Hk. apply nomain_app; auto. apply nomain_neutral, cancel_all_neutral. }
  destruct (finish_shape c i rd x s) as (_ & _ & -> & _).
  unfold finish. destruct (knd c) eqn:K.
  - exists [KEnd i]. split; [reflexivity|]. split; [intros k [<-|[]]; reflexivity|]. split; [reflexivity|].
    split; [reflexivity|]. split; [auto|]. split; [intros j _ [[]|[]]; discriminate|].
    split; [intros j [|[]]; discriminate|]. split; [intros j u [|[]]; discriminate|intros j [|[]]; discriminate].
  - destruct x as [v|e|e]; unfold join_result.
    + exists [KEnd i]. split; [reflexivity|]. split; [intros k [<-|[]]; reflexivity|]. split; [reflexivity|].
      split; [reflexivity|]. split; [auto|]. split; [intros j _ [[]|[]]; discriminate|].
      split; [intros j [|[]]; discriminate|]. split; [intros j u [|[]]; discriminate|intros j [|[]]; discriminate].
    + exists (cancel_all c ++ [KEnd i]).
      split; [destruct (err _); reflexivity|]. split; [apply B; intros k [<-|[]]; reflexivity|]. split; [reflexivity|].
      split; [destruct (err _); reflexivity|]. split; [destruct (err _); auto|].
      split; [intros j Hj _; apply in_or_app; left; now apply in_emit|].
      split; [intros j Q; apply A in Q as [(a & [|])|[|[]]]; discriminate|]. split; [intros j u Q; apply A in Q as [(a & [|])|[|[]]]; discriminate|discriminate].
    + exists (cancel_all c ++ [KEnd i]).
      split; [destruct (err _); reflexivity|]. split; [apply B; intros k [<-|[]]; reflexivity|]. split; [reflexivity|].
      split; [destruct (err _); reflexivity|]. split; [destruct (err _); auto|].
      split; [intros j Hj _; apply in_or_app; left; now apply in_emit|].
      split; [intros j Q; apply A in Q as [(a & [|])|[|[]]]; discriminate|]. split; [intros j u Q; apply A in Q as [(a & [|])|[|[]]]; discriminate|discriminate].
  - assert (R : forall y, let s' := race_result c i rd y (set_ph i Ending s) in
        stk s' = (cancel_all c ++ [KFin i; KEnd i]) ++ stk s /\ canc s' = upd (canc s) i false).
    { intros y. unfold race_result. cbn zeta. split.
      - unfold push. cbn [stk set_stk]. f_equal.
        cbn [idx set_ph]; destruct (idx s) as [j|]; cbn [idx set_ph set_idx];
        repeat match goal with |- context [if ?b then _ else _] => destruct b end; try reflexivity; destruct y; reflexivity.
      - cbn [idx set_ph]; destruct (idx s) as [j|]; cbn [idx set_ph set_idx];
        repeat match goal with |- context [if ?b then _ else _] => destruct b end; try reflexivity; destruct y; reflexivity. }
    destruct x as [v|e|e].
    1,2: exists (cancel_all c ++ [KFin i; KEnd i]); cbv zeta;
      match goal with |- context [race_result _ _ _ ?y _] => destruct (R y) as [R1 R2] end;
      rewrite R1, R2;
      split; [reflexivity|]; (split; [apply B; intros k [<-|[<-|[]]]; reflexivity|]); (split; [reflexivity|]);
      (split; [intros j Hj; now apply upd_other|]); (split; [right; apply upd_same|]);
      (split; [intros j Hj _; apply in_or_app; left; now apply in_emit|]);
      (split; [intros j Q; apply A in Q as [(a & [|])|[|[|[]]]]; discriminate|]); (split; [intros j u Q; apply A in Q as [(a & [|])|[|[|[]]]]; discriminate|discriminate]).
    exists [KEnd i]. unfold race_throw. cbv zeta. cbn [idx set_ph].
    assert (R3 : forall z : state, stk z = stk s -> canc z = canc s ->
       stk (push [KEnd i] (set_work i false z)) = [KEnd i] ++ stk s /\ canc (push [KEnd i] (set_work i false z)) = canc s)
      by (intros z <- <-; auto).
    match goal with |- context [push [KEnd i] (set_work i false ?z)] => destruct (R3 z) as [Q1 Q2] end.
    { destruct (idx s) as [j|]; cbn [idx set_ph set_idx]; repeat match goal with |- context [if ?b then _ else _] => destruct b end; reflexivity. }
    { destruct (idx s) as [j|]; cbn [idx set_ph set_idx]; repeat match goal with |- context [if ?b then _ else _] => destruct b end; reflexivity. }
    rewrite Q1, Q2.
    split; [reflexivity|]. split; [intros k [<-|[]]; reflexivity|]. split; [reflexivity|].
    split; [reflexivity|]. split; [auto|]. split; [intros j _ [[]|[]]; discriminate|].
    split; [intros j [|[]]; discriminate|]. split; [intros j u [|[]]; discriminate|intros j [|[]]; discriminate].
Qed.

Ltac inlist := intros ? QQ; cbn in QQ |- *; try contradiction;
  split; intros ZZ; repeat match goal with
    | H : _ \/ _ |- _ => destruct H
    | H : _ = ?k |- _ => subst k
    | H : In _ [] |- _ => destruct H
    | H : False |- _ => destruct H end; try contradiction; auto.

Lemma step_sig c s l s' ev : wf c -> Core c s -> step c l s = Some (s', ev) -> sig c s s' ev.
Proof.
  intros W C H. unfold Core in C. destruct l; cbn in H.
  - destruct (stk s) as [|k t] eqn:Es; [discriminate|].
    assert (M : main k = true -> t = []) by (intros M; now apply (main_top _ _ _ _ _ _ _ _ _ _ M C)).
    assert (OTH : forall ns, stk s' = ns ++ t -> canc s' = canc s ->
       (forall i, running s' i = running s i) -> (forall i, entering s' i = true -> entering s i = true) ->
       (forall i, pre (ph s' i) = pre (ph s i)) -> (forall i, ph s' i = Parked <-> ph s i = Parked) ->
       (forall q, match q with KEmit _ | KFwd _ _ => True | _ => False end -> In q ns -> False) ->
       match k with KEmit _ | KFwd _ _ => False | _ => True end ->
       silent ev = true -> sig c s s' ev).
    { intros ns Q1 Q2 Q3 Q4 Q5 Q6 Q7 Q8 Q9. apply sg_other; auto.
      intros q Hq. rewrite Es, Q1, in_app_iff. cbn. split.
      - intros [Z|Z]; [elim (Q7 q Hq Z)|auto].
      - intros [<-|Z]; [destruct k; contradiction|auto]. }
    assert (SAME : forall ns, stk s' = ns ++ t -> canc s' = canc s -> ph s' = ph s ->
       (forall q, match q with KEmit _ | KFwd _ _ => True | _ => False end -> In q ns -> False) ->
       match k with KEmit _ | KFwd _ _ => False | _ => True end ->
       silent ev = true -> sig c s s' ev).
    { intros ns Q1 Q2 Q3 Q4 Q5 Q6. eapply OTH with (ns := ns); auto; unfold running, entering; rewrite ?Q3; auto. tauto. }
    assert (NI : forall q, match q with KEmit _ | KFwd _ _ => True | _ => False end ->
       forall ns : list item, forallb (fun k => match k with KEmit _ | KFwd _ _ => false | _ => true end) ns = true -> In q ns -> False).
    { intros q Hq ns Hn Hi. rewrite forallb_forall in Hn. specialize (Hn q Hi). destruct q; try contradiction; discriminate. }
    destruct k; try (rewrite (M eq_refl) in *; clear M); cbn in H.
    + inj H. eapply (SAME []); cbn; auto.
    + destruct (todo s) as [|i l] eqn:Et.
      * destruct (lastf s); inj H; [eapply (SAME [KResume])|eapply (SAME [])]; cbn; eauto.
        intros q Hq [<-|[]]; contradiction.
      * destruct (core_create c _ _ _ _ _ _ _ KRdy i l (KRdyChk i) W (or_introl (conj eq_refl eq_refl)) eq_refl C) as [Hi _].
        inj H. eapply (OTH [KUser; KBeg i; KRdyChk i]); unfold create, running, entering; destruct (is_race c); cbn; auto;
          try (intros j; unfold upd; destruct (Nat.eqb_spec j i); subst; rewrite ?Hi; auto; try tauto; try discriminate; split; discriminate);
          intros q Hq [<-|[<-|[<-|[]]]]; contradiction.
    + assert (Q : silent (match lastf (set_stk [] s) with Some j => [EFree j] | None => [] end : list event) = true)
        by (cbn; destruct (lastf s); auto). cbn in Q.
      destruct (gone (set_stk [] s) i); [destruct (knd c)|]; inj H; 
        [eapply (SAME [KRdy])|eapply (SAME [KRdy])|eapply (SAME [KResume])|eapply (SAME [KGo i])]; cbn; auto; intros q Hq [<-|[]]; contradiction.
    + inj H. pose proof (c_at _ _ _ _ _ _ _ _ _ C (KGo i) (or_introl eq_refl)) as Hat. cbn in Hat.
      eapply sg_go; cbn; eauto.
    + unfold settle in H. destruct (entering (set_stk [] s) i) eqn:En.
      * unfold entering in En. cbn in En. destruct (ph s i) eqn:Ep; try discriminate En.
        assert (P : forall ns, ph s' = upd (ph s) i Susp -> stk s' = ns ++ [] -> canc s' = canc s ->
          (forall q, match q with KEmit _ | KFwd _ _ => True | _ => False end -> In q ns -> False) -> silent ev = true -> sig c s s' ev).
        { intros ns P1 P2 P3 P4 P5. eapply (OTH ns); auto; intros j; unfold running, entering; rewrite P1; unfold upd;
            destruct (Nat.eqb_spec j i); subst; rewrite ?Ep; auto; try tauto; try discriminate. split; discriminate. }
        destruct (knd c); [| |destruct (uc (set_ph i Susp (set_stk [] s)) =? 0)]; inj H;
          [apply (P [KStart])|apply (P [KStart])|apply (P [KResume])|apply (P [KStart])]; try reflexivity; intros q Hq [<-|[]]; contradiction.
      * destruct (knd c); [| |destruct (uc (set_stk [] s) =? 0)]; inj H;
          [apply (SAME [KStart])|apply (SAME [KStart])|apply (SAME [KResume])|apply (SAME [KStart])]; try reflexivity; try exact Logic.I; intros q Hq [<-|[]]; contradiction.
    + destruct (todo s) as [|i l] eqn:Et.
      * inj H. eapply (SAME [KArm]); cbn; auto. intros q Hq [<-|[]]; contradiction.
      * destruct (core_create c _ _ _ _ _ _ _ KStart i l (KChk i) W (or_intror (conj eq_refl eq_refl)) eq_refl C) as [Hi _].
        inj H. eapply (OTH [KUser; KBeg i; KChk i]); unfold create, running, entering; destruct (is_race c); cbn; auto;
          try (intros j; unfold upd; destruct (Nat.eqb_spec j i); subst; rewrite ?Hi; auto; try tauto; try discriminate; split; discriminate);
          intros q Hq [<-|[<-|[<-|[]]]]; contradiction.
    + discriminate.
    + unfold settle in H. destruct (entering (set_stk [] s) i) eqn:En.
      * unfold entering in En. cbn in En. destruct (ph s i) eqn:Ep; try discriminate En.
        assert (P : forall ns, ph s' = upd (ph s) i Susp -> stk s' = ns ++ [] -> canc s' = canc s ->
          (forall q, match q with KEmit _ | KFwd _ _ => True | _ => False end -> In q ns -> False) -> silent ev = true -> sig c s s' ev).
        { intros ns P1 P2 P3 P4 P5. eapply (OTH ns); auto; intros j; unfold running, entering; rewrite P1; unfold upd;
            destruct (Nat.eqb_spec j i); subst; rewrite ?Ep; auto; try tauto; try discriminate. split; discriminate. }
        destruct (knd c); [| |destruct (gone (set_ph i Susp (set_stk [] s)) i)]; inj H;
          [apply (P [KStart])|apply (P [KStart])|apply (P [KArm])|apply (P [KStart])]; try reflexivity; intros q Hq [<-|[]]; contradiction.
      * destruct (knd c); [| |destruct (gone (set_stk [] s) i)]; inj H;
          [apply (SAME [KStart])|apply (SAME [KStart])|apply (SAME [KArm])|apply (SAME [KStart])]; try reflexivity; try exact Logic.I; intros q Hq [<-|[]]; contradiction.
    + destruct (knd c) eqn:K; try (destruct (err s) eqn:Ee); inj H;
        try solve [eapply (SAME [KArm2]); cbn; try reflexivity; try exact Logic.I; intros q Hq [<-|[]]; contradiction].
      eapply sg_arm; cbn; auto; [congruence|now rewrite app_nil_r].
    + destruct (uc s =? 0); inj H; [eapply (SAME [KResume])|eapply (SAME [])]; cbn; auto. intros q Hq [<-|[]]; contradiction.
    + inj H. eapply (SAME [KUser]); cbn; auto. intros q Hq [<-|[]]; contradiction.
    + inj H. eapply (SAME []); cbn; auto. destruct (lastf s); reflexivity.
    + destruct (fin s); [|destruct (work s i && intr c i)]; inj H;
        [eapply (SAME [])|eapply (SAME [KUser])|eapply (SAME [])]; cbn; auto; intros q Hq [<-|[]]; contradiction.
    + destruct (fin s); [|destruct (intr c i && _)]; inj H;
        [eapply (SAME [])|eapply (SAME [KUser])|eapply (SAME [])]; cbn; auto; intros q Hq [<-|[]]; contradiction.
    + destruct (fin s) eqn:Ef; [|destruct (canc s i) eqn:Ec].
      * inj H. eapply sg_skip; cbn; eauto.
      * unfold emit in H. change (running (set_canc i false (set_stk t s)) i) with (running s i) in H.
        change (entering (set_canc i false (set_stk t s)) i) with (entering s i) in H.
        destruct (running s i) eqn:Er; inj H; eapply sg_emit; cbn; eauto.
      * inj H. eapply sg_skip; cbn; eauto.
    + destruct (fin s) eqn:Ef.
      * inj H. eapply sg_fwdskip; cbn; eauto.
      * destruct (match knd c with Gather => true | _ => canc s i end) eqn:Eg.
        -- unfold emit in H. change (running (set_stk t s) i) with (running s i) in H.
           change (entering (set_stk t s) i) with (entering s i) in H.
           destruct (running s i) eqn:Er; inj H; eapply sg_fwd; cbn; eauto. left. split; auto. split; auto.
           unfold is_race. destruct (knd c); auto. intros [|]; discriminate.
        -- inj H. eapply sg_fwd; cbn; eauto. right. split; auto. right. destruct (knd c); [discriminate|..]; split; auto; discriminate.
    + inj H. eapply (SAME []); cbn; auto.
    + inj H. eapply (SAME []); cbn; auto.
    + assert (Hp : ph s i = Ending).
      { pose proof (c_end _ _ _ _ _ _ _ _ _ C i) as H0. rewrite cnt_cons in H0. cbn in H0.
        rewrite Nat.eqb_refl in H0. destruct (ph s i); cbn in H0; auto; discriminate. }
      assert (P : forall ns, ph s' = upd (ph s) i Gone -> stk s' = ns ++ t -> canc s' = canc s ->
          (forall q, match q with KEmit _ | KFwd _ _ => True | _ => False end -> In q ns -> False) -> silent ev = true -> sig c s s' ev).
      { intros ns P1 P2 P3 P4 P5. eapply (OTH ns); auto; intros j; unfold running, entering; rewrite P1; unfold upd;
            destruct (Nat.eqb_spec j i); subst; rewrite ?Hp; auto; try tauto; try discriminate. split; discriminate. }
      destruct (uc s =? 1); [destruct (coro s)|]; inj H; [eapply (P [KResume])|eapply (P [])|eapply (P [])]; cbn; auto.
      intros q Hq [<-|[]]; contradiction.
  - destruct (stk s) as [|[] t] eqn:Es; try discriminate. injection H as H.
    assert (Hp : ph s i = Starting).
    { pose proof (c_beg _ _ _ _ _ _ _ _ _ C i) as H0. rewrite cnt_cons in H0. cbn in H0.
      rewrite Nat.eqb_refl in H0. destruct (ph s i); cbn in H0; auto; discriminate. }
    destruct b as [x|e|]; cbn in H.
    + inj H. destruct (finish_sig c i true x (set_stk t s)) as (ns & Q1 & Q2 & Q3 & Q4 & Q5 & Q6 & Q7 & Q8 & Q9).
      eapply sg_done with (ns := ns); eauto.
    + inj H. destruct (finish_sig c i true (CThrow e) (set_stk t s)) as (ns & Q1 & Q2 & Q3 & Q4 & Q5 & Q6 & Q7 & Q8 & Q9).
      eapply sg_done with (ns := ns); eauto.
    + destruct (wired s) eqn:Ew; destruct (knd c) eqn:K; cbn in H; rewrite Ew in H; inj H;
        eapply sg_park; cbn; eauto; rewrite ?K; try (intros Z; now elim Z); auto.
  - destruct (user s && running s i) eqn:Eu; [|discriminate]. inj H. apply andb_prop in Eu as [U R].
    destruct (finish_sig c i false x s) as (ns & Q1 & Q2 & Q3 & Q4 & Q5 & Q6 & Q7 & Q8 & Q9).
    eapply sg_done with (ns := ns); eauto.
  - destruct (user s) eqn:U; [|discriminate]. unfold transact in H.
    destruct (is_race c && running s i) eqn:Er; [|discriminate]. apply andb_prop in Er as [R Er].
    unfold is_race in R. destruct (knd c) eqn:K; try discriminate R.
    destruct (idx s) eqn:Ei; inj H.
    + apply sg_other; auto; intros; tauto.
    + eapply sg_tx with (ns := cancel_all c); auto.
      * intros j. apply in_emit.
      * intros j Q. apply in_cancel_all in Q as (a & [[Q _]|Q]); discriminate.
      * intros j u Q. apply in_cancel_all in Q as (a & [[Q _]|Q]); discriminate.
  - destruct (user s && armed s) eqn:Eu; [|discriminate]. apply andb_prop in Eu as [U _].
    destruct (fin s) eqn:Ef; inj H; eapply sg_cancel; eauto; reflexivity.
  - destruct (user s && coro s) eqn:Eu; [|discriminate]. apply andb_prop in Eu as [U _]. inj H.
    apply sg_other; auto; [intros; tauto|]. intros q Hq. cbn. rewrite in_app_iff. split; auto.
    intros [Z|]; auto. apply in_map_iff in Z as (j & <- & _). destruct (is_race c); contradiction.
Qed.
End Signal.
