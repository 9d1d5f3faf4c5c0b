(** * Proofs about the small-buffer resource *)
From Coq Require Import ZArith List Bool Lia Permutation.
From Verif Require Import Sbo_Model Sbo_Spec.
Import ListNotations.
Open Scope Z_scope.

Section Proofs.
Variables (A buf n : Z).
Hypothesis HA : 0 < A.
Hypothesis Hn : 0 <= n < 2 ^ 64.
Hypothesis HA64 : A < 2 ^ 64.

(** the request is small enough for rounding it up not to wrap *)
Definition small (sz : Z) : Prop := 0 <= sz /\ sz + A < 2 ^ 64.

Lemma align_up_spec : forall sz, small sz ->
  sz <= align_up A sz < sz + A /\ align_up A sz mod A = 0.
Proof.
  intros sz [P B]. unfold align_up, wrap.
  pose proof (Z.mod_pos_bound sz A HA) as M.
  pose proof (Z.div_mod sz A ltac:(lia)) as D.
  destruct (0 <? sz mod A) eqn:E.
  - apply Z.ltb_lt in E.
    rewrite (Z.mod_small (sz + A)) by lia.
    rewrite (Z.mod_small (sz + A - sz mod A)) by lia.
    split; [lia|].
    replace (sz + A - sz mod A) with ((sz / A + 1) * A) by nia.
    apply Z.mod_mul; lia.
  - apply Z.ltb_ge in E. split; [lia|]. lia.
Qed.

Lemma align_up_0 : align_up A 0 = 0.
Proof. unfold align_up. rewrite Zmod_0_l. reflexivity. Qed.

Definition sz' (b : block) : Z := align_up A (bsize b).

Fixpoint used (lv : list (block * origin)) : Z :=
  match lv with
  | [] => 0
  | (b, o) :: r => (if o then 0 else sz' b) + used r
  end.

Record INV (s : state) (lv : list (block * origin)) : Prop := mkINV
  { I_lo : buf <= bp s;
    I_hi : 0 < size s -> bp s + size s <= buf + n;
    I_sz : size s < 2 ^ 64;
    I_av : 0 <= avail s <= size s;
    I_al : bp s mod A = 0;
    I_sum : used lv = size s - avail s;
    I_small : Forall (fun bo => small (bsize (fst bo))) lv;
    I_in : Forall (fun bo => snd bo = false -> 0 < bsize (fst bo) ->
             bp s <= baddr (fst bo) /\ baddr (fst bo) + sz' (fst bo) <= bp s + size s) lv;
    I_top : fragmented s = false ->
            Forall (fun bo => snd bo = false -> 0 < bsize (fst bo) ->
              baddr (fst bo) + sz' (fst bo) <= bp s + size s - avail s) lv;
    I_out : Forall (fun bo => snd bo = true -> 0 < bsize (fst bo) ->
              baddr (fst bo) + bsize (fst bo) <= buf \/ buf + n <= baddr (fst bo) \/ n = 0) lv;
    I_pair : ForallOrdPairs (fun a b =>
       (snd a = true -> snd b = true -> disjoint (fst a) (fst b)) /\
       (snd a = false -> snd b = false -> 0 < bsize (fst a) -> 0 < bsize (fst b) ->
          baddr (fst a) + sz' (fst a) <= baddr (fst b) \/ baddr (fst b) + sz' (fst b) <= baddr (fst a))) lv;
    I_frag : fragmented s = true -> avail s <> size s }.

Lemma used_nonneg : forall lv, Forall (fun bo => small (bsize (fst bo))) lv -> 0 <= used lv.
Proof.
  induction 1 as [|[b o] r H _ IH]; cbn; [lia|].
  pose proof (align_up_spec _ H) as [K _]. destruct H. unfold sz'. destruct o; cbn in *; lia.
Qed.

Lemma used_mod : forall lv, Forall (fun bo => small (bsize (fst bo))) lv -> used lv mod A = 0.
Proof.
  induction 1 as [|[b o] r H _ IH]; cbn [used]; [apply Zmod_0_l|].
  pose proof (align_up_spec _ H) as [_ K]. unfold sz'. destruct o; cbn in *; [exact IH|].
  rewrite Z.add_mod, K, IH by lia. reflexivity.
Qed.

Lemma used_ge : forall lv b, Forall (fun bo => small (bsize (fst bo))) lv ->
  In (b, false) lv -> sz' b <= used lv.
Proof.
  induction lv as [|[c o] r IH]; intros b F I; [destruct I|].
  inversion F as [|? ? F1 F2]; subst. pose proof (used_nonneg _ F2) as N.
  destruct I as [E|I]; cbn.
  - injection E as -> ->. lia.
  - specialize (IH _ F2 I). pose proof (align_up_spec _ F1) as [K _]. destruct F1.
    unfold sz' in *. destruct o; cbn in *; lia.
Qed.

Definition same (b c : block) : bool :=
  (baddr b =? baddr c) && (bsize b =? bsize c) && (balign b =? balign c).

Lemma same_eq : forall b c, same b c = true <-> b = c.
Proof.
  intros [a1 s1 l1] [a2 s2 l2]. unfold same. cbn.
  rewrite !andb_true_iff, !Z.eqb_eq. split; [intros [[-> ->] ->]; reflexivity|].
  intros E; injection E; auto.
Qed.

(** Removing a block that is there takes out one entry for it. *)
Lemma remove_split : forall lv b o, In (b, o) lv ->
  exists l1 o' l2, lv = l1 ++ (b, o') :: l2 /\ remove_block b lv = l1 ++ l2.
Proof.
  induction lv as [|[c oc] r IH]; intros b o I; [destruct I|].
  cbn. fold (same b c). destruct (same b c) eqn:E.
  - apply same_eq in E. subst c. exists [], oc, r. auto.
  - destruct I as [K|I].
    + injection K as -> ->. assert (same b b = true) by (apply same_eq; reflexivity). congruence.
    + destruct (IH _ _ I) as (l1 & o' & l2 & -> & ->). exists ((c, oc) :: l1), o', l2. auto.
Qed.

Lemma used_app : forall a b, used (a ++ b) = used a + used b.
Proof. induction a as [|[c o] r IH]; intros; cbn; [|rewrite IH]; lia. Qed.

Lemma fop_remove : forall (P : block * origin -> block * origin -> Prop) l1 x l2,
  ForallOrdPairs P (l1 ++ x :: l2) -> ForallOrdPairs P (l1 ++ l2).
Proof.
  induction l1 as [|y l1 IH]; cbn; intros x l2 H; inversion H as [|? ? F G]; subst; auto.
  constructor; [|eapply IH; eauto].
  apply Forall_app in F as [F1 F2]. inversion F2; subst. apply Forall_app; auto.
Qed.

Lemma fop_mid : forall (P : block * origin -> block * origin -> Prop) l1 x l2,
  ForallOrdPairs P (l1 ++ x :: l2) -> Forall (fun y => P y x) l1 /\ Forall (P x) l2.
Proof.
  induction l1 as [|y l1 IH]; cbn; intros x l2 H; inversion H as [|? ? F G]; subst; auto.
  destruct (IH _ _ G) as [K1 K2]. split; auto. constructor; auto.
  apply Forall_app in F as [_ F2]. inversion F2; auto.
Qed.

Lemma forall_remove : forall (P : block * origin -> Prop) l1 x l2,
  Forall P (l1 ++ x :: l2) -> Forall P (l1 ++ l2) /\ P x.
Proof.
  intros P l1 x l2 H. apply Forall_app in H as [H1 H2]. inversion H2; subst.
  split; [apply Forall_app|]; auto.
Qed.

Lemma make_INV : INV (make A buf n) [].
Proof.
  unfold make. pose proof (Z.mod_pos_bound buf A HA) as M.
  pose proof (Z.div_mod buf A ltac:(lia)) as D.
  destruct (0 <? buf mod A) eqn:E; [apply Z.ltb_lt in E|apply Z.ltb_ge in E].
  - assert (Q : (buf + (A - buf mod A)) mod A = 0).
    { replace (buf + (A - buf mod A)) with ((buf / A + 1) * A) by nia. apply Z.mod_mul; lia. }
    destruct (n <=? A - buf mod A) eqn:F; [apply Z.leb_le in F|apply Z.leb_gt in F];
      constructor; cbn; try lia; try constructor; try discriminate; auto.
  - constructor; cbn; try lia; try constructor; try discriminate; auto.
Qed.

Definition sane (l : label) : Prop :=
  match l with LAlloc sz _ _ => small sz | LFree _ => True end.

Lemma alloc_addr_mod : forall s lv, INV s lv -> (bp s + size s - avail s) mod A = 0.
Proof.
  intros s lv I. replace (bp s + size s - avail s) with (bp s + used lv) by (rewrite (I_sum _ _ I); lia).
  rewrite Z.add_mod, (I_al _ _ I), (used_mod _ (I_small _ _ I)) by lia. reflexivity.
Qed.

Lemma step_INV : forall s lv l s' e, INV s lv -> label_ok buf n lv l -> sane l ->
  step A s l = (s', e) -> INV s' (upd_live lv e).
Proof.
  intros s lv [sz al u|b] s' e I L SN S; cbn in S.
  - unfold do_allocate in S. cbn in L, SN. destruct L as (Z0 & Z1 & D & F).
    pose proof (align_up_spec _ SN) as [AU AM].
    destruct ((align_up A sz <=? avail s) && negb (fragmented s)) eqn:G.
    + injection S as <- <-. rewrite andb_true_iff, Z.leb_le, negb_true_iff in G. destruct G as [G FR].
      destruct I as [Ilo Ihi Isz Iav Ial Isum Ism Iin Itop Iout Ipair Ifrag].
      specialize (Itop FR).
      assert (W : wrap (avail s - align_up A sz) = avail s - align_up A sz).
      { unfold wrap. apply Z.mod_small. lia. }
      cbn. constructor; cbn; rewrite ?W; auto; try lia.
      * unfold sz'; cbn. lia.
      * constructor; auto. intros _ _. cbn. unfold sz'; cbn. lia.
      * intros _. constructor.
        -- intros _ _. cbn. unfold sz'; cbn. lia.
        -- eapply Forall_impl; [|exact Itop]. cbn. intros [c o] H X Y. specialize (H X Y). cbn in *. lia.
      * constructor; auto. discriminate.
      * constructor; auto. rewrite Forall_forall in *. intros [c o] K. split; [discriminate|].
        intros _ E P P2. cbn in E, P, P2. subst o. specialize (Itop _ K eq_refl P2). cbn in *. lia.
      * congruence.
    + injection S as <- <-. cbn.
      destruct I as [Ilo Ihi Isz Iav Ial Isum Ism Iin Itop Iout Ipair Ifrag].
      constructor; auto.
      * constructor; auto. discriminate.
      * intros X. constructor; auto. discriminate.
      * constructor; auto. intros _ P. cbn in *.
        destruct (Z_le_dec (u + sz) buf); [auto|]. right.
        destruct (Z_le_dec (buf + n) u); [auto|]. right.
        destruct (Z.eq_dec n 0); [auto|exfalso].
        apply (D (Z.max u buf)). unfold contains; cbn. lia.
      * constructor; auto. rewrite Forall_forall in *. intros [c o] K. split; [|discriminate].
        intros _ E. cbn in E. subst o. exact (F _ K eq_refl).
  - cbn in L. destruct L as [o L].
    destruct (remove_split _ _ _ L) as (l1 & o' & l2 & -> & R).
    unfold do_deallocate in S.
    destruct I as [Ilo Ihi Isz Iav Ial Isum Ism Iin Itop Iout Ipair Ifrag].
    destruct (forall_remove _ _ _ _ Ism) as [Ism' Sb].
    destruct (forall_remove _ _ _ _ Iin) as [Iin' Inb].
    destruct (forall_remove _ _ _ _ Iout) as [Iout' Outb].
    destruct (fop_mid _ _ _ _ Ipair) as [Pl Pr].
    pose proof (fop_remove _ _ _ _ Ipair) as Ipair'.
    pose proof (align_up_spec _ Sb) as [AU AM]. cbn in Sb, Inb, Outb, AU, AM.
    assert (U : used (l1 ++ l2) = size s - avail s - (if o' then 0 else sz' b)).
    { rewrite used_app in *. cbn in Isum. lia. }
    pose proof (used_nonneg _ Ism') as UN.
    destruct ((bp s <=? baddr b) && (baddr b <? bp s + size s)) eqn:G.
    + rewrite andb_true_iff, Z.leb_le, Z.ltb_lt in G. injection S as <- <-.
      cbn. rewrite R.
      assert (Q : (if o' then 0 else sz' b) = sz' b).
      { destruct o'; auto. unfold sz'. destruct (Z.eq_dec (bsize b) 0) as [Z|Z].
        - rewrite Z, align_up_0. auto.
        - destruct Sb. specialize (Outb eq_refl ltac:(lia)). assert (0 < size s) by lia. specialize (Ihi H1). lia. }
      rewrite Q in U. fold (sz' b) in AU, AM |- *.
      assert (W : wrap (avail s + sz' b) = avail s + sz' b).
      { unfold wrap. apply Z.mod_small. unfold small in Sb. lia. }
      constructor; cbn; rewrite ?W; auto; try (unfold small in Sb; lia).
      * destruct (avail s + sz' b =? size s) eqn:EQ; [intros _|].
        -- (* everything used has been returned *)
           apply Z.eqb_eq in EQ. assert (U0 : used (l1 ++ l2) = 0) by lia.
           apply Forall_forall. intros [c oc] K E P. cbn in E, P. subst oc. exfalso.
           pose proof (used_ge _ _ Ism' K) as GE.
           pose proof (proj1 (Forall_forall _ _) Ism' _ K) as SC. cbn in SC.
           pose proof (align_up_spec _ SC) as [AC _]. unfold sz' in GE. lia.
        -- destruct (bp s + size s - avail s =? baddr b + sz' b) eqn:TOP; cbn; [|discriminate].
           apply Z.eqb_eq in TOP. intros FR. specialize (Itop FR).
           destruct (forall_remove _ _ _ _ Itop) as [Itop' _].
           rewrite Forall_forall in *. intros [c oc] K E P. cbn in E, P. subst oc.
           pose proof (Itop' _ K eq_refl P) as T. cbn in T. cbn.
           destruct (Z.eq_dec (bsize b) 0) as [Z|Z].
           { unfold sz' at 2. rewrite Z, align_up_0. lia. }
           destruct o'.
           { destruct Sb. specialize (Outb eq_refl ltac:(lia)). assert (0 < size s) by lia.
             specialize (Ihi H1). lia. }
           assert (PB : 0 < bsize b) by (unfold small in Sb; lia).
           assert (PC : baddr c + sz' c <= baddr b \/ baddr b + sz' b <= baddr c).
           { apply in_app_or in K. destruct K as [K|K].
             - destruct (Pl _ K) as [_ X]. cbn in X. exact (X eq_refl eq_refl P PB).
             - destruct (Pr _ K) as [_ X]. cbn in X. destruct (X eq_refl eq_refl PB P); auto. }
           pose proof (Ism' _ K) as SC. cbn in SC.
           pose proof (align_up_spec _ SC) as [AC _]. unfold sz' in *. lia.
      * destruct (avail s + sz' b =? size s) eqn:EQ; [discriminate|].
        intros _. apply Z.eqb_neq in EQ. exact EQ.
    + injection S as <- <-. cbn. rewrite R.
      assert (Q : (if o' then 0 else sz' b) = 0).
      { destruct o'; auto. unfold sz'. destruct (Z.eq_dec (bsize b) 0) as [Z|Z].
        - rewrite Z. apply align_up_0.
        - exfalso. unfold small in Sb. specialize (Inb eq_refl ltac:(lia)).
          rewrite andb_false_iff, Z.leb_gt, Z.ltb_ge in G. unfold sz' in Inb. lia. }
      rewrite Q in U.
      constructor; auto; try lia.
      intros FR. destruct (forall_remove _ _ _ _ (Itop FR)); auto.
Qed.

(** ** Whole runs *)
Lemma run_everywhere : forall (P : list (block * origin) -> event -> Prop),
  (forall s lv l s' e, INV s lv -> label_ok buf n lv l -> sane l -> step A s l = (s', e) -> P lv e) ->
  forall ls s lv, INV s lv -> labels_ok A buf n s lv ls -> Forall sane ls ->
  everywhere P lv (snd (run A s ls)).
Proof.
  intros P HP ls. induction ls as [|l r IH]; intros s lv I L SN; cbn; auto.
  cbn in L. inversion SN as [|? ? SN1 SN2]; subst.
  destruct (step A s l) as [s' e] eqn:S. destruct L as [L1 L2].
  pose proof (step_INV _ _ _ _ _ I L1 SN1 S) as I'.
  specialize (IH s' _ I' L2 SN2). destruct (run A s' r) as [s'' tr]. cbn in *.
  split; auto. exact (HP _ _ _ _ _ I L1 SN1 S).
Qed.

Lemma run_INV : forall ls s lv, INV s lv -> labels_ok A buf n s lv ls -> Forall sane ls ->
  INV (fst (run A s ls)) (fold_left upd_live (snd (run A s ls)) lv).
Proof.
  induction ls as [|l r IH]; intros s lv I L SN; cbn; auto.
  cbn in L. inversion SN as [|? ? SN1 SN2]; subst.
  destruct (step A s l) as [s' e] eqn:S. destruct L as [L1 L2].
  pose proof (step_INV _ _ _ _ _ I L1 SN1 S) as I'.
  specialize (IH s' _ I' L2 SN2). destruct (run A s' r) as [s'' tr]. cbn in *. exact IH.
Qed.

Lemma INV_disjoint : forall s lv, INV s lv -> all_disjoint lv.
Proof.
  intros s lv I. unfold all_disjoint.
  destruct I as [Ilo Ihi Isz Iav Ial Isum Ism Iin Itop Iout Ipair Ifrag].
  clear Isum Itop. induction Ipair as [|[a oa] l F G IH]; constructor.
  - inversion Ism as [|? ? S1 S2]; inversion Iin as [|? ? N1 N2]; inversion Iout as [|? ? O1 O2]; subst.
    rewrite Forall_forall in *. intros [b ob] K.
    specialize (F _ K). specialize (S2 _ K). specialize (N2 _ K). specialize (O2 _ K).
    cbn in *. destruct F as [F1 F2].
    pose proof (align_up_spec _ S1) as [A1 _]. pose proof (align_up_spec _ S2) as [A2 _].
    unfold sz' in *.
    intros x [[X1 X2] [Y1 Y2]].
    assert (P1 : 0 < bsize a) by lia. assert (P2 : 0 < bsize b) by lia.
    destruct oa, ob.
    + apply (F1 eq_refl eq_refl x). unfold contains. lia.
    + specialize (O1 eq_refl P1). specialize (N2 eq_refl P2). lia.
    + specialize (O2 eq_refl P2). specialize (N1 eq_refl P1). lia.
    + specialize (F2 eq_refl eq_refl P1 P2). lia.
  - inversion Ism; inversion Iin; inversion Iout; subst. apply IH; auto.
Qed.

Lemma INV_owned : forall s lv, INV s lv -> all_owned buf n lv.
Proof.
  intros s lv I. unfold all_owned. pose proof (I_in _ _ I) as Iin. pose proof (I_small _ _ I) as Ism.
  rewrite Forall_forall in *. intros [b o] K P. cbn in *. destruct o; [auto|right].
  specialize (Iin _ K). cbn in Iin. specialize (Iin eq_refl P).
  specialize (Ism _ K). cbn in Ism.
  pose proof (align_up_spec _ Ism) as [A1 _]. unfold sz' in Iin. unfold inside.
  pose proof (I_lo _ _ I). pose proof (I_hi _ _ I ltac:(lia)). lia.
Qed.

Lemma alloc_from_buffer_aligned : forall s lv l s' b, INV s lv -> label_ok buf n lv l -> sane l ->
  step A s l = (s', EAlloc b []) -> baddr b mod A = 0.
Proof.
  intros s lv [sz al u|c] s' b I L SN S; cbn in S.
  - unfold do_allocate in S.
    destruct ((align_up A sz <=? avail s) && negb (fragmented s)) eqn:G; [|discriminate].
    injection S as <- <-. cbn. eapply alloc_addr_mod; eauto.
  - destruct (do_deallocate A s (baddr c) (bsize c) (balign c)); discriminate.
Qed.

Lemma free_right_step : forall s lv l s' e, INV s lv -> label_ok buf n lv l -> sane l ->
  step A s l = (s', e) ->
  (forall b ups, e = EFree b ups -> 0 < bsize b) -> freed_right lv e.
Proof.
  intros s lv [sz al u|c] s' e I L SN S P; cbn in S.
  - unfold do_allocate in S.
    destruct ((align_up A sz <=? avail s) && negb (fragmented s)) eqn:G;
      injection S as <- <-; cbn; auto.
  - unfold do_deallocate in S.
    destruct ((bp s <=? baddr c) && (baddr c <? bp s + size s)) eqn:G; injection S as <- <-;
      specialize (P _ _ eq_refl); cbn.
    + split; auto. intros K. exfalso.
      rewrite andb_true_iff, Z.leb_le, Z.ltb_lt in G.
      pose proof (proj1 (Forall_forall _ _) (I_out _ _ I) _ K eq_refl P) as O. cbn in O.
      pose proof (I_lo _ _ I). pose proof (I_hi _ _ I ltac:(lia)). lia.
    + split; auto. intros K. exfalso.
      rewrite andb_false_iff, Z.leb_gt, Z.ltb_ge in G.
      pose proof (proj1 (Forall_forall _ _) (I_in _ _ I) _ K eq_refl P) as O. cbn in O.
      pose proof (proj1 (Forall_forall _ _) (I_small _ _ I) _ K) as SM. cbn in SM.
      pose proof (align_up_spec _ SM) as [A1 _]. unfold sz' in O. lia.
Qed.

(** After everything has been returned the whole buffer can be used again. *)
Lemma reuse : forall s sz al u, INV s [] -> small sz -> align_up A sz <= size s ->
  exists s', step A s (LAlloc sz al u) = (s', EAlloc (mkb (bp s) sz al) []).
Proof.
  intros s sz al u I SM F. pose proof (I_sum _ _ I) as Q. cbn in Q.
  assert (FR : fragmented s = false).
  { destruct (fragmented s) eqn:E; auto. pose proof (I_frag _ _ I E). lia. }
  cbn. unfold do_allocate. rewrite FR.
  replace (align_up A sz <=? avail s) with true by (symmetry; apply Z.leb_le; lia).
  cbn. eexists. f_equal. f_equal. f_equal. lia.
Qed.

End Proofs.

(** ** The statements used by the property file *)
Definition sizes_ok (A : Z) (ls : list label) : Prop :=
  Forall (fun l => match l with LAlloc sz _ _ => sz + A < 2 ^ 64 | LFree _ => True end) ls.

Lemma sane_of : forall A buf n ls s lv, sizes_ok A ls -> labels_ok A buf n s lv ls -> Forall (sane A) ls.
Proof.
  intros A buf n. induction ls as [|l r IH]; intros s lv F L; constructor; inversion F; subst; cbn in L;
    destruct (step A s l) as [s' e]; destruct L as [L1 L2].
  - destruct l; cbn in *; auto. unfold small. intuition.
  - eapply IH; eauto.
Qed.

Theorem live_disjoint_owned : forall A buf n ls,
  0 < A < 2 ^ 64 -> 0 <= n < 2 ^ 64 ->
  labels_ok A buf n (make A buf n) [] ls -> sizes_ok A ls ->
  let tr := snd (run A (make A buf n) ls) in
  all_disjoint (live tr) /\ all_owned buf n (live tr).
Proof.
  intros A buf n ls HA Hn L F tr.
  pose proof (run_INV A buf n ltac:(lia) Hn ls (make A buf n) []
                (make_INV A buf n ltac:(lia) Hn) L (sane_of _ _ _ _ _ _ F L)) as I.
  split; [eapply INV_disjoint|eapply INV_owned]; try exact I; lia.
Qed.

Theorem returned_to_origin : forall A buf n ls,
  0 < A < 2 ^ 64 -> 0 <= n < 2 ^ 64 ->
  labels_ok A buf n (make A buf n) [] ls -> sizes_ok A ls ->
  everywhere (fun lv e =>
     ((forall b ups, e = EFree b ups -> 0 < bsize b) -> freed_right lv e) /\
     (forall b, e = EAlloc b [] -> (balign b | A) -> (balign b | baddr b)))
   [] (snd (run A (make A buf n) ls)).
Proof.
  intros A buf n ls HA Hn L F.
  apply (run_everywhere A buf n ltac:(lia) Hn); auto.
  - intros s lv l s' e I LO SN S. split.
    + eapply free_right_step; eauto; lia.
    + intros b -> D. pose proof (alloc_from_buffer_aligned A buf n ltac:(lia) _ _ _ _ _ I LO SN S) as M.
      apply Z.mod_divide in M; [|lia]. eapply Z.divide_trans; eauto.
  - exact (make_INV A buf n ltac:(lia) Hn).
  - eapply sane_of; eauto.
Qed.

Theorem buffer_reused : forall A buf n ls sz al u,
  0 < A < 2 ^ 64 -> 0 <= n < 2 ^ 64 ->
  labels_ok A buf n (make A buf n) [] ls -> sizes_ok A ls ->
  live (snd (run A (make A buf n) ls)) = [] ->
  0 <= sz -> sz + 2 * A <= n ->
  exists s' p, step A (fst (run A (make A buf n) ls)) (LAlloc sz al u) = (s', EAlloc (mkb p sz al) []) /\
            inside buf n (mkb p sz al).
Proof.
  intros A buf n ls sz al u HA Hn L F E S0 S1.
  pose proof (run_INV A buf n ltac:(lia) Hn ls (make A buf n) []
                (make_INV A buf n ltac:(lia) Hn) L (sane_of _ _ _ _ _ _ F L)) as I.
  unfold live in E. rewrite E in I.
  set (s := fst (run A (make A buf n) ls)) in *.
  assert (SM : small A sz) by (unfold small; lia).
  assert (K : bp s = bp (make A buf n) /\ size s = size (make A buf n)).
  { subst s. clear. generalize (make A buf n). induction ls as [|l r IH]; intros s0; cbn; auto.
    destruct (step A s0 l) as [s1 e] eqn:S. specialize (IH s1). destruct (run A s1 r). cbn in *.
    destruct IH as [-> ->]. destruct l; cbn in S.
    - unfold do_allocate in S. destruct ((align_up A sz <=? avail s0) && negb (fragmented s0)); injection S as <- <-; auto.
    - unfold do_deallocate in S. destruct ((bp s0 <=? baddr b) && (baddr b <? bp s0 + size s0)); injection S as <- <-; auto. }
  destruct K as [K1 K2].
  pose proof (Z.mod_pos_bound buf A ltac:(lia)) as M.
  assert (Z : buf <= bp s /\ sz + A <= size s /\ bp s + size s = buf + n).
  { rewrite K1, K2. unfold make. destruct (0 <? buf mod A) eqn:G; [|cbn; lia].
    apply Z.ltb_lt in G.
    destruct (n <=? A - buf mod A) eqn:G2; [apply Z.leb_le in G2|apply Z.leb_gt in G2]; cbn; lia. }
  pose proof (align_up_spec A ltac:(lia) _ SM) as [AU _].
  destruct (reuse A buf n s sz al u I SM ltac:(lia)) as [s' R].
  exists s', (bp s). split; auto. unfold inside. cbn. lia.
Qed.
