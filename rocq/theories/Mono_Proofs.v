(** * Proofs about the monotonic resource *)
From Coq Require Import ZArith List Bool Lia.
From Verif Require Import Mono_Model Mono_Spec.
Import ListNotations.
Open Scope Z_scope.

#[local] Arguments Z.modulo : simpl never.
#[local] Arguments Z.max : simpl never.
#[local] Arguments Z.add : simpl never.
#[local] Arguments Z.sub : simpl never.
#[local] Arguments Z.pow : simpl never.

(** ** Spaces: the initial buffer and the chunks; the head is the last one *)
Definition spaces (s : state) : list blk := base s :: chunks s.

Lemma spaces_split : forall s, exists l, spaces s = l ++ [head s] /\
  (forall b, spaces (set_head s b) = l ++ [b]) /\
  (forall b, chunk_size (set_head s b) = chunk_size s).
Proof.
  intros [b0 cs c]. unfold spaces, head, set_head. cbn.
  destruct cs as [|k cs] using rev_ind.
  - exists []. auto.
  - rewrite last_last, rev_app_distr. cbn. exists (b0 :: cs). cbn. rewrite rev_involutive. auto.
Qed.

(** [full k] is the extent of the memory behind a space. *)
Definition rg (k : blk) : region := mkr (p k) (bsz k + sizeof_block) (aligned k).

Section Proofs.
Variables (buf n cs : Z).

Record INV (s : state) (w : world) : Prop := mkINV
  { I_cs : chunk_size s = cs;
    I_base : p (base s) = buf /\ bsz (base s) = n;
    I_av : Forall (fun k => 0 <= avail k <= bsz k) (spaces s);
    I_reg : regions w = map rg (chunks s);
    I_sz : Forall (fun k => bsz k + sizeof_block < 2 ^ 64) (chunks s);
    I_ap0 : Forall (fun k => apart (p k) (bsz k + sizeof_block) buf n) (chunks s);
    I_ap : ForallOrdPairs (fun k j => apart (p j) (bsz j + sizeof_block) (p k) (bsz k + sizeof_block)) (chunks s);
    I_blk : Forall (fun b => 0 <= bsize b /\ Exists (fun k => p k <= baddr b /\ baddr b + bsize b <= p k + bsz k - avail k)
               (spaces s)) (blocks w);
    I_dis : blocks_disjoint w }.

Lemma apart_sym : forall a i b j, apart a i b j -> apart b j a i.
Proof. intros a i b j H x [X Y]. exact (H x (conj Y X)). Qed.

(** no byte of an earlier space is a byte of the head *)
Lemma earlier_apart : forall s w l, INV s w -> spaces s = l ++ [head s] ->
  forall k, In k l -> apart (p k) (bsz k) (p (head s)) (bsz (head s)).
Proof.
  intros s w l I E k K x [X Y]. unfold within in *.
  pose proof (I_base _ _ I) as [B1 B2]. pose proof (I_ap0 _ _ I) as A0. pose proof (I_ap _ _ I) as A.
  unfold spaces in E. destruct l as [|k0 l]; [destruct K|].
  cbn in E. injection E as E1 E2. subst k0. rewrite E2 in A, A0.
  apply Forall_app in A0 as [_ A0]. inversion A0 as [|? ? H0 _]; subst.
  assert (S40 : sizeof_block = 40) by reflexivity.
  destruct K as [<-|K].
  - apply (H0 x). unfold within. lia.
  - assert (G : apart (p (head s)) (bsz (head s) + sizeof_block) (p k) (bsz k + sizeof_block)).
    { clear - A K. induction l as [|j l IH]; [destruct K|]. inversion A as [|? ? F G]; subst.
      destruct K as [->|K]; auto. rewrite Forall_forall in F. apply F. apply in_or_app; right; left; auto. }
    apply (G x). unfold within. lia.
Qed.

Lemma fop_snoc : forall (T : Type) (R : T -> T -> Prop) l x,
  ForallOrdPairs R l -> Forall (fun y => R y x) l -> ForallOrdPairs R (l ++ [x]).
Proof.
  induction l as [|y l IH]; intros x F G; cbn; [repeat constructor|].
  inversion F; inversion G; subst. constructor; auto. apply Forall_app; auto.
Qed.

Lemma wrap_small : forall z, 0 <= z < 2 ^ 64 -> wrap z = z.
Proof. intros. unfold wrap. apply Z.mod_small; auto. Qed.

Lemma step_INV : forall s w l s' es, INV s w -> label_sane cs l -> 0 <= cs -> step s l = (s', es) ->
  everywhere (event_ok buf n) w es ->
  INV s' (after w es) /\ everywhere frees_ok w es /\
  (forall b r, In (EAlloc b r) es -> match r with Some _ => True | None => 0 < avail (head s) end).
Proof.
  intros s w [size al mem| |] s' es I SN C0 S E; cbn in S.
  - unfold allocate in S. cbn in SN. destruct SN as (S0 & S1 & S2).
    unfold alignof_block in *. set (align := Z.max al 8) in *.
    assert (AL : 8 <= align) by (subst align; lia).
    pose proof (Z.mod_pos_bound size align ltac:(lia)) as M.
    rewrite (wrap_small (size + (align - size mod align))) in S by lia.
    destruct (spaces_split s) as (l & SP & SH & SC).
    pose proof (I_av _ _ I) as AV. rewrite SP in AV. apply Forall_app in AV as [AVl AVh].
    inversion AVh as [|? ? AH _]; subst.
    destruct (size + (align - size mod align) <=? avail (head s)) eqn:G.
    + apply Z.leb_le in G. injection S as <- <-. cbn [after fold_left upd].
      set (h' := mkblk (p (head s)) (avail (head s) - (size + (align - size mod align))) (bsz (head s)) (aligned (head s)) (loc (head s))).
      assert (MAPS : base (set_head s h') = (if match chunks s with [] => true | _ => false end then h' else base s) /\
        map rg (chunks (set_head s h')) = map rg (chunks s) /\
        map (fun k => (p k, bsz k)) (chunks (set_head s h')) = map (fun k => (p k, bsz k)) (chunks s)).
      { subst h'. clear. destruct s as [b0 ks c]. unfold set_head, head. cbn.
        destruct ks as [|k ks] using rev_ind; cbn; auto.
        rewrite rev_app_distr, last_last. cbn. rewrite rev_involutive, !map_app. cbn.
        destruct (ks ++ [k]) eqn:E; [destruct ks; discriminate|]. auto. }
      destruct MAPS as (M1 & M2 & M3).
      split; [constructor|split; [repeat constructor|]].
      * rewrite SC. apply (I_cs _ _ I).
      * pose proof (I_base _ _ I) as [B1 B2]. rewrite M1.
        destruct (chunks s) eqn:CH; cbn; auto. subst h'. unfold head. rewrite CH. cbn. auto.
      * rewrite SH. apply Forall_app. split; auto. constructor; [|constructor]. cbn. lia.
      * cbn. rewrite M2. apply (I_reg _ _ I).
      * assert (Q : Forall (fun q => snd q + sizeof_block < 2 ^ 64) (map (fun k => (p k, bsz k)) (chunks s)))
          by (apply Forall_map; apply (I_sz _ _ I)).
        rewrite <- M3 in Q. apply Forall_map in Q. exact Q.
      * assert (Q : Forall (fun q => apart (fst q) (snd q + sizeof_block) buf n) (map (fun k => (p k, bsz k)) (chunks s)))
          by (apply Forall_map; apply (I_ap0 _ _ I)).
        rewrite <- M3 in Q. apply Forall_map in Q. exact Q.
      * assert (Q : forall ks, ForallOrdPairs (fun k j => apart (p j) (bsz j + sizeof_block) (p k) (bsz k + sizeof_block)) ks <->
           ForallOrdPairs (fun k j => apart (fst j) (snd j + sizeof_block) (fst k) (snd k + sizeof_block)) (map (fun k => (p k, bsz k)) ks)).
        { clear. induction ks as [|k ks IH]; cbn; [split; constructor|].
          split; intros H; inversion H as [|? ? F G]; subst; constructor; try (apply IH; auto).
          - apply Forall_map. exact F.
          - apply Forall_map in F. exact F. }
        apply Q. rewrite M3. apply Q. apply (I_ap _ _ I).
      * cbn [blocks]. rewrite SH. constructor.
        -- split; auto. apply Exists_app. right. constructor. cbn. lia.
        -- eapply Forall_impl; [|apply (I_blk _ _ I)]. cbn. intros b [Z0 X]. split; auto. rewrite SP in X.
           apply Exists_app in X. apply Exists_app. destruct X as [X|X]; [left; auto|right].
           inversion X as [? ? X1|? ? X1]; subst; [|inversion X1]. constructor. cbn. lia.
      * constructor; [|apply (I_dis _ _ I)].
        pose proof (I_blk _ _ I) as BL. rewrite Forall_forall in *. intros b K. destruct (BL _ K) as [Z0 X].
        cbn. rewrite SP in X. apply Exists_app in X. intros x [X1 X2]. unfold within in *.
        destruct X as [X|X].
        -- apply Exists_exists in X as (k & K1 & K2).
           apply (earlier_apart _ _ _ I SP _ K1 x). unfold within.
           specialize (AVl _ K1). cbn in AVl. lia.
        -- inversion X as [? ? X3|? ? X3]; subst; [|inversion X3]. lia.
      * intros b r [X|[]]. injection X as <- <-. lia.
    + apply Z.leb_gt in G.
      assert (CS : chunk_size s = cs) by apply (I_cs _ _ I). rewrite CS in S.
      set (mem_size := Z.max cs size) in *.
      pose proof (Z.mod_pos_bound mem_size 8 ltac:(lia)) as M8.
      set (padding := if mem_size mod 8 =? 0 then 0 else 8 - mem_size mod 8) in *.
      assert (PD : 0 <= padding < 8).
      { subst padding. destruct (mem_size mod 8 =? 0) eqn:Q; [lia|]. apply Z.eqb_neq in Q. lia. }
      assert (MS : 0 <= mem_size /\ size <= mem_size /\ mem_size + align + 64 < 2 ^ 64) by (subst mem_size; lia).
      assert (S40 : sizeof_block = 40) by reflexivity.
      rewrite (wrap_small (mem_size + padding)) in S by lia.
      rewrite (wrap_small (mem_size + padding + sizeof_block)) in S by lia.
      injection S as <- <-. cbn in E. destruct E as [EO _]. destruct EO as (EO1 & EO2 & EO3).
      cbn in EO1, EO2, EO3.
      cbn [after fold_left upd].
      split; [constructor|split; [repeat constructor|]]; cbn [base chunks chunk_size regions blocks headers].
      * reflexivity.
      * apply (I_base _ _ I).
      * unfold spaces; cbn. change (base s :: chunks s ++ ?x) with (spaces s ++ x). apply Forall_app. split; [apply (I_av _ _ I)|].
        constructor; [|constructor]. cbn. lia.
      * rewrite map_app, (I_reg _ _ I). reflexivity.
      * apply Forall_app. split; [apply (I_sz _ _ I)|]. constructor; [|constructor]. cbn. lia.
      * apply Forall_app. split; [apply (I_ap0 _ _ I)|]. constructor; [|constructor]. exact EO2.
      * apply fop_snoc; [apply (I_ap _ _ I)|]. rewrite (I_reg _ _ I) in EO3. apply Forall_map in EO3. exact EO3.
      * unfold spaces; cbn [base chunks]. constructor.
        -- split; auto. change (base s :: chunks s ++ ?x) with (spaces s ++ x). apply Exists_app. right. constructor. cbn. lia.
        -- eapply Forall_impl; [|apply (I_blk _ _ I)]. cbn. intros b [Z0 X]. split; auto.
           change (base s :: chunks s ++ ?x) with (spaces s ++ x). apply Exists_app. left. exact X.
      * constructor; [|apply (I_dis _ _ I)]. cbn.
        pose proof (I_blk _ _ I) as BL. rewrite Forall_forall in *. intros b K. destruct (BL _ K) as [Z0 X].
        intros x [X1 X2]. unfold within in *. apply Exists_exists in X as (k & K1 & K2).
        pose proof (I_av _ _ I) as AV. rewrite Forall_forall in AV. specialize (AV _ K1). cbn in AV.
        destruct K1 as [<-|K1].
        -- pose proof (I_base _ _ I) as [B1 B2]. apply (EO2 x). unfold within. lia.
        -- rewrite (I_reg _ _ I) in EO3. specialize (EO3 (rg k) (in_map rg _ _ K1) x). apply EO3.
           cbn. unfold within. lia.
      * intros b r [X|[X|[]]]; [injection X as <- <-; auto|discriminate].
  - injection S as <- <-. cbn -[sizeof_block wrap free_of destroy].
    split; [constructor|split; [split; [|exact Logic.I]|]]; cbn -[sizeof_block wrap free_of]; auto.
    + apply (I_cs _ _ I).
    + apply (I_base _ _ I).
    + constructor; [|constructor]. cbn. pose proof (I_av _ _ I) as AV. inversion AV. lia.
    + constructor.
    + constructor.
    + rewrite (I_reg _ _ I). apply map_ext_in. intros k K. unfold free_of, rg. f_equal.
      pose proof (I_sz _ _ I) as Q. pose proof (I_av _ _ I) as AV. unfold spaces in AV. inversion AV as [|? ? AV0 AV1]; subst.
      rewrite Forall_forall in *. specialize (Q _ K). specialize (AV1 _ K). unfold sizeof_block in *.
      rewrite wrap_small; cbv beta in *; lia.
    + intros b r [X|[]]. discriminate.
  - injection S as <- <-. cbn -[sizeof_block wrap free_of destroy].
    split; [constructor|split; [split; [|exact Logic.I]|]]; cbn -[sizeof_block wrap free_of]; auto.
    + apply (I_cs _ _ I).
    + apply (I_base _ _ I).
    + constructor; [|constructor]. cbn. pose proof (I_av _ _ I) as AV. inversion AV. auto.
    + constructor.
    + constructor.
    + rewrite (I_reg _ _ I). unfold destroy. destruct (chunks s) eqn:CH; [reflexivity|]. rewrite <- CH.
      change (snd (release s)) with (map free_of (chunks s)). apply map_ext_in. intros k K. unfold free_of, rg. f_equal.
      pose proof (I_sz _ _ I) as Q. pose proof (I_av _ _ I) as AV. unfold spaces in AV. inversion AV as [|? ? AV0 AV1]; subst.
      rewrite Forall_forall in *. specialize (Q _ K). specialize (AV1 _ K). unfold sizeof_block in *.
      rewrite wrap_small; cbv beta in *; lia.
    + intros b r [X|[]]. discriminate.
Qed.

(** ** Headers *)
Definition HINV (s : state) (w : world) : Prop :=
  Forall (fun k => loc k = p k + bsz k) (chunks s) /\
  Forall (fun a => Exists (fun k => a = p k + bsz k) (chunks s)) (headers w).

Lemma set_head_ext : forall s h', p h' = p (head s) -> bsz h' = bsz (head s) -> loc h' = loc (head s) ->
  map (fun k => (p k, bsz k, loc k)) (chunks (set_head s h')) = map (fun k => (p k, bsz k, loc k)) (chunks s).
Proof.
  intros [b0 ks c] h'. unfold set_head, head. cbn.
  destruct ks as [|k ks] using rev_ind; cbn; auto.
  rewrite rev_app_distr, last_last. cbn. rewrite rev_involutive, !map_app. cbn. intros -> -> ->. reflexivity.
Qed.

Lemma step_HINV : forall s w l s' es, INV s w -> HINV s w -> label_sane cs l -> label_fits cs l -> 0 <= cs ->
  step s l = (s', es) -> HINV s' (after w es).
Proof.
  intros s w [size al mem| |] s' es I [H1 H2] SN FT C0 S; cbn in S.
  - unfold allocate in S. cbn in SN, FT. destruct SN as (S0 & S1 & S2).
    destruct (wrap (size + (Z.max al alignof_block - size mod Z.max al alignof_block)) <=? avail (head s)) eqn:G.
    + injection S as <- <-. cbn [after fold_left upd].
      match goal with |- HINV (set_head s ?h) _ => pose proof (set_head_ext s h eq_refl eq_refl eq_refl) as M end.
      cbn in M. split.
      * assert (Q : Forall (fun q => snd q = fst (fst q) + snd (fst q)) (map (fun k => (p k, bsz k, loc k)) (chunks s)))
          by (apply Forall_map; exact H1).
        rewrite <- M in Q. apply Forall_map in Q. exact Q.
      * cbn. eapply Forall_impl; [|exact H2]. intros a X.
        apply Exists_exists in X as (k & K & ->).
        pose proof (in_map (fun k => (p k, bsz k, loc k)) _ _ K) as Q. cbv beta in Q.
        rewrite <- M in Q. apply in_map_iff in Q as (k' & E & K'). injection E as E1 E2 E3.
        apply Exists_exists. exists k'. split; auto. lia.
    + injection S as <- <-. cbn [after fold_left upd].
      assert (CS : chunk_size s = cs) by apply (I_cs _ _ I). rewrite CS.
      unfold alignof_block in *. set (mem_size := Z.max cs size) in *.
      assert (R : forall q, wrap (mem_size + (if mem_size mod 8 =? 0 then 0 else 8 - mem_size mod 8)) + q
                 = mem_size + mem_size mod 8 + q).
      { intros q. destruct (mem_size mod 8 =? 0) eqn:Z8; [apply Z.eqb_eq in Z8|apply Z.eqb_neq in Z8];
          rewrite wrap_small; subst mem_size; lia. }
      assert (R0 := R 0). split; cbn [chunks headers].
      * apply Forall_app. split; auto. constructor; [|constructor]. cbn [loc p bsz]. lia.
      * unfold head. cbn [chunks base]. rewrite last_last. cbn [loc]. constructor.
        -- apply Exists_app. right. constructor. cbn [loc p bsz]. lia.
        -- eapply Forall_impl; [|exact H2]. intros a X. apply Exists_app. left. exact X.
  - injection S as <- <-. split; cbn; constructor.
  - injection S as <- <-. split; cbn; constructor.
Qed.

Lemma HINV_safe : forall s w, INV s w -> HINV s w -> headers_owned w /\ headers_safe w.
Proof.
  intros s w I [H1 H2]. assert (S40 : sizeof_block = 40) by reflexivity.
  pose proof (I_av _ _ I) as AV. unfold spaces in AV.
  split.
  - unfold headers_owned. rewrite (I_reg _ _ I). eapply Forall_impl; [|exact H2].
    intros a X. apply Exists_map. apply Exists_exists in X as (k & K & E). apply Exists_exists.
    exists k. split; auto. subst a. intros x. unfold within. cbn. rewrite Forall_forall in AV.
    specialize (AV k (or_intror K)). cbn in AV. lia.
  - unfold headers_safe. pose proof (I_blk _ _ I) as BL. rewrite Forall_forall in *.
    intros b B. rewrite Forall_forall. intros a HA x [X Y]. unfold within in *.
    specialize (H2 _ HA). apply Exists_exists in H2 as (k & K & ->).
    destruct (BL _ B) as [Z0 EX]. apply Exists_exists in EX as (j & J & J1 & J2).
    pose proof (AV _ J) as AJ. pose proof (AV k (or_intror K)) as AK. cbn in AJ, AK.
    destruct J as [<-|J].
    + pose proof (I_base _ _ I) as [B1 B2]. pose proof (I_ap0 _ _ I) as A0. rewrite Forall_forall in A0.
      apply (A0 _ K x). unfold within. lia.
    + assert (D : k = j \/ apart (p k) (bsz k + sizeof_block) (p j) (bsz j + sizeof_block)).
      { pose proof (I_ap _ _ I) as A. clear - A K J.
        induction A as [|y l F G IH]; [destruct K|].
        rewrite Forall_forall in F. destruct K as [->|K], J as [->|J]; auto.
        right. apply apart_sym. auto. }
      destruct D as [->|D]; [lia|]. apply (D x). unfold within. lia.
Qed.

(** ** Alignment *)
Variable g : Z.

Definition AINV (s : state) (w : world) : Prop :=
  Forall (fun k => bsz k = 0 \/ (g | p k) /\ (g | bsz k - avail k)) (spaces s) /\ blocks_aligned w.

Lemma step_AINV : forall s w l s' es, INV s w -> AINV s w -> label_sane cs l -> label_uniform g l -> 0 <= cs ->
  step s l = (s', es) -> everywhere (event_ok buf n) w es -> AINV s' (after w es).
Proof.
  intros s w [size al mem| |] s' es I [H1 H2] SN FT C0 S E; cbn in S.
  - unfold allocate in S. cbn in SN, FT. destruct SN as (S0 & S1 & S2). destruct FT as (F1 & F2 & F3).
    unfold alignof_block in *. rewrite F1 in S.
    assert (G8 : 8 <= g) by lia.
    assert (SM : size mod g = 0) by (apply Z.mod_divide; [lia|auto]).
    rewrite SM in S. rewrite (wrap_small (size + (g - 0))) in S by lia.
    destruct (spaces_split s) as (l & SP & SH & SC).
    pose proof (I_av _ _ I) as AV. rewrite SP in AV, H1.
    apply Forall_app in AV as [AVl AVh]. apply Forall_app in H1 as [H1l H1h].
    inversion AVh as [|? ? AH _]; inversion H1h as [|? ? HH _]; subst.
    destruct (size + (g - 0) <=? avail (head s)) eqn:G.
    + apply Z.leb_le in G. injection S as <- <-. destruct HH as [HH|[HP HO]]; [lia|].
      split.
      * rewrite SH. apply Forall_app. split; auto. constructor; [|constructor]. cbn [p bsz avail]. right. split; auto.
        replace (bsz (head s) - (avail (head s) - (size + (g - 0)))) with
          ((bsz (head s) - avail (head s)) + (size + g)) by lia.
        apply Z.divide_add_r; [auto|apply Z.divide_add_r; [auto|apply Z.divide_refl]].
      * constructor; auto. cbn [balign baddr].
        eapply Z.divide_trans; [exact F2|]. rewrite Z.sub_0_r.
        apply Z.divide_add_r; [apply Z.divide_add_r; auto|apply Z.divide_refl].
    + injection S as <- <-. cbn in E. destruct E as [(EO1 & _ & _) _]. cbn in EO1.
      split.
      * unfold spaces. cbn [base chunks]. change (base s :: chunks s ++ ?x) with (spaces s ++ x).
        rewrite SP. apply Forall_app. split; [apply Forall_app; auto|]. constructor; [|constructor].
        cbn [p bsz avail]. right. split; auto.
        match goal with |- (_ | ?a - (?a - size)) => replace (a - (a - size)) with size by lia end. auto.
      * constructor; auto. cbn [balign baddr]. eapply Z.divide_trans; eauto.
  - injection S as <- <-. split; [|constructor]. unfold spaces in *. cbn.
    inversion H1 as [|? ? X _]; subst. constructor; [|constructor]. cbn.
    destruct X as [X|[X Y]]; auto. right. split; auto. rewrite Z.sub_diag. apply Z.divide_0_r.
  - injection S as <- <-. split; [|constructor]. unfold spaces in *. cbn.
    inversion H1 as [|? ? X _]; subst. constructor; [auto|constructor].
Qed.

(** ** Whole runs *)
Lemma everywhere_app : forall P a b w, everywhere P w (a ++ b) <-> everywhere P w a /\ everywhere P (after w a) b.
Proof.
  intros P. induction a as [|e a IH]; intros b w; cbn; [tauto|]. rewrite IH. cbn. tauto.
Qed.

Lemma run_step : forall s l r s' es, step s l = (s', es) ->
  snd (run s (l :: r)) = es ++ snd (run s' r) /\ fst (run s (l :: r)) = fst (run s' r).
Proof. intros s l r s' es S. cbn [run]. rewrite S. destruct (run s' r). auto. Qed.

Lemma after_app : forall a b w, after w (a ++ b) = after (after w a) b.
Proof. intros. unfold after. apply fold_left_app. Qed.

Lemma run_INV : forall ls s w, 0 <= cs -> INV s w -> Forall (label_sane cs) ls ->
  everywhere (event_ok buf n) w (snd (run s ls)) ->
  INV (fst (run s ls)) (after w (snd (run s ls))) /\ everywhere frees_ok w (snd (run s ls)).
Proof.
  induction ls as [|l r IH]; intros s w C I SN E; [cbn; auto|].
  destruct (step s l) as [s' es] eqn:S. destruct (run_step s l r s' es S) as [R1 R2].
  rewrite R1, R2 in *. inversion SN; subst. apply everywhere_app in E as [E1 E2].
  destruct (step_INV _ _ _ _ _ I ltac:(eassumption) C S E1) as (I' & F & _).
  destruct (IH s' _ C I' ltac:(assumption) E2) as [J1 J2].
  rewrite after_app, everywhere_app. auto.
Qed.

Lemma run_HINV : forall ls s w, 0 <= cs -> INV s w -> HINV s w -> Forall (label_sane cs) ls -> Forall (label_fits cs) ls ->
  everywhere (event_ok buf n) w (snd (run s ls)) -> HINV (fst (run s ls)) (after w (snd (run s ls))).
Proof.
  induction ls as [|l r IH]; intros s w C I H SN FT E; [cbn; auto|].
  destruct (step s l) as [s' es] eqn:S. destruct (run_step s l r s' es S) as [R1 R2].
  rewrite R1, R2 in *. inversion SN; inversion FT; subst. apply everywhere_app in E as [E1 E2].
  destruct (step_INV _ _ _ _ _ I ltac:(eassumption) C S E1) as (I' & F & _).
  rewrite after_app. apply IH; auto. eapply step_HINV; eauto.
Qed.

Lemma run_AINV : forall ls s w, 0 <= cs -> INV s w -> AINV s w -> Forall (label_sane cs) ls -> Forall (label_uniform g) ls ->
  everywhere (event_ok buf n) w (snd (run s ls)) -> AINV (fst (run s ls)) (after w (snd (run s ls))).
Proof.
  induction ls as [|l r IH]; intros s w C I H SN FT E; [cbn; auto|].
  destruct (step s l) as [s' es] eqn:S. destruct (run_step s l r s' es S) as [R1 R2].
  rewrite R1, R2 in *. inversion SN; inversion FT; subst. apply everywhere_app in E as [E1 E2].
  destruct (step_INV _ _ _ _ _ I ltac:(eassumption) C S E1) as (I' & F & _).
  rewrite after_app. apply IH; auto. eapply step_AINV; eauto.
Qed.

Lemma start_INV : forall s, 0 <= n -> started s buf n cs -> INV s w0.
Proof.
  intros s N [[-> ->]|[-> [-> ->]]]; constructor; cbn; auto; try lia; try constructor; cbn; try lia; try constructor.
Qed.

Lemma INV_owned : forall s w, INV s w -> blocks_owned buf n w.
Proof.
  intros s w I. unfold blocks_owned. pose proof (I_blk _ _ I) as BL. pose proof (I_av _ _ I) as AV.
  eapply Forall_impl; [|exact BL]. cbn. intros b [Z0 X]. rewrite (I_reg _ _ I).
  apply Exists_exists in X as (k & K & K1 & K2). rewrite Forall_forall in AV. specialize (AV _ K). cbn in AV.
  destruct K as [<-|K].
  - left. pose proof (I_base _ _ I) as [B1 B2]. intros x. unfold within. lia.
  - right. apply Exists_map. apply Exists_exists. exists k. split; auto. intros x. unfold within, rg, sizeof_block. cbn [raddr rsize]. lia.
Qed.

End Proofs.

(** ** The statements used by the property file *)
Theorem disjoint_owned_freed : forall buf n cs s ls,
  0 <= n -> 0 <= cs -> started s buf n cs -> Forall (label_sane cs) ls ->
  let tr := snd (run s ls) in
  everywhere (event_ok buf n) w0 tr ->
  blocks_disjoint (after w0 tr) /\ blocks_owned buf n (after w0 tr) /\ everywhere frees_ok w0 tr.
Proof.
  intros buf n cs s ls N C ST SN tr E.
  destruct (run_INV buf n cs ls s w0 C (start_INV buf n cs s N ST) SN E) as [I F].
  split; [apply (I_dis _ _ _ _ _ I)|split; auto]. eapply INV_owned; eauto.
Qed.

Theorem headers_fit : forall buf n cs s ls,
  0 <= n -> 0 <= cs -> started s buf n cs -> Forall (label_sane cs) ls -> Forall (label_fits cs) ls ->
  let tr := snd (run s ls) in
  everywhere (event_ok buf n) w0 tr ->
  headers_owned (after w0 tr) /\ headers_safe (after w0 tr).
Proof.
  intros buf n cs s ls N C ST SN FT tr E. pose proof (start_INV buf n cs s N ST) as I0.
  destruct (run_INV buf n cs ls s w0 C I0 SN E) as [I F].
  eapply HINV_safe; [exact I|]. eapply run_HINV; eauto.
  destruct ST as [[-> ->]|[-> [-> ->]]]; split; constructor.
Qed.

Theorem uniform_aligned : forall g buf n cs s ls,
  0 <= n -> 0 <= cs -> started s buf n cs -> Forall (label_sane cs) ls -> Forall (label_uniform g) ls ->
  n = 0 \/ (g | buf) ->
  let tr := snd (run s ls) in
  everywhere (event_ok buf n) w0 tr -> blocks_aligned (after w0 tr).
Proof.
  intros g buf n cs s ls N C ST SN FT B tr E. pose proof (start_INV buf n cs s N ST) as I0.
  refine (proj2 (run_AINV buf n cs g ls s w0 C I0 _ SN FT E)).
  split; [|constructor]. destruct ST as [[-> ->]|[-> [-> ->]]]; (constructor; [|constructor]); cbn; auto.
  destruct B; auto. right. split; auto. rewrite Z.sub_diag. apply Z.divide_0_r.
Qed.
