(** Control invariant of the combinators: use counts, one resumption token,
    stack shape. *)
From Coq Require Import List Bool Arith Lia Permutation.
From Verif Require Import Comb_Model Comb_Spec.
Import ListNotations.

Definition b2n (b : bool) : nat := if b then 1 else 0.
Definition cnt {A} (f : A -> bool) (l : list A) : nat := length (filter f l).

Lemma cnt_app {A} (f : A -> bool) l m : cnt f (l ++ m) = cnt f l + cnt f m.
Proof. unfold cnt. now rewrite filter_app, app_length. Qed.
Lemma cnt_cons {A} (f : A -> bool) a l : cnt f (a :: l) = b2n (f a) + cnt f l.
Proof. unfold cnt; cbn. destruct (f a); auto. Qed.
Lemma cnt_nil {A} (f : A -> bool) : cnt f [] = 0.
Proof. reflexivity. Qed.
Lemma cnt_zero {A} (f : A -> bool) l : (forall x, In x l -> f x = false) -> cnt f l = 0.
Proof.
  induction l as [|a l IH]; intros H; [reflexivity|].
  rewrite cnt_cons, (H a (or_introl eq_refl)), IH; auto. intros; apply H; now right.
Qed.
Lemma cnt_zero_inv {A} (f : A -> bool) l : cnt f l = 0 -> forall x, In x l -> f x = false.
Proof.
  induction l as [|a l IH]; intros H x []; rewrite cnt_cons in H.
  - subst. destruct (f x); cbn in *; [lia|auto].
  - apply IH; auto. lia.
Qed.
Lemma cnt_pos {A} (f : A -> bool) l x : In x l -> f x = true -> 0 < cnt f l.
Proof.
  intros H Hf. destruct (cnt f l) eqn:C; [|lia].
  rewrite (cnt_zero_inv f l C x H) in Hf; discriminate.
Qed.
Lemma cnt_ext {A} (f g : A -> bool) l : (forall x, In x l -> f x = g x) -> cnt f l = cnt g l.
Proof.
  induction l as [|a l IH]; intros H; [reflexivity|]. rewrite !cnt_cons.
  rewrite H by now left. f_equal. apply IH. intros; apply H; now right.
Qed.
Lemma cnt_upd {A} (f : A -> bool) (g : nat -> A) i a l :
  NoDup l -> In i l ->
  cnt (fun j => f (upd g i a j)) l + b2n (f (g i)) = cnt (fun j => f (g j)) l + b2n (f a).
Proof.
  induction l as [|b l IH]; intros ND []; inversion ND; subst.
  - rewrite !cnt_cons. unfold upd at 1. rewrite Nat.eqb_refl.
    rewrite (cnt_ext (fun j => f (upd g i a j)) (fun j => f (g j)) l); [lia|].
    intros x Hx. unfold upd. destruct (Nat.eqb_spec x i); [subst; contradiction|auto].
  - rewrite !cnt_cons. unfold upd at 1.
    destruct (Nat.eqb_spec b i); [subst; contradiction|]. specialize (IH H3 H). lia.
Qed.
Lemma upd_same {A} (f : nat -> A) i a : upd f i a i = a.
Proof. unfold upd. now rewrite Nat.eqb_refl. Qed.
Lemma upd_other {A} (f : nat -> A) i a j : j <> i -> upd f i a j = f j.
Proof. intros H. unfold upd. now rewrite (proj2 (Nat.eqb_neq j i) H). Qed.

Section Core.
Context {V E : Type}.
Notation state := (state V E).
Notation label := (label V E).
Notation event := (event V E).
Implicit Types (s : state).

Definition main (k : item) : bool :=
  match k with
  | KRdy | KRdyChk _ | KGo _ | KOut _ | KStart | KChk _ | KArm | KArm2 => true
  | _ => false end.
Definition isres (k : item) : bool := match k with KResume => true | _ => false end.
Definition isend (i : nat) (k : item) : bool := match k with KEnd j => i =? j | _ => false end.
Definition isbeg (i : nat) (k : item) : bool := match k with KBeg j => i =? j | _ => false end.
Definition neutral (k : item) : bool :=
  match k with
  | KUser | KInt _ | KIntG _ | KEmit _ | KFwd _ _ | KTx _ | KFin _ | KProbe _ => true
  | _ => false end.
Definition alive (p : phase) : bool := match p with Idle | Gone => false | _ => true end.
Definition ending (p : phase) : bool := match p with Ending => true | _ => false end.
Definition starting (p : phase) : bool := match p with Starting => true | _ => false end.

Fixpoint bottom (l : list item) : Prop :=
  match l with [] => True | k :: t => (main k = true -> t = []) /\ bottom t end.

(** Phases compatible with a main item that names a child. *)
Definition okat (k : item) (ph : nat -> phase) : Prop :=
  match k with
  | KRdyChk i => match ph i with Starting | Parked | Ending | Gone => True | _ => False end
  | KGo i => ph i = Parked
  | KOut i => match ph i with Entering | Ending | Gone => True | _ => False end
  | KChk i => match ph i with Starting | Entering | Ending | Gone => True | _ => False end
  | _ => True
  end.
Definition wiredness (k : item) : option bool :=
  match k with
  | KRdy | KRdyChk _ | KGo _ => Some false
  | KOut _ | KStart | KChk _ | KArm | KArm2 => Some true
  | _ => None end.
Definition looping (k : item) : bool :=
  match k with KRdy | KRdyChk _ | KGo _ | KOut _ | KStart | KChk _ => true | _ => false end.

Record core (c : cfg) (ph : nat -> phase) (todo : list nat) (uc : nat) (wired coro armed fin : bool)
            (stk : list item) : Prop := {
  c_tok : cnt main stk + cnt isres stk + b2n coro + b2n fin = 1;
  c_bot : bottom stk;
  c_uc : uc = cnt (fun i => alive (ph i)) (ord c);
  c_end : forall i, cnt (isend i) stk = b2n (ending (ph i));
  c_beg : forall i, cnt (isbeg i) stk = b2n (starting (ph i));
  c_pre : exists pre, ord c = pre ++ todo /\ forall i, ph i = Idle <-> ~ In i pre;
  c_at : forall k, In k stk -> okat k ph;
  c_park : forall i, ph i = Parked -> In (KRdyChk i) stk \/ In (KGo i) stk;
  c_enter : forall i, ph i = Entering -> In (KOut i) stk \/ In (KChk i) stk;
  c_wired : forall k b, In k stk -> wiredness k = Some b -> wired = b;
  c_cwired : coro = true -> wired = true /\ armed = true;
  c_coro : coro = true -> 0 < uc;
  c_res : 0 < cnt isres stk + b2n fin -> uc = 0;
  c_todo : knd c <> Race -> cnt looping stk = 0 -> todo = [];
  c_start : forall i, ph i = Starting -> In (KRdyChk i) stk \/ In (KChk i) stk;
  c_unwired : wired = false -> forall i, ph i <> Susp /\ ph i <> Entering }.

Definition Core c s := core c (ph s) (todo s) (uc s) (wired s) (coro s) (armed s) (fin s) (stk s).

Lemma neutral_main k : neutral k = true -> main k = false. Proof. now destruct k. Qed.
Lemma neutral_res k : neutral k = true -> isres k = false. Proof. now destruct k. Qed.
Lemma neutral_end k i : neutral k = true -> isend i k = false. Proof. now destruct k. Qed.
Lemma neutral_beg k i : neutral k = true -> isbeg i k = false. Proof. now destruct k. Qed.
Lemma neutral_loop k : neutral k = true -> looping k = false. Proof. now destruct k. Qed.
Lemma neutral_wired k : neutral k = true -> wiredness k = None. Proof. now destruct k. Qed.
Lemma neutral_at k f : neutral k = true -> okat k f. Proof. now destruct k. Qed.

Lemma neutral_pop c ph td uc w co ar fi k t :
  neutral k = true -> core c ph td uc w co ar fi (k :: t) -> core c ph td uc w co ar fi t.
Proof.
  intros N [A1 A2 A3 A4 A5 A6 A7 A8 A9 A10 A11 A12 A13 A14 A15 A16].
  rewrite !cnt_cons, (neutral_main _ N), (neutral_res _ N) in A1. cbn in A2.
  constructor; auto.
  - tauto.
  - intros i. specialize (A4 i). now rewrite cnt_cons, (neutral_end _ _ N) in A4.
  - intros i. specialize (A5 i). now rewrite cnt_cons, (neutral_beg _ _ N) in A5.
  - intros x Hx. apply A7. now right.
  - intros i Hi. destruct (A8 i Hi) as [[->|]|[->|]]; auto; discriminate.
  - intros i Hi. destruct (A9 i Hi) as [[->|]|[->|]]; auto; discriminate.
  - intros x b Hx. apply A10. now right.
  - intros H. apply A13. rewrite cnt_cons, (neutral_res _ N). exact H.
  - intros H H0. apply A14; auto. rewrite cnt_cons, (neutral_loop _ N). exact H0.
  - intros i Hi. destruct (A15 i Hi) as [[->|]|[->|]]; auto; discriminate.
Qed.

Lemma neutral_push1 c ph td uc w co ar fi k t :
  neutral k = true -> core c ph td uc w co ar fi t -> core c ph td uc w co ar fi (k :: t).
Proof.
  intros N [A1 A2 A3 A4 A5 A6 A7 A8 A9 A10 A11 A12 A13 A14 A15 A16].
  constructor; auto.
  - now rewrite !cnt_cons, (neutral_main _ N), (neutral_res _ N).
  - cbn. rewrite (neutral_main _ N). split; [discriminate|auto].
  - intros i. rewrite cnt_cons, (neutral_end _ _ N). apply A4.
  - intros i. rewrite cnt_cons, (neutral_beg _ _ N). apply A5.
  - intros x [->|Hx]; [now apply neutral_at|auto].
  - intros i Hi. destruct (A8 i Hi); [left|right]; now right.
  - intros i Hi. destruct (A9 i Hi); [left|right]; now right.
  - intros x b [->|Hx]; [rewrite (neutral_wired _ N); discriminate|eauto].
  - rewrite cnt_cons, (neutral_res _ N). exact A13.
  - intros H. rewrite cnt_cons, (neutral_loop _ N). exact (A14 H).
  - intros i Hi. destruct (A15 i Hi); [left|right]; now right.
Qed.

Lemma neutral_push c ph td uc w co ar fi l t :
  forallb neutral l = true -> core c ph td uc w co ar fi t -> core c ph td uc w co ar fi (l ++ t).
Proof.
  induction l as [|k l IH]; cbn; auto. intros N H. apply andb_prop in N as [N1 N2].
  apply neutral_push1; auto.
Qed.

Lemma cancel_all_neutral c : forallb neutral (cancel_all c) = true.
Proof.
  unfold cancel_all. rewrite forallb_app. apply andb_true_intro; split.
  - destruct (is_race c); auto. induction (idxs c); auto.
  - induction (idxs c); auto.
Qed.
Lemma forallb_map_neutral (f : nat -> item) l : (forall i, neutral (f i) = true) -> forallb neutral (map f l) = true.
Proof. intros H. induction l; cbn; auto. now rewrite H. Qed.

(** A single main item on top means it is the whole stack. *)
Lemma top_main k t : bottom (k :: t) -> main k = true -> t = [].
Proof. cbn. intros [H _] M. auto. Qed.

(** *** Shape of [finish]. *)
Lemma finish_shape c i rd x s : exists ns,
  forallb neutral ns = true /\
  let s' := finish c i rd x s in
  ph s' = upd (ph s) i Ending /\ todo s' = todo s /\ uc s' = uc s /\ wired s' = wired s /\
  coro s' = coro s /\ armed s' = armed s /\ fin s' = fin s /\ lastf s' = lastf s /\
  stk s' = ns ++ KEnd i :: stk s.
Proof.
  unfold finish.
  assert (H : forall ns (s0 : state), forallb neutral ns = true ->
     ph s0 = upd (ph s) i Ending -> todo s0 = todo s -> uc s0 = uc s -> wired s0 = wired s ->
     coro s0 = coro s -> armed s0 = armed s -> fin s0 = fin s -> lastf s0 = lastf s -> stk s0 = stk s ->
     exists ms, forallb neutral ms = true /\
       let s' := push (ns ++ [KEnd i]) s0 in
       ph s' = upd (ph s) i Ending /\ todo s' = todo s /\ uc s' = uc s /\ wired s' = wired s /\
       coro s' = coro s /\ armed s' = armed s /\ fin s' = fin s /\ lastf s' = lastf s /\
       stk s' = ms ++ KEnd i :: stk s).
  { intros ns s0 N H1 H2 H3 H4 H5 H6 H7 H8 H9. exists ns. split; auto. cbn.
    repeat (split; [assumption|]). rewrite H9. now rewrite <- app_assoc. }
  destruct (knd c).
  - unfold gather_result. apply (H []); reflexivity.
  - unfold join_result. destruct x; cbn [push].
    + apply (H []); reflexivity.
    + destruct (err (set_ph i Ending s)); apply (H (cancel_all c)); try reflexivity; apply cancel_all_neutral.
    + destruct (err (set_ph i Ending s)); apply (H (cancel_all c)); try reflexivity; apply cancel_all_neutral.
  - assert (Hr : forall y, exists ms, forallb neutral ms = true /\
       let s' := race_result c i rd y (set_ph i Ending s) in
       ph s' = upd (ph s) i Ending /\ todo s' = todo s /\ uc s' = uc s /\ wired s' = wired s /\
       coro s' = coro s /\ armed s' = armed s /\ fin s' = fin s /\ lastf s' = lastf s /\
       stk s' = ms ++ KEnd i :: stk s).
    { intros y. unfold race_result.
      assert (Hpush : forall z : state, push (cancel_all c ++ [KFin i; KEnd i]) z =
                push ((cancel_all c ++ [KFin i]) ++ [KEnd i]) z)
        by (intros; now rewrite <- app_assoc).
      rewrite Hpush.
      apply H; [rewrite forallb_app, cancel_all_neutral; reflexivity| | | | | | | | |];
        cbn [idx set_ph]; destruct (idx s) as [j|]; cbn [idx set_ph set_idx];
        repeat match goal with |- context [if ?b then _ else _] => destruct b end;
        try reflexivity; destruct y; reflexivity. }
    destruct x; [apply Hr|apply Hr|].
    unfold race_throw. apply (H []); auto; cbn [idx set_ph]; destruct (idx s) as [j|];
      cbn [idx set_ph set_idx]; repeat match goal with |- context [if ?b then _ else _] => destruct b end; reflexivity.
Qed.

Lemma pre_in c (pre td : list nat) : wf c -> ord c = pre ++ td ->
  forall i, In i pre -> In i (ord c) /\ ~ In i td.
Proof.
  intros W Eo i H. split; [rewrite Eo; apply in_or_app; now left|].
  assert (ND : NoDup (ord c)).
  { apply (Permutation_NoDup (Permutation_sym (wf_perm c W))). apply seq_NoDup. }
  rewrite Eo in ND. intros H2. clear -ND H H2. induction pre as [|a p IH]; cbn in *; [contradiction|].
  inversion ND as [|? ? N1 N2]; subst. destruct H as [->|H]; auto.
  apply N1. apply in_or_app. now right.
Qed.

Lemma ord_nodup c : wf c -> NoDup (ord c).
Proof. intros W. apply (Permutation_NoDup (Permutation_sym (wf_perm c W))). apply seq_NoDup. Qed.

(** The child of a live fork finishes. *)
Lemma core_finish c ph td uc w co ar fi i t :
  wf c -> (ph i = Entering \/ ph i = Susp) ->
  core c ph td uc w co ar fi t ->
  core c (upd ph i Ending) td uc w co ar fi (KEnd i :: t).
Proof.
  intros W Hp [A1 A2 A3 A4 A5 A6 A7 A8 A9 A10 A11 A12 A13 A14 A15 A16].
  assert (Hi : In i (ord c)).
  { destruct A6 as (pre & Eo & Hpre). assert (In i pre).
    { destruct (in_dec Nat.eq_dec i pre); auto. apply Hpre in n. destruct Hp; congruence. }
    eapply pre_in; eauto. }
  constructor; auto.
  - cbn. split; [discriminate|auto].
  - rewrite A3. pose proof (cnt_upd alive ph i Ending (ord c) (ord_nodup c W) Hi) as HU.
    cbn in HU. destruct Hp as [Hp|Hp]; rewrite Hp in HU; cbn in HU; lia.
  - intros j. rewrite cnt_cons. cbn. unfold upd. specialize (A4 j).
    destruct (Nat.eqb_spec j i); subst; cbn; [|auto]. rewrite A4.
    destruct Hp as [Hp|Hp]; rewrite Hp; auto.
  - intros j. rewrite cnt_cons. cbn. unfold upd. specialize (A5 j).
    destruct (Nat.eqb_spec j i); subst; cbn; [|auto]. rewrite A5.
    destruct Hp as [Hp|Hp]; rewrite Hp; auto.
  - destruct A6 as (pre & Eo & Hpre). exists pre. split; auto. intros j. unfold upd.
    destruct (Nat.eqb_spec j i); subst; [|auto]. rewrite <- Hpre.
    destruct Hp; split; congruence.
  - intros k [<-|Hk]; [exact I|]. specialize (A7 k Hk).
    destruct k; cbn in *; auto; unfold upd; destruct (Nat.eqb_spec i0 i); subst; auto;
      destruct Hp as [Hp|Hp]; rewrite Hp in A7; try discriminate; try contradiction.
  - intros j. unfold upd. destruct (Nat.eqb_spec j i); [discriminate|]. intros Hj.
    destruct (A8 j Hj); [left|right]; now right.
  - intros j. unfold upd. destruct (Nat.eqb_spec j i); [discriminate|]. intros Hj.
    destruct (A9 j Hj); [left|right]; now right.
  - intros k b [<-|Hk]; [discriminate|eauto].
  - intros j. unfold upd. destruct (Nat.eqb_spec j i); [discriminate|]. intros Hj.
    destruct (A15 j Hj); [left|right]; now right.
  - intros Hw j. specialize (A16 Hw j). unfold upd. destruct (Nat.eqb_spec j i); [split; discriminate|auto].
Qed.

(** The child of a fork that has just learnt the result of await_ready. *)
Lemma core_begin_finish c ph td uc w co ar fi i t :
  wf c -> core c ph td uc w co ar fi (KBeg i :: t) ->
  core c (upd ph i Ending) td uc w co ar fi (KEnd i :: t).
Proof.
  intros W [A1 A2 A3 A4 A5 A6 A7 A8 A9 A10 A11 A12 A13 A14 A15 A16].
  assert (Hp : ph i = Starting).
  { pose proof (A5 i) as H. rewrite cnt_cons in H. cbn in H. rewrite Nat.eqb_refl in H.
    destruct (ph i); cbn in H; auto; discriminate. }
  assert (Hi : In i (ord c)).
  { destruct A6 as (pre & Eo & Hpre). assert (In i pre).
    { destruct (in_dec Nat.eq_dec i pre); auto. apply Hpre in n. congruence. }
    eapply pre_in; eauto. }
  cbn in A2.
  constructor; auto.
  - rewrite A3. pose proof (cnt_upd alive ph i Ending (ord c) (ord_nodup c W) Hi) as HU.
    cbn in HU. rewrite Hp in HU; cbn in HU; lia.
  - intros j. specialize (A4 j). rewrite cnt_cons in A4 |- *. cbn in A4 |- *. unfold upd.
    destruct (Nat.eqb_spec j i); subst; cbn; [|auto]. rewrite A4, Hp. auto.
  - intros j. specialize (A5 j). rewrite cnt_cons in A5 |- *. cbn in A5 |- *. unfold upd.
    destruct (Nat.eqb_spec j i); subst; cbn; cbn in A5; [|auto]. rewrite Hp in A5. cbn in A5. lia.
  - destruct A6 as (pre & Eo & Hpre). exists pre. split; auto. intros j. unfold upd.
    destruct (Nat.eqb_spec j i); subst; [|auto]. rewrite <- Hpre. rewrite Hp. split; congruence.
  - intros k [<-|Hk]; [exact I|]. specialize (A7 k (or_intror Hk)).
    destruct k; cbn in *; auto; unfold upd; destruct (Nat.eqb_spec i0 i); subst; auto;
      rewrite Hp in A7; try discriminate; try contradiction.
  - intros j. unfold upd. destruct (Nat.eqb_spec j i); [discriminate|]. intros Hj.
    destruct (A8 j Hj) as [[]|[]]; try discriminate; [left|right]; now right.
  - intros j. unfold upd. destruct (Nat.eqb_spec j i); [discriminate|]. intros Hj.
    destruct (A9 j Hj) as [[]|[]]; try discriminate; [left|right]; now right.
  - intros k b [<-|Hk]; [discriminate|]. apply A10. now right.
  - intros j. unfold upd. destruct (Nat.eqb_spec j i); [discriminate|]. intros Hj.
    destruct (A15 j Hj) as [[]|[]]; try discriminate; [left|right]; now right.
  - intros Hw j. specialize (A16 Hw j). unfold upd. destruct (Nat.eqb_spec j i); [split; discriminate|auto].
Qed.

(** Facts available when a main item is on top of the stack. *)
Lemma main_top c ph td uc w co ar fi k t : main k = true ->
  core c ph td uc w co ar fi (k :: t) ->
  t = [] /\ co = false /\ fi = false /\
  (forall i, ph i <> Starting /\ ph i <> Ending) /\
  (forall i, ph i = Parked -> k = KRdyChk i \/ k = KGo i) /\
  (forall i, ph i = Entering -> k = KOut i \/ k = KChk i).
Proof.
  intros M [A1 A2 A3 A4 A5 A6 A7 A8 A9 A10 A11 A12 A13 A14 A15 A16].
  pose proof (top_main _ _ A2 M) as ->. rewrite cnt_cons, M, cnt_nil in A1. cbn in A1.
  assert (co = false) by (destruct co; cbn in A1; [lia|auto]).
  assert (fi = false) by (destruct fi; cbn in A1; [lia|auto]).
  split; [auto|]. split; [auto|]. split; [auto|]. split; [|split].
  - intros i. specialize (A4 i). specialize (A5 i). rewrite cnt_cons, cnt_nil in A4, A5.
    split; intros Hp; rewrite Hp in *; cbn in *.
    + destruct k; try discriminate; cbn in A5; lia.
    + destruct k; try discriminate; cbn in A4; lia.
  - intros i Hi. destruct (A8 i Hi) as [[]|[]]; auto; contradiction.
  - intros i Hi. destruct (A9 i Hi) as [[]|[]]; auto; contradiction.
Qed.

(** A fork is created by one of the two loops. *)
Lemma core_create c ph td uc w co ar fi k i l kc : wf c ->
  (k = KRdy /\ kc = KRdyChk i) \/ (k = KStart /\ kc = KChk i) ->
  td = i :: l -> core c ph td uc w co ar fi [k] ->
  ph i = Idle /\ core c (upd ph i Starting) l (S uc) w co ar fi [KUser; KBeg i; kc].
Proof.
  intros W Hk Htd C0. pose proof C0 as [A1 A2 A3 A4 A5 A6 A7 A8 A9 A10 A11 A12 A13 A14 A15 A16].
  assert (M : main k = true) by (destruct Hk as [[-> _]|[-> _]]; reflexivity).
  destruct (main_top _ _ _ _ _ _ _ _ _ _ M C0) as (_ & Hco & Hfi & Hse & Hpk & Hen).
  destruct A6 as (pre & Eo & Hpre). subst td.
  assert (Hni : ~ In i pre).
  { intros H. destruct (pre_in c pre (i :: l) W Eo i H) as [_ N]. apply N. now left. }
  assert (Hidle : ph i = Idle) by now apply Hpre.
  split; auto. apply neutral_push1; auto.
  assert (Mc : main kc = true) by (destruct Hk as [[_ ->]|[_ ->]]; reflexivity).
  assert (Nr : isres kc = false) by (destruct Hk as [[_ ->]|[_ ->]]; reflexivity).
  assert (Hio : In i (ord c)) by (rewrite Eo; apply in_or_app; right; now left).
  constructor.
  - rewrite !cnt_cons, Mc, Nr, !cnt_nil, Hco, Hfi. reflexivity.
  - cbn. split; [discriminate|]. split; auto.
  - pose proof (cnt_upd alive ph i Starting (ord c) (ord_nodup c W) Hio) as HU.
    rewrite Hidle in HU. cbn in HU. lia.
  - intros j. rewrite !cnt_cons, cnt_nil. unfold upd. destruct (Hse j) as [_ Hj].
    destruct Hk as [[_ ->]|[_ ->]]; cbn; destruct (Nat.eqb_spec j i); cbn; auto;
      destruct (ph j); auto; congruence.
  - intros j. rewrite !cnt_cons, cnt_nil. unfold upd. destruct (Hse j) as [Hj _].
    destruct Hk as [[_ ->]|[_ ->]]; cbn; destruct (Nat.eqb_spec j i); cbn; auto;
      destruct (ph j); auto; congruence.
  - exists (pre ++ [i]). split; [now rewrite <- app_assoc|]. intros j. unfold upd.
    destruct (Nat.eqb_spec j i) as [->|Hne].
    + split; [discriminate|]. intros H. exfalso. apply H. apply in_or_app. right. now left.
    + rewrite Hpre. split; intros H H1; apply H.
      * apply in_app_or in H1 as [|[->|[]]]; auto. congruence.
      * apply in_or_app. now left.
  - intros x [<-|[<-|[]]]; [exact I|]. destruct Hk as [[_ ->]|[_ ->]]; cbn; rewrite upd_same; exact I.
  - intros j. unfold upd. destruct (Nat.eqb_spec j i); [discriminate|]. intros Hj.
    destruct (Hpk j Hj) as [->| ->]; destruct Hk as [[? _]|[? _]]; discriminate.
  - intros j. unfold upd. destruct (Nat.eqb_spec j i); [discriminate|]. intros Hj.
    destruct (Hen j Hj) as [->| ->]; destruct Hk as [[? _]|[? _]]; discriminate.
  - intros x b [<-|[<-|[]]]; [discriminate|]. intros Hw.
    apply (A10 k b); [now left|]. destruct Hk as [[-> ->]|[-> ->]]; exact Hw.
  - subst co. discriminate.
  - subst co. discriminate.
  - rewrite !cnt_cons, Nr, cnt_nil, Hfi. cbn. lia.
  - intros _ H. exfalso. rewrite !cnt_cons in H.
    destruct Hk as [[_ ->]|[_ ->]]; cbn in H; lia.
  - intros j. unfold upd. destruct (Nat.eqb_spec j i); [intros _; subst|].
    + destruct Hk as [[_ ->]|[_ ->]]; [left|right]; right; now left.
    + intros Hj. destruct (Hse j); contradiction.
  - intros Hw j. specialize (A16 Hw j). unfold upd. destruct (Nat.eqb_spec j i); [split; discriminate|auto].
Qed.

(** A main item is replaced by another one (or by [KResume]). *)
Lemma core_swap c ph td uc w co ar fi k k' :
  main k = true -> core c ph td uc w co ar fi [k] ->
  (main k' = true \/ k' = KResume /\ uc = 0) ->
  okat k' ph ->
  (forall i, ph i = Parked -> k' = KRdyChk i \/ k' = KGo i) ->
  (forall i, ph i = Entering -> k' = KOut i \/ k' = KChk i) ->
  (forall b, wiredness k' = Some b -> w = b) ->
  (knd c <> Race -> looping k' = false -> td = []) ->
  core c ph td uc w co ar fi [k'].
Proof.
  intros M C0 Hk Hat Hpk Hen Hw Htd.
  destruct (main_top _ _ _ _ _ _ _ _ _ _ M C0) as (_ & Hco & Hfi & Hse & _ & _).
  destruct C0 as [A1 A2 A3 A4 A5 A6 A7 A8 A9 A10 A11 A12 A13 A14 A15 A16].
  assert (Hend : forall i, isend i k' = false)
    by (intros; destruct Hk as [Hk|[-> _]]; [destruct k'; auto; discriminate|auto]).
  assert (Hbeg : forall i, isbeg i k' = false)
    by (intros; destruct Hk as [Hk|[-> _]]; [destruct k'; auto; discriminate|auto]).
  constructor; auto.
  - rewrite !cnt_cons, !cnt_nil, Hco, Hfi. destruct Hk as [Hk|[-> _]]; auto.
    rewrite Hk. destruct k'; auto; discriminate.
  - cbn. auto.
  - intros i. rewrite cnt_cons, cnt_nil, Hend. destruct (Hse i). destruct (ph i); auto; congruence.
  - intros i. rewrite cnt_cons, cnt_nil, Hbeg. destruct (Hse i). destruct (ph i); auto; congruence.
  - intros x [<-|[]]. auto.
  - intros i Hi. destruct (Hpk i Hi) as [->| ->]; [left|right]; now left.
  - intros i Hi. destruct (Hen i Hi) as [->| ->]; [left|right]; now left.
  - intros x b [<-|[]]. auto.
  - destruct Hk as [Hk|[-> ->]]; auto. rewrite cnt_cons, cnt_nil, Hfi.
    destruct k'; try discriminate; cbn; lia.
  - intros H H0. apply Htd; auto. rewrite cnt_cons, cnt_nil in H0. destruct (looping k'); auto.
    cbn in H0. lia.
  - intros i Hi. destruct (Hse i); contradiction.
Qed.

Definition LF c s := In KRdy (stk s) -> lastf s = None -> todo s = ord c.

Lemma settle_core c ph td uc w co ar fi k i :
  core c ph td uc w co ar fi [k] -> (k = KOut i \/ k = KChk i) -> ph i = Entering ->
  (forall j, upd ph i Susp j <> Entering /\ upd ph i Susp j <> Parked) /\
  core c (upd ph i Susp) td uc w co ar fi [KStart].
Proof.
  intros C0 Hk Hp.
  assert (M : main k = true) by (destruct Hk; subst; reflexivity).
  destruct (main_top _ _ _ _ _ _ _ _ _ _ M C0) as (_ & Hco & Hfi & Hse & Hpk & Hen).
  destruct C0 as [A1 A2 A3 A4 A5 A6 A7 A8 A9 A10 A11 A12 A13 A14 A15 A16].
  assert (Hno : forall j, upd ph i Susp j <> Entering /\ upd ph i Susp j <> Parked).
  { intros j. unfold upd. destruct (Nat.eqb_spec j i); [split; discriminate|]. split; intros Hj.
    - destruct (Hen j Hj) as [->| ->]; destruct Hk as [Hk|Hk]; congruence.
    - destruct (Hpk j Hj) as [->| ->]; destruct Hk as [Hk|Hk]; congruence. }
  split; auto.
  constructor; auto.
  - rewrite !cnt_cons, !cnt_nil, Hco, Hfi. reflexivity.
  - cbn. auto.
  - rewrite A3. apply cnt_ext. intros j _. unfold upd. destruct (Nat.eqb_spec j i); auto.
    subst. now rewrite Hp.
  - intros j. cbn. unfold upd. destruct (Nat.eqb_spec j i); auto.
    destruct (Hse j). destruct (ph j); auto; congruence.
  - intros j. cbn. unfold upd. destruct (Nat.eqb_spec j i); auto.
    destruct (Hse j). destruct (ph j); auto; congruence.
  - destruct A6 as (pre & Eo & Hpre). exists pre; split; auto. intros j. unfold upd.
    destruct (Nat.eqb_spec j i); auto. subst. rewrite <- Hpre, Hp. split; discriminate.
  - intros x [<-|[]]. exact I.
  - intros j Hj. destruct (Hno j). contradiction.
  - intros j Hj. destruct (Hno j). contradiction.
  - intros x b [<-|[]]. cbn. intros [= <-]. apply (A10 k true); [now left|].
    destruct Hk; subst; reflexivity.
  - rewrite cnt_cons, Hfi. cbn. lia.
  - intros _ H. cbn in H. lia.
  - intros j. unfold upd. destruct (Nat.eqb_spec j i); [discriminate|]. intros Hj.
    destruct (Hse j); contradiction.
  - intros Hw j. destruct (A16 Hw i). contradiction.
Qed.

Lemma emit_shape i t s :
  let s' := fst (emit i t s) in
  ph s' = ph s /\ todo s' = todo s /\ uc s' = uc s /\ wired s' = wired s /\ coro s' = coro s /\
  armed s' = armed s /\ fin s' = fin s /\ lastf s' = lastf s /\
  (stk s' = stk s \/ stk s' = KUser :: stk s).
Proof. unfold emit. destruct (running s i); cbn; repeat split; auto. Qed.

Lemma core_go c ph td uc w co ar fi i : wf c ->
  core c ph td uc w co ar fi [KGo i] ->
  core c (upd ph i Entering) td uc true co ar fi [KUser; KOut i].
Proof.
  intros W C0. apply neutral_push1; auto.
  destruct (main_top c ph td uc w co ar fi (KGo i) [] eq_refl C0) as (_ & Hco & Hfi & Hse & Hpk & Hen).
  destruct C0 as [A1 A2 A3 A4 A5 A6 A7 A8 A9 A10 A11 A12 A13 A14 A15 A16].
  pose proof (A7 (KGo i) (or_introl eq_refl)) as Hp. cbn in Hp.
  constructor; auto.
  - rewrite A3. apply cnt_ext. intros j _. unfold upd. destruct (Nat.eqb_spec j i); auto.
    subst. now rewrite Hp.
  - intros j. cbn. unfold upd. destruct (Nat.eqb_spec j i); auto.
    destruct (Hse j). destruct (ph j); auto; congruence.
  - intros j. cbn. unfold upd. destruct (Nat.eqb_spec j i); auto.
    destruct (Hse j). destruct (ph j); auto; congruence.
  - destruct A6 as (pre & Eo & Hpre). exists pre; split; auto. intros j. unfold upd.
    destruct (Nat.eqb_spec j i); auto. subst. rewrite <- Hpre, Hp. split; discriminate.
  - intros x [<-|[]]. cbn. rewrite upd_same. exact I.
  - intros j. unfold upd. destruct (Nat.eqb_spec j i); [discriminate|]. intros Hj.
    destruct (Hpk j Hj); congruence.
  - intros j. unfold upd. destruct (Nat.eqb_spec j i); [intros _; subst; left; now left|]. intros Hj.
    destruct (Hen j Hj); congruence.
  - intros x b [<-|[]]. cbn. congruence.
  - subst co. discriminate.
  - intros j. unfold upd. destruct (Nat.eqb_spec j i); [discriminate|]. intros Hj.
    destruct (Hse j); contradiction.
  - discriminate.
Qed.

Lemma core_park c ph td uc w co ar fi i t : wf c ->
  core c ph td uc w co ar fi (KBeg i :: t) ->
  core c (upd ph i (if w then Entering else Parked)) td uc w co ar fi t.
Proof.
  intros W [A1 A2 A3 A4 A5 A6 A7 A8 A9 A10 A11 A12 A13 A14 A15 A16].
  assert (Hp : ph i = Starting).
  { pose proof (A5 i) as H. rewrite cnt_cons in H. cbn in H. rewrite Nat.eqb_refl in H.
    destruct (ph i); cbn in H; auto; discriminate. }
  cbn in A2. destruct A2 as [_ A2].
  assert (Hi : In i (ord c)).
  { destruct A6 as (pre & Eo & Hpre). assert (In i pre).
    { destruct (in_dec Nat.eq_dec i pre); auto. apply Hpre in n. congruence. }
    eapply pre_in; eauto. }
  assert (Hne : (if w then Entering else Parked) <> Idle /\ (if w then Entering else Parked) <> Starting
     /\ (if w then Entering else Parked) <> Ending) by (destruct w; repeat split; discriminate).
  destruct Hne as (N1 & N2 & N3).
  assert (Hal : alive (if w then Entering else Parked) = true) by (destruct w; auto).
  assert (Hsite : if w then In (KChk i) t else In (KRdyChk i) t).
  { destruct (A15 i Hp) as [[H|H]|[H|H]]; try discriminate.
    - rewrite (A10 (KRdyChk i) false); [auto|now right|auto].
    - rewrite (A10 (KChk i) true); [auto|now right|auto]. }
  constructor; auto.
  - rewrite A3. pose proof (cnt_upd alive ph i (if w then Entering else Parked) (ord c) (ord_nodup c W) Hi) as HU.
    rewrite Hp, Hal in HU. cbn in HU. lia.
  - intros j. specialize (A4 j). rewrite cnt_cons in A4. cbn in A4. unfold upd.
    destruct (Nat.eqb_spec j i); subst; auto. rewrite A4, Hp. destruct w; auto.
  - intros j. specialize (A5 j). rewrite cnt_cons in A5. cbn in A5. unfold upd.
    destruct (Nat.eqb_spec j i); subst; cbn in A5; auto. rewrite Hp in A5. cbn in A5.
    destruct w; cbn; lia.
  - destruct A6 as (pre & Eo & Hpre). exists pre; split; auto. intros j. unfold upd.
    destruct (Nat.eqb_spec j i); auto. subst. rewrite <- Hpre, Hp. split; congruence.
  - intros x Hx. pose proof (A7 x (or_intror Hx)) as Hok.
    pose proof (fun b => A10 x b (or_intror Hx)) as Hwx.
    destruct x; cbn in *; auto; unfold upd; destruct (Nat.eqb_spec i0 i); subst; auto;
      rewrite Hp in Hok; try discriminate; try contradiction.
    + now rewrite (Hwx false eq_refl).
    + now rewrite (Hwx true eq_refl).
  - intros j. unfold upd. destruct (Nat.eqb_spec j i); intros Hj.
    + subst. destruct w; [discriminate|auto].
    + destruct (A8 j Hj) as [[]|[]]; try discriminate; auto.
  - intros j. unfold upd. destruct (Nat.eqb_spec j i); intros Hj.
    + subst. destruct w; [auto|discriminate].
    + destruct (A9 j Hj) as [[]|[]]; try discriminate; auto.
  - intros x b Hx. apply A10. now right.
  - intros j. unfold upd. destruct (Nat.eqb_spec j i); intros Hj; [congruence|].
    destruct (A15 j Hj) as [[]|[]]; try discriminate; auto.
  - intros Hw j. specialize (A16 Hw j). unfold upd. subst w.
    destruct (Nat.eqb_spec j i); [split; discriminate|auto].
Qed.

Lemma core_end c ph td uc w co ar fi i t : wf c ->
  core c ph td uc w co ar fi (KEnd i :: t) ->
  core c (upd ph i Gone) td (uc - 1) w (if uc =? 1 then false else co) ar fi
    ((if (uc =? 1) && co then [KResume] else []) ++ t) /\ 0 < uc.
Proof.
  intros W [A1 A2 A3 A4 A5 A6 A7 A8 A9 A10 A11 A12 A13 A14 A15 A16].
  assert (Hp : ph i = Ending).
  { pose proof (A4 i) as H. rewrite cnt_cons in H. cbn in H. rewrite Nat.eqb_refl in H.
    destruct (ph i); cbn in H; auto; discriminate. }
  cbn in A2. destruct A2 as [_ A2].
  assert (Hi : In i (ord c)).
  { destruct A6 as (pre & Eo & Hpre). assert (In i pre).
    { destruct (in_dec Nat.eq_dec i pre); auto. apply Hpre in n. congruence. }
    eapply pre_in; eauto. }
  pose proof (cnt_upd alive ph i Gone (ord c) (ord_nodup c W) Hi) as HU.
  rewrite Hp in HU. cbn in HU. rewrite !cnt_cons in A1; rewrite cnt_cons in A13, A14. cbn in A1, A13, A14.
  assert (Hpos : 0 < uc) by lia. split; auto.
  assert (Hnr : cnt isres t = 0 /\ fi = false).
  { destruct (cnt isres t) eqn:Q; [|lia]. destruct fi; auto. cbn in A13. lia. }
  destruct Hnr as [Hnr ->].
  set (r := if (uc =? 1) && co then [KResume] else []).
  assert (Rr : forall x, In x r -> x = KResume) by (unfold r; destruct ((uc =? 1) && co); cbn; intuition).
  constructor.
  - unfold r. rewrite !cnt_app. rewrite Hnr. destruct (Nat.eqb_spec uc 1); cbn; destruct co; cbn in *; lia.
  - unfold r. destruct ((uc =? 1) && co); cbn; auto. split; [discriminate|auto].
  - lia.
  - intros j. rewrite cnt_app. replace (cnt (isend j) r) with 0
      by (symmetry; apply cnt_zero; intros x Hx; now rewrite (Rr x Hx)).
    specialize (A4 j). rewrite cnt_cons in A4. cbn in A4. unfold upd. cbn.
    destruct (Nat.eqb_spec j i); subst; cbn in A4; auto. rewrite Hp in A4. cbn in A4. cbn. lia.
  - intros j. rewrite cnt_app. replace (cnt (isbeg j) r) with 0
      by (symmetry; apply cnt_zero; intros x Hx; now rewrite (Rr x Hx)).
    specialize (A5 j). rewrite cnt_cons in A5. cbn in A5. unfold upd. cbn.
    destruct (Nat.eqb_spec j i); subst; cbn in A5; auto. rewrite Hp in A5. exact A5.
  - destruct A6 as (pre & Eo & Hpre). exists pre; split; auto. intros j. unfold upd.
    destruct (Nat.eqb_spec j i); auto. subst. rewrite <- Hpre, Hp. split; congruence.
  - intros x Hx. apply in_app_or in Hx as [Hx|Hx]; [rewrite (Rr x Hx); exact I|].
    pose proof (A7 x (or_intror Hx)) as Hok.
    destruct x; cbn in *; auto; unfold upd; destruct (Nat.eqb_spec i0 i); subst; auto;
      rewrite Hp in Hok; try discriminate; try contradiction.
  - intros j. unfold upd. destruct (Nat.eqb_spec j i); intros Hj; [discriminate|].
    destruct (A8 j Hj) as [[]|[]]; try discriminate; [left|right]; apply in_or_app; auto.
  - intros j. unfold upd. destruct (Nat.eqb_spec j i); intros Hj; [discriminate|].
    destruct (A9 j Hj) as [[]|[]]; try discriminate; [left|right]; apply in_or_app; auto.
  - intros x b Hx. apply in_app_or in Hx as [Hx|Hx]; [rewrite (Rr x Hx); discriminate|].
    apply A10. now right.
  - destruct (uc =? 1); [discriminate|auto].
  - destruct (Nat.eqb_spec uc 1); [discriminate|]. intros H. lia.
  - rewrite cnt_app, Hnr. unfold r. destruct (Nat.eqb_spec uc 1); cbn; [intros; lia|lia].
  - intros H. rewrite cnt_app. intros H0. apply A14; auto. lia.
  - intros j. unfold upd. destruct (Nat.eqb_spec j i); intros Hj; [discriminate|].
    destruct (A15 j Hj) as [[]|[]]; try discriminate; [left|right]; apply in_or_app; auto.
  - intros Hw j. specialize (A16 Hw j). unfold upd. destruct (Nat.eqb_spec j i); [split; discriminate|auto].
Qed.

Lemma core_resume c ph td uc w co ar fi t :
  core c ph td uc w co ar fi (KResume :: t) -> core c ph td uc w co ar true t /\ fi = false /\ uc = 0.
Proof.
  intros [A1 A2 A3 A4 A5 A6 A7 A8 A9 A10 A11 A12 A13 A14 A15 A16].
  rewrite cnt_cons in A13, A14. cbn in A13, A14. rewrite !cnt_cons in A1. cbn in A1.
  assert (H0 : uc = 0) by (apply A13; lia).
  assert (Hf : fi = false) by (destruct fi; cbn in A1; [lia|auto]). subst fi.
  split; auto. constructor; auto.
  - cbn in *. lia.
  - cbn in A2. tauto.
  - intros x Hx. apply A7. now right.
  - intros i Hi. destruct (A8 i Hi) as [[]|[]]; try discriminate; auto.
  - intros i Hi. destruct (A9 i Hi) as [[]|[]]; try discriminate; auto.
  - intros x b Hx. apply A10. now right.
  - intros i Hi. destruct (A15 i Hi) as [[]|[]]; try discriminate; auto.
Qed.

Lemma core_arm c ph td uc w co ar fi : core c ph td uc w co ar fi [KArm2] -> uc <> 0 ->
  core c ph td uc w true true fi [].
Proof.
  intros C0 Hu.
  destruct (main_top c ph td uc w co ar fi KArm2 [] eq_refl C0) as (_ & Hco & Hfi & Hse & Hpk & Hen).
  destruct C0 as [A1 A2 A3 A4 A5 A6 A7 A8 A9 A10 A11 A12 A13 A14 A15 A16].
  constructor; auto.
  - subst. reflexivity.
  - exact I.
  - intros x [].
  - intros i Hi. destruct (Hpk i Hi); discriminate.
  - intros i Hi. destruct (Hen i Hi); discriminate.
  - intros x b [].
  - intros _. split; auto. apply (A10 KArm2 true); [now left|auto].
  - lia.
  - intros i Hi. destruct (Hse i); contradiction.
Qed.

Lemma in_stk_neutral (ns t : list item) k : forallb neutral ns = true -> neutral k = false ->
  In k (ns ++ t) -> In k t.
Proof.
  intros N K H. apply in_app_or in H as [H|H]; auto.
  rewrite forallb_forall in N. rewrite (N k H) in K. discriminate.
Qed.

Lemma idle_main_uc c ph td uc w co ar fi k t : main k = true ->
  (forall i, k <> KGo i) -> (forall i, k = KRdyChk i -> ph i = Gone) -> w = false ->
  core c ph td uc w co ar fi (k :: t) -> uc = 0.
Proof.
  intros M Hg Hc Hw C0.
  destruct (main_top _ _ _ _ _ _ _ _ _ _ M C0) as (_ & _ & _ & Hse & Hpk & Hen).
  rewrite (c_uc _ _ _ _ _ _ _ _ _ C0). apply cnt_zero. intros i _.
  destruct (c_unwired _ _ _ _ _ _ _ _ _ C0 Hw i) as [H1 H2]. destruct (Hse i) as [H3 H4].
  specialize (Hpk i). destruct (ph i) eqn:Ep; auto; try congruence.
  destruct Hpk as [Hp|Hp]; auto; subst.
  - specialize (Hc i eq_refl). congruence.
  - now destruct (Hg i).
Qed.

Ltac inj H := injection H as <- <-.
Ltac notin := cbn; intros; repeat match goal with
  | H : _ \/ _ |- _ => destruct H
  | H : In _ (_ ++ _) |- _ => apply in_app_or in H
  | H : False |- _ => contradiction end; try discriminate; try contradiction.

Theorem step_core c s l s' ev : wf c -> Core c s -> LF c s -> step c l s = Some (s', ev) ->
  Core c s' /\ LF c s'.
Proof.
  intros W C L H. unfold Core, LF in *. destruct l; cbn in H.
  - (* LTau *)
    destruct (stk s) as [|k t] eqn:Es; [discriminate|].
    destruct k; cbn in H.
    + (* KUser *) inj H. split; [now apply neutral_pop in C|]. intros Hi. apply L. now right.
    + (* KRdy *)
      pose proof (main_top c _ _ _ _ _ _ _ KRdy _ eq_refl C) as (-> & Hco & Hfi & Hse & Hpk & Hen).
      pose proof (c_wired _ _ _ _ _ _ _ _ _ C KRdy false (or_introl eq_refl) eq_refl) as Hw.
      destruct (todo s) as [|i l] eqn:Et.
      * destruct (lastf s) eqn:El.
        -- inj H. cbn. rewrite Et. split; [|notin].
           apply core_swap with (k := KRdy); auto; try discriminate; try exact I.
           ++ right. split; auto. eapply (idle_main_uc c _ _ _ _ _ _ _ KRdy []); eauto; discriminate.
           ++ intros i Hi. destruct (Hpk i Hi); discriminate.
           ++ intros i Hi. destruct (Hen i Hi); discriminate.
        -- exfalso. apply (wf_ne c W). symmetry. rewrite <- (L (or_introl eq_refl) eq_refl). auto.
      * destruct (core_create c _ _ _ _ _ _ _ KRdy i l (KRdyChk i) W (or_introl (conj eq_refl eq_refl)) eq_refl C) as [_ C1].
        inj H. unfold create. destruct (is_race c); cbn; (split; [exact C1|notin]).
    + (* KRdyChk *)
      pose proof (main_top c _ _ _ _ _ _ _ (KRdyChk i) _ eq_refl C) as (-> & Hco & Hfi & Hse & Hpk & Hen).
      pose proof (c_wired _ _ _ _ _ _ _ _ _ C (KRdyChk i) false (or_introl eq_refl) eq_refl) as Hw.
      pose proof (c_at _ _ _ _ _ _ _ _ _ C (KRdyChk i) (or_introl eq_refl)) as Hat. cbn in Hat.
      unfold gone in H. cbn in H.
      destruct (Hse i) as [Hs1 Hs2]. destruct (ph s i) eqn:Ep; try contradiction; try congruence.
      * (* Parked *) inj H. cbn. split; [|notin].
        apply core_swap with (k := KRdyChk i); auto; try discriminate; try exact I.
        -- intros j Hj. destruct (Hpk j Hj) as [Q|Q]; [|discriminate]. injection Q as <-. auto.
        -- intros j Hj. destruct (Hen j Hj); discriminate.
        -- cbn. congruence.
      * (* Gone *)
        assert (Hnp : forall j, ph s j <> Parked).
        { intros j Hj. destruct (Hpk j Hj) as [Q|Q]; [|discriminate]. injection Q as <-. congruence. }
        assert (U0 : uc s = 0).
        { eapply (idle_main_uc c _ _ _ _ _ _ _ (KRdyChk i) []); eauto; try discriminate; try exact I.
          intros j [= <-]. auto. }
        destruct (knd c) eqn:Ek; inj H; cbn; (split; [|notin]).
        -- apply core_swap with (k := KRdyChk i); auto; try discriminate; try exact I.
           ++ intros j Hj. now destruct (Hnp j).
           ++ intros j Hj. destruct (Hen j Hj); discriminate.
           ++ cbn. congruence.
        -- apply core_swap with (k := KRdyChk i); auto; try discriminate; try exact I.
           ++ intros j Hj. now destruct (Hnp j).
           ++ intros j Hj. destruct (Hen j Hj); discriminate.
           ++ cbn. congruence.
        -- apply core_swap with (k := KRdyChk i); auto; try discriminate; try exact I.
           ++ intros j Hj. now destruct (Hnp j).
           ++ intros j Hj. destruct (Hen j Hj); discriminate.
           ++ congruence.
    + (* KGo *)
      pose proof (main_top c _ _ _ _ _ _ _ (KGo i) _ eq_refl C) as (-> & _).
      inj H. cbn. split; [|notin]. eapply core_go; eauto.
    + (* KOut *)
      pose proof (main_top c _ _ _ _ _ _ _ (KOut i) _ eq_refl C) as (-> & Hco & Hfi & Hse & Hpk & Hen).
      pose proof (c_wired _ _ _ _ _ _ _ _ _ C (KOut i) true (or_introl eq_refl) eq_refl) as Hw.
      unfold settle, entering in H. cbn in H.
      assert (Hfin : Core c (fst (settle i (set_stk [KStart] s))) /\
        (forall j, ph (fst (settle i (set_stk [] s))) j <> Entering /\ ph (fst (settle i (set_stk [] s))) j <> Parked)).
      { unfold Core, settle, entering. cbn. destruct (ph s i) eqn:Ep; cbn.
        4: { destruct (settle_core c _ _ _ _ _ _ _ (KOut i) i C (or_introl eq_refl) Ep) as [Q1 Q2]. split; auto. }
        all: assert (Hno : forall j, ph s j <> Entering /\ ph s j <> Parked) by
          (intros j; split; intros Hj; [destruct (Hen j Hj) as [Q|Q]; [injection Q as <-; congruence|discriminate]|
             destruct (Hpk j Hj); discriminate]).
        all: split; [|exact Hno].
        all: apply core_swap with (k := KOut i); auto; try discriminate; try exact I;
          [intros j Hj; destruct (Hno j); contradiction|intros j Hj; destruct (Hno j); contradiction|cbn; congruence]. }
      destruct Hfin as [C1 Hno]. unfold Core, settle, entering in C1, Hno. cbn in C1, Hno.
      assert (Hsw : forall (s1 : state), core c (ph s1) (todo s1) (uc s1) (wired s1) (coro s1) (armed s1) (fin s1) [KStart] ->
         (forall j, ph s1 j <> Entering /\ ph s1 j <> Parked) -> knd c = Race ->
         core c (ph s1) (todo s1) (uc s1) (wired s1) (coro s1) (armed s1) (fin s1) [if uc s1 =? 0 then KResume else KStart]).
      { intros s1 Q Q2 Er. destruct (Nat.eqb_spec (uc s1) 0); auto.
        apply core_swap with (k := KStart); auto; try discriminate; try exact I.
        - intros j Hj. destruct (Q2 j); contradiction.
        - intros j Hj. destruct (Q2 j); contradiction.
        - congruence. }
      destruct (ph s i) eqn:Ep; destruct (knd c) eqn:Ek; inj H; cbn in *; (split; [|notin]); auto;
        try (destruct (uc s =? 0); discriminate); try (apply (Hsw s); auto);
        try (apply (Hsw (set_ph i Susp s)); auto).
    + (* KStart *)
      pose proof (main_top c _ _ _ _ _ _ _ KStart _ eq_refl C) as (-> & Hco & Hfi & Hse & Hpk & Hen).
      pose proof (c_wired _ _ _ _ _ _ _ _ _ C KStart true (or_introl eq_refl) eq_refl) as Hw.
      destruct (todo s) as [|i l] eqn:Et.
      * inj H. cbn. rewrite Et. split; [|notin].
        apply core_swap with (k := KStart); auto; try discriminate; try exact I.
        -- intros j Hj. destruct (Hpk j Hj); discriminate.
        -- intros j Hj. destruct (Hen j Hj); discriminate.
        -- cbn. congruence.
      * destruct (core_create c _ _ _ _ _ _ _ KStart i l (KChk i) W (or_intror (conj eq_refl eq_refl)) eq_refl C) as [_ C1].
        inj H. unfold create. destruct (is_race c); cbn; (split; [exact C1|notin]).
    + discriminate.
    + (* KChk *)
      pose proof (main_top c _ _ _ _ _ _ _ (KChk i) _ eq_refl C) as (-> & Hco & Hfi & Hse & Hpk & Hen).
      pose proof (c_wired _ _ _ _ _ _ _ _ _ C (KChk i) true (or_introl eq_refl) eq_refl) as Hw.
      unfold settle, entering in H. cbn in H.
      assert (Hfin : Core c (fst (settle i (set_stk [KStart] s))) /\
        (forall j, ph (fst (settle i (set_stk [] s))) j <> Entering /\ ph (fst (settle i (set_stk [] s))) j <> Parked)).
      { unfold Core, settle, entering. cbn. destruct (ph s i) eqn:Ep; cbn.
        4: { destruct (settle_core c _ _ _ _ _ _ _ (KChk i) i C (or_intror eq_refl) Ep) as [Q1 Q2]. split; auto. }
        all: assert (Hno : forall j, ph s j <> Entering /\ ph s j <> Parked) by
          (intros j; split; intros Hj; [destruct (Hen j Hj) as [Q|Q]; [discriminate|injection Q as <-; congruence]|
             destruct (Hpk j Hj); discriminate]).
        all: split; [|exact Hno].
        all: apply core_swap with (k := KChk i); auto; try discriminate; try exact I;
          [intros j Hj; destruct (Hno j); contradiction|intros j Hj; destruct (Hno j); contradiction|cbn; congruence]. }
      destruct Hfin as [C1 Hno]. unfold Core, settle, entering in C1, Hno. cbn in C1, Hno.
      assert (Hsw : forall (s1 : state) (b : bool), core c (ph s1) (todo s1) (uc s1) (wired s1) (coro s1) (armed s1) (fin s1) [KStart] ->
         (forall j, ph s1 j <> Entering /\ ph s1 j <> Parked) -> knd c = Race -> wired s1 = true ->
         core c (ph s1) (todo s1) (uc s1) (wired s1) (coro s1) (armed s1) (fin s1) [if b then KArm else KStart]).
      { intros s1 b Q Q2 Er Qw. destruct b; auto.
        apply core_swap with (k := KStart); auto; try discriminate; try exact I.
        - intros j Hj. destruct (Q2 j); contradiction.
        - intros j Hj. destruct (Q2 j); contradiction.
        - cbn. congruence.
        - congruence. }
      destruct (ph s i) eqn:Ep; destruct (knd c) eqn:Ek; inj H; cbn in *; (split; [|notin]); auto;
        try (destruct (gone _ _); discriminate); try (apply (Hsw s); auto);
        try (apply (Hsw (set_ph i Susp s)); auto).
    + (* KArm *)
      pose proof (main_top c _ _ _ _ _ _ _ KArm _ eq_refl C) as (-> & Hco & Hfi & Hse & Hpk & Hen).
      pose proof (c_wired _ _ _ _ _ _ _ _ _ C KArm true (or_introl eq_refl) eq_refl) as Hw.
      assert (C1 : core c (ph s) (todo s) (uc s) (wired s) (coro s) (armed s) (fin s) [KArm2]).
      { apply core_swap with (k := KArm); auto; try discriminate; try exact I.
        - intros j Hj. destruct (Hpk j Hj); discriminate.
        - intros j Hj. destruct (Hen j Hj); discriminate.
        - cbn. congruence.
        - intros Hr _. apply (c_todo _ _ _ _ _ _ _ _ _ C); auto. }
      assert (Hno : ~ In KRdy (cancel_all c ++ [KArm2])).
      { intros Q. apply in_stk_neutral in Q; [|apply cancel_all_neutral|reflexivity].
        destruct Q as [Q|[]]; discriminate. }
      destruct (knd c) eqn:Ek; [| |]; try (destruct (err s)); inj H; cbn; rewrite ?app_nil_r;
        (split; [|intros; try contradiction; notin]);
        auto; apply neutral_push; auto using cancel_all_neutral.
    + (* KArm2 *)
      pose proof (main_top c _ _ _ _ _ _ _ KArm2 _ eq_refl C) as (-> & Hco & Hfi & Hse & Hpk & Hen).
      destruct (Nat.eqb_spec (uc s) 0); inj H; cbn; (split; [|notin]).
      * apply core_swap with (k := KArm2); auto; try discriminate; try exact I.
        -- intros j Hj. destruct (Hpk j Hj); discriminate.
        -- intros j Hj. destruct (Hen j Hj); discriminate.
        -- intros Hr _. apply (c_todo _ _ _ _ _ _ _ _ _ C); auto.
      * eapply core_arm; eauto.
    + (* KProbe *) inj H. cbn. apply neutral_pop in C; auto. split; [now apply neutral_push1|].
      intros [|Q]; [discriminate|]. apply L. now right.
    + (* KResume *) inj H. cbn. apply core_resume in C as (C & _). split; auto.
      intros Q Q2. exfalso. pose proof (c_tok _ _ _ _ _ _ _ _ _ C) as T.
      pose proof (cnt_pos main t KRdy Q eq_refl). cbn in T. lia.
    + (* KInt *) apply neutral_pop in C; auto. cbn in H.
      destruct (fin s) eqn:Ef; [|destruct (work s i && intr c i)]; inj H; cbn; rewrite ?Ef; (split; [auto using neutral_push1|]);
        [intros Q; apply L; now right|intros [|Q]; [discriminate|apply L; now right]|intros Q; apply L; now right].
    + (* KIntG *) apply neutral_pop in C; auto. cbn in H.
      destruct (fin s) eqn:Ef; [|destruct (intr c i && _)]; inj H; cbn; rewrite ?Ef; (split; [auto using neutral_push1|]);
        [intros Q; apply L; now right|intros [|Q]; [discriminate|apply L; now right]|intros Q; apply L; now right].
    + (* KEmit *) apply neutral_pop in C; auto. cbn in H.
      destruct (fin s) eqn:Ef; [|destruct (canc s i)]; [|unfold emit in H; destruct (running _ i)|];
        inj H; cbn; rewrite ?Ef; (split; [auto using neutral_push1|]);
        try (intros [|Q]; [discriminate|apply L; now right]); intros Q; apply L; now right.
    + (* KFwd *) apply neutral_pop in C; auto. cbn in H.
      destruct (fin s) eqn:Ef; [|destruct (match knd c with Gather => true | _ => canc s i end)];
        [|unfold emit in H; destruct (running _ i)|];
        inj H; cbn; rewrite ?Ef; (split; [auto using neutral_push1|]);
        try (intros [|Q]; [discriminate|apply L; now right]); intros Q; apply L; now right.
    + (* KTx *) inj H. apply neutral_pop in C; auto. split; auto. intros Q. apply L. now right.
    + (* KFin *) inj H. apply neutral_pop in C; auto. split; auto. intros Q. apply L. now right.
    + (* KEnd *)
      destruct (core_end _ _ _ _ _ _ _ _ _ _ W C) as [C1 Hpos].
      destruct (uc s =? 1) eqn:Eu; [destruct (coro s) eqn:Eco|]; inj H; cbn in *; rewrite ?Eco; (split; [auto|]);
        try (intros [|Q]; [discriminate|apply L; now right]); intros Q; apply L; now right.
  - (* LBegin *)
    destruct (stk s) as [|[] t] eqn:Es; try discriminate. injection H as H.
    destruct b as [x|e|]; cbn in H.
    + inj H. destruct (finish_shape c i true x (set_stk t s)) as (ns & N & Q).
      destruct Q as (-> & -> & -> & -> & -> & -> & -> & -> & ->). cbn. split.
      * apply neutral_push; auto. eapply core_begin_finish; eauto.
      * intros Q. apply in_stk_neutral in Q; auto. destruct Q; [discriminate|]. apply L. now right.
    + inj H. destruct (finish_shape c i true (CThrow e) (set_stk t s)) as (ns & N & Q).
      destruct Q as (-> & -> & -> & -> & -> & -> & -> & -> & ->). cbn. split.
      * apply neutral_push; auto. eapply core_begin_finish; eauto.
      * intros Q. apply in_stk_neutral in Q; auto. destruct Q; [discriminate|]. apply L. now right.
    + pose proof (core_park _ _ _ _ _ _ _ _ _ _ W C) as C1.
      destruct (wired s) eqn:Ew; destruct (knd c); cbn in H; rewrite Ew in H; inj H; cbn; rewrite Ew;
        (split; [auto using neutral_push1|]);
        try (intros [|Q]; [discriminate|apply L; now right]); intros Q; apply L; now right.
  - (* LComplete *)
    destruct (user s && running s i) eqn:Eu; [|discriminate]. inj H.
    apply andb_prop in Eu as [_ Er].
    assert (Hp : ph s i = Entering \/ ph s i = Susp)
      by (unfold running in Er; destruct (ph s i); try discriminate; auto).
    destruct (finish_shape c i false x s) as (ns & N & Q).
    destruct Q as (-> & -> & -> & -> & -> & -> & -> & -> & ->). split.
    + apply neutral_push; auto. eapply core_finish; eauto.
    + intros Q. apply in_stk_neutral in Q; auto. destruct Q; [discriminate|]. apply L; auto.
  - (* LTransact *)
    destruct (user s); [|discriminate]. unfold transact in H.
    destruct (is_race c && running s i); [|discriminate]. destruct (idx s); inj H; auto.
    cbn. rewrite <- app_assoc. split.
    + apply neutral_push; [apply cancel_all_neutral|]. apply neutral_push1; auto.
    + intros Q. apply in_stk_neutral in Q; [|apply cancel_all_neutral|auto].
      destruct Q; [discriminate|auto].
  - (* LCancel *)
    destruct (user s && armed s); [|discriminate]. destruct (fin s) eqn:Ef; inj H; cbn; rewrite ?Ef; auto.
    assert (N : forallb neutral (map (fun i => KFwd i t) (idxs c)) = true) by now apply forallb_map_neutral.
    split; [now apply neutral_push|]. intros Q. apply in_stk_neutral in Q; auto.
  - (* LInterrupt *)
    destruct (user s && coro s); [|discriminate]. inj H. cbn.
    assert (N : forallb neutral (map (if is_race c then KInt else KIntG) (idxs c)) = true)
      by (apply forallb_map_neutral; destruct (is_race c); auto).
    split; [now apply neutral_push|]. intros Q. apply in_stk_neutral in Q; auto.
Qed.

Lemma init_core c : wf c -> Core c (init c) /\ LF c (init c).
Proof.
  intros W. unfold Core, LF. cbn. split; [|auto].
  apply neutral_push.
  { destruct (ranged c && negb (is_race c)); auto. now apply forallb_map_neutral. }
  constructor; cbn; try discriminate; auto.
  - symmetry. apply cnt_zero. auto.
  - exists []. split; auto. intros i. split; auto.
  - intros k [<-|[]]. exact I.
  - intros k b [<-|[]]. cbn. congruence.
  - intros _ i. split; discriminate.
Qed.

Theorem run_core c ls : forall s s' tr, wf c -> Core c s -> LF c s -> run c s ls = Some (s', tr) ->
  Core c s' /\ LF c s'.
Proof.
  induction ls as [|l ls IH]; cbn; intros s s' tr W C L H.
  - injection H as <- <-. auto.
  - destruct (step c l s) as [[s1 e1]|] eqn:Es; [|discriminate].
    destruct (run c s1 ls) as [[s2 e2]|] eqn:Er; [|discriminate]. injection H as <- <-.
    destruct (step_core c s l s1 e1 W C L Es) as [C1 L1]. eapply IH; eauto.
Qed.

End Core.
