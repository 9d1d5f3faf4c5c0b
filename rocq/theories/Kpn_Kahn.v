(** Traces of networks: what follows from the order of values and the limits alone. *)
From Coq Require Import List Bool Arith Lia.
From Verif Require Import Channel_Model Kpn_Model Kpn_Spec.
Import ListNotations.

Section Kahn.
Context {V S : Type}.
Variable next : nat -> S -> act V S.
Variables (reader writer : nat -> nat) (start : nat -> S).
Notation event := (Kpn_Model.event V).

Definition beginr (c : nat) (tr : list event) : nat := length (filter (fun e => match e with BeginR _ d => d =? c | _ => false end) tr).
Definition endw (c : nat) (tr : list event) : nat := length (filter (fun e => match e with EndW _ d _ WOk => d =? c | _ => false end) tr).
Definition endr (c : nat) (tr : list event) : nat := length (filter (fun e => match e with EndR _ d _ => d =? c | _ => false end) tr).

(** one event of coroutine [p] *)
Inductive ok (p : nat) : S * bool -> event -> S * bool -> Prop :=
| ok_br x c k : next p x = Rd c k -> ok p (x, false) (BeginR p c) (x, true)
| ok_bw x c v k : next p x = Wr c v k -> ok p (x, false) (BeginW p c v) (x, true)
| ok_cl x c k : next p x = Cl c k -> ok p (x, false) (Closes p c) (k, false)
| ok_er x c k r : next p x = Rd c k -> ok p (x, true) (EndR p c r) (k r, false)
| ok_ew x c v k r : next p x = Wr c v k -> ok p (x, true) (EndW p c v r) (k r, false).

Inductive path (p : nat) (a : S * bool) : list event -> S * bool -> Prop :=
| p_nil : path p a [] a
| p_snoc l b e b' : path p a l b -> ok p b e b' -> path p a (l ++ [e]) b'.

Lemma ok_det p a e1 b1 e2 b2 : ok p a e1 b1 -> ok p a e2 b2 ->
  (e1 = e2 /\ b1 = b2) \/ (exists c r1 r2, e1 = EndR p c r1 /\ e2 = EndR p c r2) \/ exists c v r1 r2, e1 = EndW p c v r1 /\ e2 = EndW p c v r2.
Proof.
  intros H1 H2. inversion H1; subst; inversion H2; subst; try congruence;
  match goal with A : next p ?x = _, B : next p ?x = _ |- _ => rewrite A in B; try discriminate; injection B; intros; subst end; eauto 10.
Qed.
Lemma ok_det' p a e b1 b2 : ok p a e b1 -> ok p a e b2 -> b1 = b2.
Proof.
  intros H1 H2. inversion H1; subst; inversion H2; subst; auto;
  match goal with A : next p ?x = _, B : next p ?x = _ |- _ => rewrite A in B; try discriminate; injection B; intros; subst end; auto.
Qed.

Lemma snoc_nil {A} (l : list A) e : l ++ [e] <> [].
Proof. destruct l; discriminate. Qed.
Lemma path_det p a l b1 b2 : path p a l b1 -> path p a l b2 -> b1 = b2.
Proof.
  intro H. revert b2. induction H as [|l b e b' H IH O]; intros b2 H2.
  - inversion H2; subst; auto. exfalso. eapply snoc_nil; eauto.
  - inversion H2 as [E|l2 c e2 c' H3 O2 E]; subst; [exfalso; symmetry in E; eapply snoc_nil; eauto|]. apply app_inj_tail in E. destruct E as [-> ->].
    rewrite <- (IH _ H3) in O2. exact (ok_det' _ _ _ _ _ O O2).
Qed.
Lemma path_snoc p a l e b : path p a (l ++ [e]) b -> exists b0, path p a l b0 /\ ok p b0 e b.
Proof. intro H. inversion H as [E|l2 c e2 c' H3 O2 E]; subst; [exfalso; symmetry in E; eapply snoc_nil; eauto|]. apply app_inj_tail in E. destruct E as [-> ->]. eauto. Qed.
Lemma path_app p a l t b : path p a (l ++ t) b -> exists b0, path p a l b0.
Proof. revert b. induction t as [|e t IH] using rev_ind; intros b H; [rewrite app_nil_r in H; eauto|]. rewrite app_assoc in H. apply path_snoc in H. destruct H as (b0 & H & _). eauto. Qed.

(** *** Projections *)
Lemma of_app p (a b : list event) : of_proc p (a ++ b) = of_proc p a ++ of_proc p b.
Proof. unfold of_proc. induction a; cbn; [auto|]. destruct (_ =? _); cbn; now rewrite IHa. Qed.
Lemma shut_app c (a b : list event) : shut c (a ++ b) = shut c a || shut c b.
Proof. apply existsb_app. Qed.
Lemma puts_app c (a b : list event) : puts c (a ++ b) = puts c a ++ if shut c a then [] else puts c b.
Proof.
  induction a as [|e a IH]; cbn; [reflexivity|]. destruct e as [p d|p d v|p d|p d r|p d v r]; cbn; rewrite ?IH; auto using app_assoc. destruct (d =? c); cbn; auto.
Qed.
Lemma gets_app c (a b : list event) : gets c (a ++ b) = gets c a ++ gets c b.
Proof. apply flat_map_app. Qed.
Lemma filter_app2 {A} (f : A -> bool) a b : filter f (a ++ b) = filter f a ++ filter f b.
Proof. induction a; cbn; [auto|]. destruct (f a); cbn; now rewrite IHa. Qed.
Lemma beginr_app c a b : beginr c (a ++ b) = beginr c a + beginr c b.
Proof. unfold beginr. now rewrite filter_app2, app_length. Qed.
Lemma endr_app c a b : endr c (a ++ b) = endr c a + endr c b.
Proof. unfold endr. now rewrite filter_app2, app_length. Qed.
Lemma endw_app c a b : endw c (a ++ b) = endw c a + endw c b.
Proof. unfold endw. now rewrite filter_app2, app_length. Qed.

Definition owner (e : event) : Prop :=
  match e with BeginR p c | EndR p c _ => p = reader c | BeginW p c _ | EndW p c _ _ | Closes p c => p = writer c end.

Lemma proj c tr : Forall owner tr ->
  (puts c tr = puts c (of_proc (writer c) tr) /\ shut c tr = shut c (of_proc (writer c) tr)) /\ gets c tr = gets c (of_proc (reader c) tr) /\
  beginr c tr = beginr c (of_proc (reader c) tr) /\ endw c tr = endw c (of_proc (writer c) tr).
Proof.
  induction tr as [|e tr IH] using rev_ind; intro F; [repeat split|]. apply Forall_app in F. destruct F as [F O]. inversion O as [|? ? O' _]; subst. destruct (IH F) as ((H1 & H0) & H2 & H3 & H4).
  rewrite !of_app, !puts_app, !shut_app, !gets_app, !beginr_app, !endw_app, <- H0, <- H1, <- H2, <- H3, <- H4. clear - O'.
  assert (K : forall p, of_proc p [e] = if who e =? p then [e] else []) by (intro p; unfold of_proc; cbn; destruct (_ =? _); reflexivity). rewrite !K.
  destruct e as [p d|p d v|p d|p d r|p d v r]; cbn in *; subst;
  (destruct (Nat.eqb_spec d c) as [->|Ne]; [rewrite ?Nat.eqb_refl|]; unfold shut, puts, gets, beginr, endw; cbn; rewrite ?Nat.eqb_refl;
   repeat (match goal with |- context [if ?a =? ?b then _ else _] => destruct (Nat.eqb_spec a b); subst; cbn end); rewrite ?Nat.eqb_refl; try (repeat split; reflexivity); try congruence;
   try (destruct r; cbn; rewrite ?Nat.eqb_refl; repeat split; reflexivity)).
  all: try (destruct (Nat.eqb_spec d c); [congruence|]; cbn; repeat split; auto; destruct r; reflexivity).
Qed.

Record G (lims : nat -> nat) (tr : list event) : Prop := {
  g_own : Forall owner tr;
  g_path : forall p, exists b, path p (start p, false) (of_proc p tr) b;
  g_fifo : forall t1 p c r t2, tr = t1 ++ EndR p c r :: t2 ->
    match r with RVal v => nth_error (puts c t1) (length (gets c t1)) = Some v | RBroken => shut c t1 = true /\ length (puts c t1) = length (gets c t1) | RAborted => False end;
  g_cap : forall t1 p c v r t2, tr = t1 ++ EndW p c v r :: t2 ->
    match r with WOk => shut c t1 = false /\ endw c t1 < beginr c t1 + lims c | WBroken => shut c t1 = true | WAborted => False end }.

Lemma G_prefix lims a b : G lims (a ++ b) -> G lims a.
Proof.
  intros [H1 H2 H3 H4]. split.
  - apply Forall_app in H1. tauto.
  - intro p. destruct (H2 p) as [x H]. rewrite of_app in H. exact (path_app _ _ _ _ _ H).
  - intros t1 p c r t2 ->. apply (H3 t1 p c r (t2 ++ b)). now rewrite <- app_assoc.
  - intros t1 p c v r t2 ->. apply (H4 t1 p c v r (t2 ++ b)). now rewrite <- app_assoc.
Qed.

Definition cmp {A} (a b : list A) := prefix a b \/ prefix b a.

Lemma prefix_refl {A} (a : list A) : prefix a a.
Proof. exists []. now rewrite app_nil_r. Qed.
Lemma prefix_trans {A} (a b c : list A) : prefix a b -> prefix b c -> prefix a c.
Proof. intros [x ->] [y ->]. exists (x ++ y). now rewrite app_assoc. Qed.
Lemma cmp_prefix {A} (a b c : list A) : cmp a b -> prefix c b -> cmp a c.
Proof.
  intros [P|P] Q; [|right; eapply prefix_trans; eauto]. destruct P as [x ->], Q as [y E]. revert a E. unfold cmp, prefix. clear. revert c y. 
  induction c as [|u c IH]; intros y a E; [right; exists a; reflexivity|]. destruct a as [|w a]; [left; exists (u :: c); reflexivity|].
  injection E as -> E. destruct (IH y a E) as [[t ->]|[t ->]]; [left|right]; exists t; reflexivity.
Qed.
Lemma cmp_nth {A} (a b : list A) n x y : cmp a b -> nth_error a n = Some x -> nth_error b n = Some y -> x = y.
Proof.
  intros [[t ->]|[t ->]] Ha Hb.
  - rewrite nth_error_app1 in Hb; [congruence|]. apply nth_error_Some. congruence.
  - rewrite nth_error_app1 in Ha; [congruence|]. apply nth_error_Some. congruence.
Qed.
Lemma prefix_puts c (a b : list event) : prefix a b -> prefix (puts c a) (puts c b).
Proof. intros [t ->]. rewrite puts_app. eexists; eauto. Qed.
Lemma prefix_gets c (a b : list event) : prefix a b -> prefix (gets c a) (gets c b).
Proof. intros [t ->]. rewrite gets_app. eexists; eauto. Qed.
Lemma prefix_len {A} (a b : list A) : prefix a b -> length a <= length b.
Proof. intros [t ->]. rewrite app_length. lia. Qed.
Lemma cmp_puts c (a b : list event) : cmp a b -> cmp (puts c a) (puts c b).
Proof. intros [P|P]; [left|right]; now apply prefix_puts. Qed.

Lemma prefix_shut c (a b : list event) : prefix a b -> shut c a = true -> shut c b = true /\ puts c b = puts c a.
Proof. intros [t ->] H. rewrite shut_app, puts_app, H. cbn. now rewrite app_nil_r. Qed.

(** where the [n]-th event of [p] is *)
Lemma of_split p (tr : list event) a e b : of_proc p tr = a ++ e :: b -> exists t1 t2, tr = t1 ++ e :: t2 /\ of_proc p t1 = a.
Proof.
  revert a. induction tr as [|x tr IH]; intros a E; [destruct a; discriminate|]. cbn in E. destruct (who x =? p) eqn:W.
  - destruct a as [|y a]; injection E as -> E; [exists [], tr; auto|]. destruct (IH a E) as (t1 & t2 & -> & <-). exists (y :: t1), t2. cbn. rewrite W. auto.
  - destruct (IH a E) as (t1 & t2 & -> & <-). exists (x :: t1), t2. cbn. rewrite W. auto.
Qed.

Section Two.
Variables (lims1 lims2 : nat -> nat).

(** If [e] is the next event of [p] in one trace and [e2] in the other, they are the same. *)
Lemma same_event tr1 tr2 p e e2 t : (forall q, cmp (of_proc q tr1) (of_proc q tr2)) -> G lims1 (tr1 ++ [e]) -> G lims2 tr2 -> who e = p ->
  of_proc p tr2 = of_proc p tr1 ++ e2 :: t -> e = e2.
Proof.
  intros C G1 G2 W E. destruct (of_split _ _ _ _ _ E) as (t1 & t2 & E2 & E1).
  assert (O1 : of_proc p (tr1 ++ [e]) = of_proc p tr1 ++ [e]) by (rewrite of_app; unfold of_proc at 2; cbn; now rewrite W, Nat.eqb_refl).
  destruct (g_path _ _ G1 p) as [b P1]. rewrite O1 in P1. destruct (path_snoc _ _ _ _ _ P1) as (b0 & Q1 & K1).
  assert (G2' : G lims2 (t1 ++ [e2])). { apply (G_prefix _ _ t2). rewrite <- app_assoc. cbn. now rewrite <- E2. }
  assert (W2 : who e2 = p). { assert (In e2 (of_proc p tr2)) as I by (rewrite E; apply in_or_app; right; left; reflexivity). apply filter_In in I. destruct I as [_ I]. now apply Nat.eqb_eq in I. }
  assert (O2 : of_proc p (t1 ++ [e2]) = of_proc p tr1 ++ [e2]) by (rewrite of_app, E1; unfold of_proc at 2; cbn; now rewrite W2, Nat.eqb_refl).
  destruct (g_path _ _ G2' p) as [b2 P2]. rewrite O2 in P2. destruct (path_snoc _ _ _ _ _ P2) as (b3 & Q2 & K2).
  pose proof (g_own _ _ (G_prefix _ _ _ G1)) as Ow1. pose proof (g_own _ _ (G_prefix _ _ _ G2')) as Ow2. pose proof (g_own _ _ G1) as Ow. apply Forall_app in Ow. destruct Ow as [_ Op]. apply Forall_inv in Op. cbn in Op.
  rewrite (path_det _ _ _ _ _ Q2 Q1) in K2. destruct (ok_det _ _ _ _ _ _ K1 K2) as [[H _]|[(c & r1 & r2 & H1 & H2)|(c & v & r1 & r2 & H1 & H2)]]; [exact H| |]; subst e e2; cbn in *.
  - pose proof (g_fifo _ _ G1 tr1 p c r1 [] eq_refl) as F1. pose proof (g_fifo _ _ G2' t1 p c r2 [] eq_refl) as F2.
    destruct (proj c tr1 Ow1) as ((A1 & A0) & A2 & _). destruct (proj c t1 Ow2) as ((B1 & B0) & B2 & _).
    assert (L : length (gets c tr1) = length (gets c t1)) by (rewrite A2, B2, <- Op; now rewrite E1). rewrite <- L in F2.
    assert (Co : cmp (of_proc (writer c) tr1) (of_proc (writer c) t1)).
    { eapply cmp_prefix; [apply C|]. rewrite E2, of_app. eexists; eauto. }
    assert (Cp : cmp (puts c tr1) (puts c t1)) by (rewrite A1, B1; now apply cmp_puts).
    assert (Ab : forall (a b : list event) n (x : V), cmp a b -> shut c a = true -> length (puts c a) = n -> nth_error (puts c b) n = Some x -> False).
    { clear - c. intros a b n x Cx Sh Ln Nt. assert (n < length (puts c b)) by (apply nth_error_Some; congruence).
      destruct Cx as [Cx|Cx]; [destruct (prefix_shut c _ _ Cx Sh) as [_ Ex]; rewrite Ex in *; lia|apply (prefix_puts c), prefix_len in Cx; lia]. }
    destruct r1 as [v1| |], r2 as [v2| |]; try tauto; [now rewrite (cmp_nth _ _ _ _ _ Cp F1 F2)| |].
    + exfalso. destruct F2 as [F2 F3]. rewrite B0 in F2. rewrite B1 in F3. rewrite A1 in F1. apply (Ab (of_proc (writer c) t1) (of_proc (writer c) tr1) (length (gets c tr1)) v1); auto. destruct Co; [right|left]; auto.
    + exfalso. destruct F1 as [F1 F3]. rewrite A0 in F1. rewrite A1 in F3. rewrite B1 in F2. apply (Ab (of_proc (writer c) tr1) (of_proc (writer c) t1) (length (gets c tr1)) v2); auto.
  - pose proof (g_cap _ _ G1 tr1 p c v r1 [] eq_refl) as F1. pose proof (g_cap _ _ G2' t1 p c v r2 [] eq_refl) as F2.
    destruct (proj c tr1 Ow1) as ((_ & A0) & _). destruct (proj c t1 Ow2) as ((_ & B0) & _). rewrite <- Op in A0, B0. rewrite E1, <- A0 in B0. rewrite B0 in F2.
    destruct r1, r2; try tauto; exfalso; intuition congruence.
Qed.

(** Kahn: what a coroutine does and sees does not depend on the schedule, except for how far it gets. *)
Lemma comparable tr1 tr2 : G lims1 tr1 -> G lims2 tr2 -> forall p, cmp (of_proc p tr1) (of_proc p tr2).
Proof.
  intros G1 G2. induction tr1 as [|e tr1 IH] using rev_ind; intro p; [left; exists (of_proc p tr2); reflexivity|].
  specialize (IH (G_prefix _ _ _ G1)). rewrite of_app. unfold of_proc at 2. cbn. destruct (Nat.eqb_spec (who e) p) as [W|W]; [|rewrite app_nil_r; apply IH].
  destruct (IH p) as [[t E]|[t E]].
  - destruct t as [|e2 t]; [right; rewrite app_nil_r in E; rewrite E; exists [e]; reflexivity|].
    rewrite (same_event tr1 tr2 p e e2 t IH G1 G2 W E). left. exists t. rewrite E, <- app_assoc. reflexivity.
  - right. exists (t ++ [e]). rewrite E, app_assoc. reflexivity.
Qed.

(** What is known of a trace that ends at rest. *)
Definition stopped tr : Prop := forall p x b, path p (start p, false) (of_proc p tr) (x, b) ->
  match next p x with
  | Done => True
  | Rd c _ => b = true /\ shut c tr = false /\ length (puts c tr) = length (gets c tr)
  | Wr c _ _ => b = true /\ shut c tr = false /\ endw c tr = beginr c tr + lims1 c
  | Cl _ _ => False
  end.

Lemma maximal tr1 tr2 : G lims1 tr1 -> stopped tr1 -> G lims2 tr2 -> (forall c, lims2 c <= lims1 c) -> forall p, prefix (of_proc p tr2) (of_proc p tr1).
Proof.
  intros G1 St G2 L. induction tr2 as [|e tr2 IH] using rev_ind; intro p; [exists (of_proc p tr1); reflexivity|].
  specialize (IH (G_prefix _ _ _ G2)). rewrite of_app. unfold of_proc at 2. cbn. destruct (Nat.eqb_spec (who e) p) as [W|W]; [|rewrite app_nil_r; apply IH].
  assert (O : of_proc p (tr2 ++ [e]) = of_proc p tr2 ++ [e]) by (rewrite of_app; unfold of_proc at 2; cbn; now rewrite W, Nat.eqb_refl).
  destruct (comparable _ _ G1 G2 p) as [[t E]|[t E]]; rewrite O in E; [|exists t; exact E].
  destruct (IH p) as [u Eu]. rewrite Eu, <- app_assoc in E. apply app_inv_head in E.
  destruct u as [|x u]; [|injection E as -> E; exists u; rewrite Eu, <- app_assoc; reflexivity].
  exfalso. rewrite app_nil_r in Eu. clear E t.
  destruct (g_path _ _ G2 p) as [b P]. rewrite O in P. destruct (path_snoc _ _ _ _ _ P) as ([x0 b0] & Q & K). rewrite <- Eu in Q. specialize (St p x0 b0 Q).
  pose proof (g_own _ _ G1) as Ow1. pose proof (g_own _ _ (G_prefix _ _ _ G2)) as Ow2. pose proof (g_own _ _ G2) as Ow. apply Forall_app in Ow. destruct Ow as [_ Op]. apply Forall_inv in Op.
  clear W. inversion K as [x c k Ne|x c v k Ne|x c k Ne|x c k r Ne|x c v k r Ne]; subst; rewrite Ne in St; cbn in *; try (destruct St; discriminate); try tauto.
  - destruct St as (_ & S0 & St). pose proof (g_fifo _ _ G2 tr2 _ c r [] eq_refl) as F.
    destruct (proj c tr1 Ow1) as ((A1 & A0) & A2 & _). destruct (proj c tr2 Ow2) as ((B1 & B0) & B2 & _).
    assert (Lg : length (gets c tr2) = length (gets c tr1)). { rewrite A2, B2. rewrite Op in Eu. now rewrite Eu. }
    destruct r as [v| |]; [|tauto|destruct F as [F _]; rewrite B0 in F; destruct (prefix_shut c _ _ (IH (writer c)) F); congruence].
    assert (nth_error (puts c tr2) (length (gets c tr2)) <> None) as N by congruence. apply nth_error_Some in N.
    assert (length (puts c tr2) <= length (puts c tr1)) by (apply prefix_len; rewrite A1, B1; apply prefix_puts, IH). lia.
  - destruct St as (_ & S0 & St). pose proof (g_cap _ _ G2 tr2 _ c v r [] eq_refl) as F. specialize (L c).
    destruct (proj c tr1 Ow1) as ((_ & A0) & _ & A3 & A4). destruct (proj c tr2 Ow2) as ((_ & B0) & _ & B3 & B4).
    destruct r; [|tauto|rewrite B0 in F; destruct (prefix_shut c _ _ (IH (writer c)) F); congruence]. destruct F as [_ F].
    assert (endw c tr2 = endw c tr1). { rewrite A4, B4. rewrite Op in Eu. now rewrite Eu. }
    assert (beginr c tr2 <= beginr c tr1). { rewrite A3, B3. destruct (IH (reader c)) as [t ->]. rewrite beginr_app. lia. } lia.
Qed.
End Two.

(** Nothing is counted twice. *)
Lemma of_perm (tr1 : list event) : forall tr2, (forall p, prefix (of_proc p tr1) (of_proc p tr2)) -> length tr1 <= length tr2.
Proof.
  induction tr1 as [|e tr1 IH]; intros tr2 H; [cbn; lia|].
  assert (E : exists t, of_proc (who e) tr2 = [] ++ e :: t).
  { destruct (H (who e)) as [t E]. cbn in E. rewrite Nat.eqb_refl in E. cbn in E. eauto. }
  destruct E as [t E]. destruct (of_split _ _ _ _ _ E) as (a & b & -> & Ea). rewrite app_length. cbn.
  enough (length tr1 <= length (a ++ b)) by (rewrite app_length in *; lia). apply IH. intro p. specialize (H p). rewrite of_app in *. cbn in H. destruct (Nat.eqb_spec (who e) p) as [W|W]; [|exact H].
  subst p. rewrite Ea in *. destruct H as [u H]. cbn in H. injection H as H. exists u. exact H.
Qed.
End Kahn.
