(** * Combinators inside combinators: the invariant and its proof *)
From Coq Require Import List Bool Arith Lia.
From Verif Require Import Nst_Model Nst_Spec.
Import ListNotations.
Local Arguments Nat.ltb : simpl never.
Local Arguments Nat.eqb : simpl never.

Section Proofs.
Context {V E : Type}.
Notation tree := (tree V E).
Notation out := (out V E).
Notation event := (event V E).
Notation comp := (comp V E).
Notation st := (st V E).
Notation cell := (cell V E).

Lemma tree_ind2 (P : tree -> Prop) :
  (forall id now, P (Op id now)) -> (forall k ct l, Forall P l -> P (Comb k ct l)) -> forall t, P t.
Proof.
  intros HO HC. fix IH 1. intros [id now|k ct l]; [apply HO|].
  apply HC. induction l as [|t l IHl]; constructor; [apply IH|exact IHl].
Qed.

(** ** Traces *)
Definition touches (e : list event) : list nat := started e ++ map fst (dones e).
Definition apart (e : list event) (t : tree) : Prop := forall id, In id (leaves t) -> ~ In id (touches e).

Lemma started_app (a b : list event) : started (a ++ b) = started a ++ started b.
Proof. apply flat_map_app. Qed.
Lemma dones_app (a b : list event) : dones (a ++ b) = dones a ++ dones b.
Proof. apply flat_map_app. Qed.
Lemma signalled_app (a b : list event) : signalled (a ++ b) = signalled a ++ signalled b.
Proof. apply flat_map_app. Qed.
Lemma results_app (a b : list event) : results (a ++ b) = results a ++ results b.
Proof. apply flat_map_app. Qed.
Lemma touches_in (a : list event) id : In id (touches a) <-> In id (started a) \/ In id (map fst (dones a)).
Proof. unfold touches. rewrite in_app_iff. tauto. Qed.
Lemma touches_app (a b : list event) id : In id (touches (a ++ b)) <-> In id (touches a) \/ In id (touches b).
Proof. rewrite !touches_in, started_app, dones_app, map_app, !in_app_iff. tauto. Qed.

Lemma filled_comb k ct (l : list tree) : filled (Comb k ct l) <-> l <> [] /\ Forall filled l.
Proof.
  cbn. split; intros [H1 H2]; (split; [exact H1|]); clear H1; induction l as [|t l IH]; cbn in *; auto.
  - destruct H2; constructor; auto.
  - inversion H2; subst. auto.
Qed.

Lemma apart_child e k ct (l : list tree) t : apart e (Comb k ct l) -> In t l -> apart e t.
Proof. intros H Hi id Hid. apply H. cbn. apply in_flat_map. eauto. Qed.

(** ** find_at *)
Lemma find_none n id (d : list (nat * comp)) : find_at n id d = None <-> ~ In id (map fst d).
Proof.
  revert n. induction d as [|[j x] d IH]; intros n; cbn; [tauto|].
  destruct (Nat.eqb_spec j id); [split; [discriminate|intros H; exfalso; apply H; auto]|].
  rewrite IH. intuition.
Qed.
Lemma find_app n id (d d' : list (nat * comp)) : ~ In id (map fst d') -> find_at n id (d ++ d') = find_at n id d.
Proof.
  revert n. induction d as [|[j x] d IH]; intros n H; cbn.
  - apply find_none. exact H.
  - destruct (j =? id); [reflexivity|]. apply IH, H.
Qed.
Lemma find_last n id x (d : list (nat * comp)) :
  ~ In id (map fst d) -> find_at n id (d ++ [(id, x)]) = Some (n + length d, op_out x).
Proof.
  revert n. induction d as [|[j y] d IH]; intros n H; cbn.
  - rewrite Nat.eqb_refl. f_equal. f_equal. lia.
  - cbn in H. destruct (Nat.eqb_spec j id); [exfalso; auto|]. rewrite IH by tauto. do 2 f_equal. lia.
Qed.
Lemma find_bound n id (d : list (nat * comp)) m o : find_at n id d = Some (m, o) -> m < n + length d /\ o <> OUndef.
Proof.
  revert n. induction d as [|[j x] d IH]; intros n; cbn; [discriminate|].
  destruct (j =? id).
  - intros [= <- <-]. split; [lia|]. destruct x; discriminate.
  - intros H. apply IH in H. split; [lia|tauto].
Qed.

(** ** first_of *)
Lemma first_none i (l : list (option (nat * out))) : first_of i l = None <-> Forall (fun r => r = None) l.
Proof.
  revert i. induction l as [|[[n o]|] l IH]; intros i; cbn.
  - split; auto.
  - split; [|intros H; inversion H; discriminate].
    destruct (first_of (S i) l) as [[[j m] o']|]; [destruct (m <? n)|]; discriminate.
  - rewrite IH. split; [auto|intros H; inversion H; auto].
Qed.
Lemma first_some i (l : list (option (nat * out))) j m o :
  first_of i l = Some (j, m, o) -> In (Some (m, o)) l.
Proof.
  revert i. induction l as [|[[n o1]|] l IH]; intros i; cbn; [discriminate| |].
  - destruct (first_of (S i) l) as [[[j' m'] o']|] eqn:Hf; [destruct (m' <? n)|]; intros [= <- <- <-]; eauto.
  - intros H. right. eauto.
Qed.
Lemma first_min i (l : list (option (nat * out))) j m o n o' :
  first_of i l = Some (j, m, o) -> In (Some (n, o')) l -> m <= n.
Proof.
  revert i j m o. induction l as [|[[n1 o1]|] l IH]; intros i j m o; cbn; [discriminate| |].
  - destruct (first_of (S i) l) as [[[j1 m1] o1']|] eqn:Hf.
    + destruct (Nat.ltb_spec m1 n1); intros [= <- <- <-] [[= <- <-]|Hi]; try lia;
        specialize (IH _ _ _ _ Hf Hi); lia.
    + intros [= <- <- <-] [[= <- <-]|Hi]; [lia|].
      apply first_none in Hf. rewrite Forall_forall in Hf. apply Hf in Hi. discriminate.
  - intros Hf [H|Hi]; [discriminate|]. eauto.
Qed.
Lemma in_insert {A} (x : A) (a b : list (option A)) y : In (Some x) (a ++ Some y :: b) -> x = y \/ In (Some x) (a ++ None :: b).
Proof.
  rewrite !in_app_iff. cbn. intros [H|[H|H]]; [auto|left; congruence|auto].
Qed.
Lemma first_new_later i (a b : list (option (nat * out))) n o j m o' :
  first_of i (a ++ None :: b) = Some (j, m, o') -> m < n ->
  first_of i (a ++ Some (n, o) :: b) = Some (j, m, o').
Proof.
  revert i. induction a as [|[[n1 o1]|] a IH]; intros i H Hlt; cbn in *.
  - rewrite H. destruct (Nat.ltb_spec m n); [reflexivity|lia].
  - assert (G : forall i j3 m3 o3, first_of i (a ++ Some (n, o) :: b) = Some (j3, m3, o3) ->
             m3 = n \/ In (Some (m3, o3)) (a ++ None :: b)).
    { intros i0 j3 m3 o3 Hf. apply first_some in Hf. apply in_insert in Hf as [Hf|Hf]; [left; congruence|auto]. }
    destruct (first_of (S i) (a ++ None :: b)) as [[[j1 m1] o1']|] eqn:Hf.
    + destruct (Nat.ltb_spec m1 n1); inversion H; subst.
      * rewrite (IH _ Hf) by lia. destruct (Nat.ltb_spec m n1); [reflexivity|lia].
      * destruct (first_of (S j) (a ++ Some (n, o) :: b)) as [[[j3 m3] o3]|] eqn:Hg; [|reflexivity].
        destruct (Nat.ltb_spec m3 m); [|reflexivity].
        apply G in Hg as [->|Hg]; [lia|]. pose proof (first_min _ _ _ _ _ _ _ Hf Hg). lia.
    + inversion H; subst.
      destruct (first_of (S j) (a ++ Some (n, o) :: b)) as [[[j3 m3] o3]|] eqn:Hg; [|reflexivity].
      destruct (Nat.ltb_spec m3 m); [|reflexivity].
      apply G in Hg as [->|Hg]; [lia|]. apply first_none in Hf. rewrite Forall_forall in Hf. apply Hf in Hg. discriminate.
  - apply IH; auto.
Qed.
Lemma first_new i (a b : list (option (nat * out))) n o :
  first_of i (a ++ None :: b) = None -> first_of i (a ++ Some (n, o) :: b) = Some (i + length a, n, o).
Proof.
  revert i. induction a as [|[[n1 o1]|] a IH]; intros i H; cbn in *.
  - rewrite H, Nat.add_0_r. reflexivity.
  - destruct (first_of (S i) (a ++ None :: b)) as [[[j1 m1] o1']|]; [destruct (m1 <? n1)|]; discriminate.
  - rewrite IH by exact H. do 3 f_equal. lia.
Qed.
Lemma first_app_none i (a : list (option (nat * out))) : first_of i (a ++ [None]) = first_of i a.
Proof.
  revert i. induction a as [|[[n1 o1]|] a IH]; intros i; cbn; [reflexivity| |apply IH]. rewrite IH. reflexivity.
Qed.

(** ** ends *)
Lemma begun_iff (tr : list event) t : begun tr t = true <-> exists id, In id (leaves t) /\ In id (started tr).
Proof.
  unfold begun. rewrite existsb_exists. split.
  - intros (id & H1 & H2). apply existsb_exists in H2 as (j & H2 & H3). apply Nat.eqb_eq in H3. subst. eauto.
  - intros (id & H1 & H2). exists id. split; [exact H1|]. apply existsb_exists. exists id.
    split; [exact H2|apply Nat.eqb_refl].
Qed.
Lemma begun_ext (tr e : list event) t : apart e t -> begun (tr ++ e) t = begun tr t.
Proof.
  intros H. apply eq_true_iff_eq. rewrite !begun_iff. split; intros (id & H1 & H2); exists id; (split; [exact H1|]).
  - rewrite started_app, in_app_iff in H2. destruct H2 as [H2|H2]; [exact H2|].
    exfalso. apply (H id H1). apply touches_in. auto.
  - rewrite started_app. apply in_app_iff. auto.
Qed.
Lemma existsb_ext_in {A} (f g : A -> bool) l : (forall x, In x l -> f x = g x) -> existsb f l = existsb g l.
Proof. induction l as [|x l IH]; cbn; intros H; [reflexivity|]. rewrite H, IH; auto. Qed.

Lemma ends_ext (tr e : list event) t : apart e t -> ends (tr ++ e) t = ends tr t.
Proof.
  induction t as [id now|k ct l IH] using tree_ind2; intros H.
  - cbn. rewrite dones_app. apply find_app. intros Hi. apply (H id); [cbn; auto|]. apply touches_in. auto.
  - rewrite Forall_forall in IH.
    assert (Hm : forall t, In t l -> ends (tr ++ e) t = ends tr t).
    { intros t Ht. apply IH; [exact Ht|]. eapply apart_child; eauto. }
    cbn. rewrite (map_ext_in _ _ _ Hm).
    rewrite (existsb_ext_in _ (fun t => begun tr t && match ends tr t with None => true | Some _ => false end)); [reflexivity|].
    intros t Ht. rewrite Hm by exact Ht. rewrite begun_ext; [reflexivity|]. eapply apart_child; eauto.
Qed.
Lemma map_ends_ext (tr e : list event) l : Forall (apart e) l -> map (ends (tr ++ e)) l = map (ends tr) l.
Proof. intros H. apply map_ext_in. intros t Ht. apply ends_ext. rewrite Forall_forall in H. auto. Qed.

Lemma every_in {A} (l : list (option A)) xs : every l = Some xs -> Forall (fun r => r <> None) l.
Proof.
  revert xs. induction l as [|[a|] l IH]; cbn; intros xs; [constructor| |discriminate].
  destruct (every l); [|discriminate]. intros _. constructor; [discriminate|]. eapply IH. reflexivity.
Qed.
Lemma every_none {A} (l : list (option A)) : In None l -> every l = None.
Proof.
  induction l as [|[a|] l IH]; cbn; [tauto| |reflexivity].
  intros [H|H]; [discriminate|]. rewrite IH by exact H. reflexivity.
Qed.
Lemma every_some {A} (l : list (option A)) : Forall (fun r => r <> None) l -> exists xs, every l = Some xs /\ l = map Some xs.
Proof.
  induction 1 as [|[a|] l H _ (xs & H1 & H2)]; cbn; [exists []; auto| |tauto].
  exists (a :: xs). rewrite H1, H2. auto.
Qed.

Lemma times_in n (l : list (option (nat * out))) : In n (times l) <-> exists o, In (Some (n, o)) l.
Proof.
  unfold times. rewrite in_flat_map. split.
  - intros ([[m o]|] & H1 & H2); cbn in H2; [|tauto]. destruct H2 as [<-|[]]. eauto.
  - intros (o & H). exists (Some (n, o)). cbn. auto.
Qed.
Lemma list_max_below l b : l <> [] -> Forall (fun n => n < b) l -> list_max l < b.
Proof.
  induction l as [|n l IH]; [tauto|]. intros _ H. inversion H; subst. cbn.
  destruct l as [|m l]; [cbn; lia|]. specialize (IH ltac:(discriminate) H3). cbn in *. lia.
Qed.

Lemma ends_bound (tr : list event) t : filled t ->
  forall n o, ends tr t = Some (n, o) -> n < length (dones tr) /\ o <> OUndef.
Proof.
  induction t as [id now|k ct l IH] using tree_ind2; intros Hf n o.
  - cbn. intros H. apply find_bound in H. exact H.
  - apply filled_comb in Hf as [Hne Hf]. rewrite Forall_forall in IH, Hf.
    assert (HB : forall m o, In (Some (m, o)) (map (ends tr) l) -> m < length (dones tr) /\ o <> OUndef).
    { intros m o1 Hi. apply in_map_iff in Hi as (t & Ht & Hi). eapply IH; eauto. }
    assert (HT : times (map (ends tr) l) <> [] -> list_max (times (map (ends tr) l)) < length (dones tr)).
    { intros Hn. apply list_max_below; [exact Hn|]. apply Forall_forall. intros m Hm.
      apply times_in in Hm as (o1 & Hm). apply HB in Hm. tauto. }
    assert (HE : forall xs, every (map (ends tr) l) = Some xs -> times (map (ends tr) l) <> []).
    { intros xs Hx. apply every_in in Hx. destruct l as [|t l]; [tauto|]. cbn in Hx. inversion Hx; subst.
      cbn. destruct (ends tr t) as [[m o1]|]; [discriminate|tauto]. }
    cbn. destruct k.
    + destruct (every _) as [xs|] eqn:Hx; [|discriminate]. intros [= <- <-]. split; [eauto|discriminate].
    + destruct (every _) as [xs|] eqn:Hx; [|discriminate]. intros [= <- <-]. split; [eauto|].
      destruct (first_of 0 _) as [[[i m] o1]|] eqn:Hfo; [|discriminate].
      apply first_some in Hfo. apply in_map_iff in Hfo as (r & Hr & Hi). destruct r as [[m1 [v|e|]]|]; cbn in Hr; try discriminate.
      injection Hr as <- <-. discriminate.
    + destruct (existsb _ l); [discriminate|].
      destruct (first_of 0 _) as [[[i m] o1]|] eqn:Hfo; [|discriminate].
      apply first_some in Hfo.
      assert (Hn : times (map (ends tr) l) <> []).
      { intros Hn. assert (Hi : In m (times (map (ends tr) l))) by (apply times_in; eauto). rewrite Hn in Hi. exact Hi. }
      specialize (HT Hn). apply HB in Hfo as [_ Hfo].
      destruct o1; try (intros [= <- <-]; split; [exact HT|discriminate]); try (exfalso; apply Hfo; reflexivity).
Qed.

(** Nothing in a tree that has ended is still running. *)
Lemma ends_quiet (tr : list event) t n o id :
  ends tr t = Some (n, o) -> In id (leaves t) -> In id (started tr) -> In id (map fst (dones tr)).
Proof.
  revert n o. induction t as [j now|k ct l IH] using tree_ind2; intros n o He Hl Hs.
  - cbn in Hl. destruct Hl as [->|[]]. cbn in He.
    destruct (in_dec Nat.eq_dec id (map fst (dones tr))) as [Hi|Hi]; [exact Hi|].
    apply (find_none 0) in Hi. congruence.
  - rewrite Forall_forall in IH. cbn in Hl. apply in_flat_map in Hl as (t & Ht & Hl).
    assert (G : ends tr t <> None).
    { intros Hn. assert (HN : In None (map (ends tr) l)) by (rewrite <- Hn; apply in_map; exact Ht).
      cbn in He. destruct k; [rewrite every_none in He by exact HN; discriminate|rewrite every_none in He by exact HN; discriminate|].
      assert (HX : existsb (fun t => begun tr t && match ends tr t with None => true | Some _ => false end) l = true).
      { apply existsb_exists. exists t. split; [exact Ht|]. rewrite Hn. rewrite andb_true_r. apply begun_iff. eauto. }
      rewrite HX in He. discriminate. }
    destruct (ends tr t) as [[m o1]|] eqn:Hn; [|tauto]. eapply IH; eauto.
Qed.

Definition untouched (tr : list event) (t : tree) : Prop := forall id, In id (leaves t) -> ~ In id (touches tr).
Lemma ends_untouched (tr : list event) t : filled t -> untouched tr t -> ends tr t = None.
Proof.
  induction t as [j now|k ct l IH] using tree_ind2; intros Hf Hu.
  - cbn. apply find_none. intros Hi. apply (Hu j); [cbn; auto|]. apply touches_in. auto.
  - apply filled_comb in Hf as [Hne Hf]. rewrite Forall_forall in IH, Hf.
    assert (G : forall t, In t l -> ends tr t = None).
    { intros t Ht. apply IH; auto. intros id Hid. apply Hu. cbn. apply in_flat_map. eauto. }
    destruct l as [|t l]; [tauto|].
    assert (GF : Forall (fun r => r = None) (map (ends tr) (t :: l))).
    { apply Forall_forall. intros r Hr. apply in_map_iff in Hr as (t1 & <- & H1). auto. }
    assert (HN : In None (map (ends tr) (t :: l))) by (rewrite <- (G t) by (cbn; auto); cbn; auto).
    apply (first_none 0) in GF.
    cbn [ends]. destruct k; [rewrite every_none by exact HN; reflexivity..|].
    destruct (existsb _ _); [reflexivity|]. rewrite GF. reflexivity.
Qed.

(** ** The invariant *)
Fixpoint waits (s : st) : list nat :=
  match s with
  | SOp id => [id]
  | SComb _ _ _ _ cs => flat_map (fun c => match c with CRun _ s => waits s | _ => [] end) cs
  end.

Definition dec (k : kind) (ix : option nat) (er : option E) : bool :=
  match k with
  | Gather => false
  | Join => match er with Some _ => true | None => false end
  | Race => match ix with Some _ => true | None => false end
  end.

Definition store (tr : list event) (k : kind) (ix : option nat) (t : tree) (c : cell) : Prop :=
  match c with
  | CEnd r =>
      match k with
      | Gather => forall n o, ends tr t = Some (n, o) -> r = Some o
      | Join => forall n v, ends tr t = Some (n, OVal v) -> r = Some (OVal v)
      | Race => True
      end
  | CIdle => k = Race /\ ix <> None
  | CRun _ _ => True
  end.
Definition regs (k : kind) (rs : list (option (nat * out))) (ix : option nat) (er : option E) (cs : list cell) : Prop :=
  match k with
  | Gather => True
  | Join => match first_of 0 (map fails rs) with Some (_, _, o) => exists e, o = OErr e /\ er = Some e | None => er = None end
  | Race => match first_of 0 rs with
            | None => ix = None
            | Some (i, _, o) => ix = Some i /\ nth_error (map stored cs) i = Some (Some o)
            end
  end.
Definition flag (tr : list event) (d d' : bool) (c : cell) : Prop :=
  match c with
  | CRun true s => d = false
  | CRun false s => d' = true /\ incl (waits s) (signalled tr)
  | _ => True
  end.

Fixpoint W (tr : list event) (t : tree) (s : st) {struct t} : Prop :=
  match t, s with
  | Op id _, SOp j => j = id /\ pending tr id
  | Comb k ct l, SComb k' ct' ix er cs =>
      k' = k /\ ct' = ct /\
      (fix F (l : list tree) (cs : list cell) : Prop :=
         match l, cs with
         | [], [] => True
         | t :: l, c :: cs =>
             match c with CRun _ s => W tr t s | CIdle => untouched tr t | CEnd _ => ends tr t <> None end /\ F l cs
         | _, _ => False
         end) l cs /\
      Forall2 (store tr k ix) l cs /\
      regs k (map (ends tr) l) ix er cs /\
      Forall (flag tr (dec k ix er) (dec k ix er)) cs /\
      existsb runs cs = true
  | _, _ => False
  end.
Definition cellOK (tr : list event) (t : tree) (c : cell) : Prop :=
  match c with CRun _ s => W tr t s | CIdle => untouched tr t | CEnd _ => ends tr t <> None end.

Lemma W_comb tr k ct l k' ct' ix er cs :
  W tr (Comb k ct l) (SComb k' ct' ix er cs) <->
  k' = k /\ ct' = ct /\ Forall2 (cellOK tr) l cs /\ Forall2 (store tr k ix) l cs /\
  regs k (map (ends tr) l) ix er cs /\ Forall (flag tr (dec k ix er) (dec k ix er)) cs /\ existsb runs cs = true.
Proof.
  cbn [W].
  assert (G : forall l cs, (fix F (l : list tree) (cs : list cell) : Prop :=
         match l, cs with
         | [], [] => True
         | t :: l, c :: cs =>
             match c with CRun _ s => W tr t s | CIdle => untouched tr t | CEnd _ => ends tr t <> None end /\ F l cs
         | _, _ => False
         end) l cs <-> Forall2 (cellOK tr) l cs).
  { clear. induction l as [|t l IH]; intros [|c cs].
    - split; auto.
    - split; [tauto|intros H; inversion H].
    - split; [tauto|intros H; inversion H].
    - rewrite IH. split; [intros [H1 H2]; constructor; auto|intros H; inversion H; auto]. }
  rewrite G. reflexivity.
Qed.

Lemma W_begun tr t s : W tr t s -> exists id, In id (leaves t) /\ In id (waits s).
Proof.
  revert s. induction t as [j now|k ct l IH] using tree_ind2; intros s HW.
  - destruct s as [i|]; cbn in HW; [|tauto]. destruct HW as [-> HW]. exists j. cbn. auto.
  - destruct s as [i|k' ct' ix er cs]; [cbn in HW; tauto|]. apply W_comb in HW as (_ & _ & HF & _ & _ & _ & Hr).
    cbn. rewrite Forall_forall in IH.
    assert (G : exists id t b s1, In t l /\ In (CRun b s1) cs /\ In id (leaves t) /\ In id (waits s1)).
    { revert IH Hr. induction HF as [|t c l cs Hc HF IHF]; intros IH Hr; [discriminate|].
      cbn in Hr. apply orb_true_iff in Hr as [Hr|Hr].
      - destruct c as [|b s1|]; try discriminate. cbn in Hc. apply IH in Hc as (id & H1 & H2); [|cbn; auto].
        exists id, t, b, s1. cbn. auto.
      - destruct IHF as (id & t1 & b & s1 & H1 & H2 & H3); [intros; apply IH; cbn; auto|exact Hr|].
        exists id, t1, b, s1. cbn. tauto. }
    destruct G as (id & t & b & s1 & H1 & H2 & H3 & H4). exists id. split; apply in_flat_map; eauto; exists (CRun b s1); auto.
Qed.

Lemma W_waits tr t s : W tr t s -> forall id, In id (waits s) <-> In id (leaves t) /\ pending tr id.
Proof.
  revert s. induction t as [j now|k ct l IH] using tree_ind2; intros s HW id.
  - destruct s as [i|]; cbn in HW; [|tauto]. destruct HW as [-> HW]. cbn. split; [intros [->|[]]; auto|tauto].
  - destruct s as [i|k' ct' ix er cs]; [cbn in HW; tauto|]. apply W_comb in HW as (_ & _ & HF & _ & _ & _ & _).
    rewrite Forall_forall in IH. cbn. induction HF as [|t c l cs Hc HF IHF]; cbn; [tauto|].
    rewrite !in_app_iff. rewrite IHF; [|intros; apply IH; cbn; auto].
    assert (G : In id match c with CRun _ s => waits s | _ => [] end <-> In id (leaves t) /\ pending tr id).
    { destruct c as [|b s1|r]; cbn in Hc.
      - split; [cbn; tauto|]. intros [H1 [H2 _]]. exfalso. apply (Hc id H1). apply touches_in. auto.
      - apply IH; [cbn; auto|exact Hc].
      - split; [cbn; tauto|]. intros [H1 [H2 H3]]. destruct (ends tr t) as [[n o]|] eqn:He; [|tauto].
        apply H3. eapply ends_quiet; eauto. }
    tauto.
Qed.

(** Something that waits has not ended. *)
Lemma W_ends tr t s : W tr t s -> ends tr t = None.
Proof.
  intros HW. destruct (W_begun _ _ _ HW) as (id & H1 & H2). apply (W_waits _ _ _ HW) in H2 as [_ [H2 H3]].
  destruct (ends tr t) as [[n o]|] eqn:He; [|reflexivity]. exfalso. apply H3. eapply ends_quiet; eauto.
Qed.

Lemma Forall2_imp {A B} (P Q : A -> B -> Prop) l cs :
  (forall a b, In a l -> In b cs -> P a b -> Q a b) -> Forall2 P l cs -> Forall2 Q l cs.
Proof.
  intros H HF. induction HF; constructor; [apply H; cbn; auto|]. apply IHHF. intros; apply H; cbn; auto.
Qed.

Lemma store_ext tr e k ix t c : apart e t -> store tr k ix t c -> store (tr ++ e) k ix t c.
Proof.
  intros H. destruct c as [| |r]; cbn; auto. rewrite ends_ext by exact H. auto.
Qed.
Lemma flag_ext tr e d d' c : flag tr d d' c -> flag (tr ++ e) d d' c.
Proof.
  destruct c as [|[] s|]; cbn; auto. intros [H1 H2]. split; [exact H1|].
  rewrite signalled_app. apply incl_appl, H2.
Qed.
Lemma pending_ext tr (e : list event) id : ~ In id (touches e) -> pending tr id -> pending (tr ++ e) id.
Proof.
  intros H [H1 H2]. split.
  - rewrite started_app. apply in_app_iff. auto.
  - rewrite dones_app, map_app, in_app_iff. rewrite touches_in in H. tauto.
Qed.
Lemma W_ext tr e t s : apart e t -> W tr t s -> W (tr ++ e) t s.
Proof.
  revert s. induction t as [j now|k ct l IH] using tree_ind2; intros s Ha HW.
  - destruct s as [i|]; cbn in HW; [|tauto]. destruct HW as [-> HW]. cbn. split; [reflexivity|].
    apply pending_ext; [apply Ha; cbn; auto|exact HW].
  - destruct s as [i|k' ct' ix er cs]; [cbn in HW; tauto|]. apply W_comb in HW as (-> & -> & HF & HS & HR & HG & Hr).
    rewrite Forall_forall in IH.
    assert (HA : Forall (apart e) l) by (apply Forall_forall; intros; eapply apart_child; eauto).
    apply W_comb. rewrite map_ends_ext by exact HA. rewrite Forall_forall in HA.
    repeat split; auto.
    + eapply Forall2_imp; [|exact HF]. intros t c Ht _. destruct c as [|b s1|r]; cbn.
      * intros Hu id Hid. rewrite touches_app. intros [H|H]; [exact (Hu id Hid H)|]. exact (HA t Ht id Hid H).
      * apply IH; auto.
      * rewrite ends_ext by auto. auto.
    + eapply Forall2_imp; [|exact HS]. intros t c Ht _. apply store_ext; auto.
    + eapply Forall_impl; [|exact HG]. intros c. apply flag_ext.
Qed.
Lemma cellOK_ext tr e t c : apart e t -> cellOK tr t c -> cellOK (tr ++ e) t c.
Proof.
  intros Ha. destruct c as [|b s1|r]; cbn.
  - intros Hu id Hid. rewrite touches_app. intros [H|H]; [exact (Hu id Hid H)|]. exact (Ha id Hid H).
  - apply W_ext, Ha.
  - rewrite ends_ext by exact Ha. auto.
Qed.

(** ** Signals *)
Definition only_sigs (e : list event) : Prop := forall x, In x e -> exists id t, x = ESig id t.
Lemma sigs_touches e : only_sigs e -> started e = [] /\ dones e = [] /\ results e = [].
Proof.
  induction e as [|x e IH]; intros H; [auto|].
  destruct (H x) as (id & t & ->); [cbn; auto|]. cbn. apply IH. intros y Hy. apply H. cbn. auto.
Qed.
Lemma sigs_apart e t : only_sigs e -> apart e t.
Proof. intros H id _. unfold touches. apply sigs_touches in H as (-> & -> & _). cbn. tauto. Qed.
Lemma only_sigs_app a b : only_sigs a -> only_sigs b -> only_sigs (a ++ b).
Proof. intros H1 H2 x Hx. apply in_app_iff in Hx as [Hx|Hx]; auto. Qed.

Lemma st_ind2 (P : st -> Prop) :
  (forall id, P (SOp id)) ->
  (forall k ct ix er cs, (forall b s, In (CRun b s) cs -> P s) -> P (SComb k ct ix er cs)) -> forall s, P s.
Proof.
  intros HO HC. fix IH 1. intros [id|k ct ix er cs]; [apply HO|].
  apply HC. induction cs as [|c cs IHc]; intros b s Hi; [destruct Hi|].
  destruct Hi as [Hi|Hi]; [|eapply IHc; exact Hi].
  destruct c as [|b1 s1|r]; try discriminate Hi.
  assert (s1 = s) by congruence. rewrite <- H. apply IH.
Qed.
Lemma signal_sigs t (s : st) : forall x, In x (signal t s) -> exists id, x = ESig id t /\ In id (waits s).
Proof.
  induction s as [id|k ct ix er cs IH] using st_ind2; intros x Hx.
  - cbn in *. destruct Hx as [<-|[]]. eauto.
  - cbn in *. apply in_flat_map in Hx as (c & Hc & Hx). destruct c as [|b s|r]; try (destruct Hx; fail).
    destruct (is_gather k || b); [|destruct Hx].
    destruct (IH _ _ Hc _ Hx) as (id & -> & Hi). exists id. split; [reflexivity|].
    apply in_flat_map. exists (CRun b s). auto.
Qed.
Lemma signal_only t (s : st) : only_sigs (signal t s).
Proof. intros x Hx. apply signal_sigs in Hx as (id & -> & _). eauto. Qed.
Lemma in_signalled id (e : list event) : In id (signalled e) <-> exists t, In (ESig id t) e.
Proof.
  unfold signalled. rewrite in_flat_map. split.
  - intros (x & H1 & H2). destruct x; cbn in H2; try tauto. destruct H2 as [->|[]]. eauto.
  - intros (t & H). exists (ESig id t). cbn. auto.
Qed.
Lemma signal_covers tr t s c : W tr t s -> incl (waits s) (signalled (tr ++ signal c s)).
Proof.
  revert s. induction t as [j now|k ct l IH] using tree_ind2; intros s HW id Hid; rewrite signalled_app, in_app_iff.
  - destruct s as [i|]; cbn in HW; [|tauto]. cbn in *. auto.
  - destruct s as [i|k' ct' ix er cs]; [cbn in HW; tauto|]. apply W_comb in HW as (-> & -> & HF & HS & HR & HG & Hr).
    cbn in *. apply in_flat_map in Hid as (x & Hx & Hid). destruct x as [|b s1|r]; try (destruct Hid; fail).
    rewrite Forall_forall in HG, IH.
    assert (exists t, In t l /\ W tr t s1) as (t & Ht & Hw).
    { clear - HF Hx. induction HF as [|t c l cs Hc HF IHF]; [destruct Hx|]. destruct Hx as [->|Hx]; [exists t; cbn; auto|].
      destruct (IHF Hx) as (t1 & H1 & H2). exists t1. cbn. auto. }
    destruct b.
    + specialize (IH t Ht s1 Hw id Hid). rewrite signalled_app, in_app_iff in IH. destruct IH as [IH|IH]; [auto|].
      right. apply in_signalled in IH as (c1 & IH). apply in_signalled. exists c1. apply in_flat_map.
      exists (CRun true s1). split; [exact Hx|]. rewrite orb_true_r. exact IH.
    + apply HG in Hx. cbn in Hx. left. apply Hx, Hid.
Qed.

Lemma cancel_only t (cs : list cell) : only_sigs (flat_map (emit t) cs).
Proof.
  intros x Hx. apply in_flat_map in Hx as (c & _ & Hx). destruct c as [|[] s|]; cbn in Hx; try tauto.
  apply signal_sigs in Hx as (id & -> & _). eauto.
Qed.
Lemma maybe_only t (cs cs' : list cell) e : maybe_cancel t cs = (cs', e) -> only_sigs e.
Proof.
  destruct t; cbn; intros [= <- <-]; [apply cancel_only|intros x []].
Qed.

Lemma store_clear tr k ix t c : store tr k ix t c -> store tr k ix t (clear c).
Proof. destruct c; auto. Qed.
Lemma stored_clear (cs : list cell) : map stored (map clear cs) = map stored cs.
Proof. rewrite map_map. apply map_ext. intros []; reflexivity. Qed.
Lemma cellOK_clear tr t c : cellOK tr t c -> cellOK tr t (clear c).
Proof. destruct c; auto. Qed.
Lemma regs_stored k rs ix er (cs cs' : list cell) : map stored cs = map stored cs' -> regs k rs ix er cs -> regs k rs ix er cs'.
Proof. intros H. destruct k; cbn; auto. rewrite H. auto. Qed.
Lemma Forall2_map_r {A B C} (P : A -> C -> Prop) (f : B -> C) l cs : Forall2 (fun a b => P a (f b)) l cs -> Forall2 P l (map f cs).
Proof. induction 1; cbn; constructor; auto. Qed.
Lemma runs_clear (cs : list cell) : existsb runs (map clear cs) = existsb runs cs.
Proof. induction cs as [|[] cs IH]; cbn; auto. Qed.

(** cancel_all leaves only children that got a signal. *)
Lemma flags_cancel tr d d' l cs t :
  Forall2 (cellOK tr) l cs -> Forall (flag tr d d') cs ->
  Forall (flag (tr ++ flat_map (emit t) cs) true true) (map clear cs).
Proof.
  intros HF HG. rewrite Forall_forall in *. intros c Hc. apply in_map_iff in Hc as (c0 & <- & Hc).
  specialize (HG _ Hc). destruct c0 as [|b s|r]; cbn; auto. split; [reflexivity|].
  assert (exists t, W tr t s) as (t1 & Hw).
  { clear - HF Hc. induction HF as [|t1 c l cs Hx HF IHF]; [destruct Hc|]. destruct Hc as [->|Hc]; [exists t1; exact Hx|]. auto. }
  destruct b.
  - intros id Hid. apply (signal_covers _ _ _ t Hw) in Hid. rewrite signalled_app, in_app_iff in *.
    destruct Hid as [Hid|Hid]; [auto|]. right. apply in_signalled in Hid as (c & Hid). apply in_signalled. exists c.
    apply in_flat_map. exists (CRun true s). auto.
  - cbn in HG. rewrite signalled_app. apply incl_appl, HG.
Qed.

(** ** A child ends *)
Lemma max_last n o N (rs : list (option (nat * out))) :
  In (Some (n, o)) rs -> S n = N -> (forall m o, In (Some (m, o)) rs -> m < N) -> list_max (times rs) = n.
Proof.
  intros Hi Hn H.
  assert (Ht : In n (times rs)) by (apply times_in; eauto).
  assert (H1 : list_max (times rs) < N).
  { apply list_max_below; [intros H0; rewrite H0 in Ht; exact Ht|]. apply Forall_forall. intros m Hm.
    apply times_in in Hm as (o1 & Hm). eauto. }
  assert (H2 : n <= list_max (times rs)).
  { pose proof (proj1 (list_max_le (times rs) _) (le_n _)) as G. rewrite Forall_forall in G. auto. }
  lia.
Qed.

Lemma all_some_gather tr ix l cs (xs : list (nat * out)) :
  map (ends tr) l = map Some xs -> Forall2 (store tr Gather ix) l cs -> existsb runs cs = false ->
  all_some (map stored cs) = Some (map snd xs).
Proof.
  intros Hm HS. revert xs Hm. induction HS as [|t c l cs Hc HS IH]; intros [|[n o] xs] Hm Hr; cbn in *; try discriminate; [reflexivity|].
  injection Hm as He Hm. apply orb_false_iff in Hr as [Hr1 Hr2].
  destruct c as [|b s|r]; cbn in *; try discriminate; [destruct Hc; discriminate|].
  rewrite (Hc _ _ He). rewrite (IH _ Hm Hr2). reflexivity.
Qed.
Lemma all_some_join tr ix l cs (xs : list (nat * out)) :
  map (ends tr) l = map Some xs -> Forall2 (store tr Join ix) l cs -> existsb runs cs = false ->
  Forall (fun r => r = None) (map fails (map (ends tr) l)) -> Forall (fun x => snd x <> OUndef) xs ->
  all_some (map (fun c => match stored c with Some o => value_of o | None => None end) cs) = Some (values (map snd xs)).
Proof.
  intros Hm HS. revert xs Hm. induction HS as [|t c l cs Hc HS IH]; intros [|[n o] xs] Hm Hr Hn Hg; cbn in *; try discriminate; [reflexivity|].
  injection Hm as He Hm. apply orb_false_iff in Hr as [Hr1 Hr2]. inversion Hn; subst. inversion Hg; subst.
  destruct c as [|b s|r]; cbn in *; try discriminate; [destruct Hc; discriminate|].
  rewrite He in *. destruct o as [v|e|]; cbn in *; try discriminate; [|congruence].
  rewrite (Hc _ _ eq_refl). cbn. rewrite (IH _ Hm Hr2) by assumption. reflexivity.
Qed.

Lemma settle_ok tr k ct l ix er cs :
  l <> [] -> Forall filled l ->
  Forall2 (cellOK tr) l cs -> Forall2 (store tr k ix) l cs -> regs k (map (ends tr) l) ix er cs ->
  Forall (flag tr (dec k ix er) (dec k ix er)) cs ->
  (existsb runs cs = true \/ exists t n o, In t l /\ ends tr t = Some (n, o) /\ S n = length (dones tr)) ->
  match settle k ct ix er cs with
  | inl s => W tr (Comb k ct l) s
  | inr o => exists n, ends tr (Comb k ct l) = Some (n, o) /\ S n = length (dones tr)
  end.
Proof.
  intros Hne Hf HF HS HR HG HL. unfold settle. destruct (existsb runs cs) eqn:Hr.
  - apply W_comb. tauto.
  - destruct HL as [HL|(t & n & o & Ht & He & Hn)]; [discriminate|]. exists n. split; [|exact Hn].
    assert (Hin : In (Some (n, o)) (map (ends tr) l)) by (rewrite <- He; apply in_map; exact Ht).
    rewrite Forall_forall in Hf.
    assert (HB : forall m o, In (Some (m, o)) (map (ends tr) l) -> m < length (dones tr) /\ o <> OUndef).
    { intros m o1 Hi. apply in_map_iff in Hi as (t1 & H1 & Hi). eapply ends_bound; eauto. }
    assert (HM : list_max (times (map (ends tr) l)) = n).
    { eapply max_last; [exact Hin|exact Hn|]. intros m o1 Hi. apply HB in Hi. tauto. }
    cbn [ends]. rewrite HM.
    assert (HE : k <> Race -> Forall (fun r => r <> None) (map (ends tr) l)).
    { intros Hk. clear - HF HS Hr Hk. induction HF as [|t1 c l cs Hc HF IH]; cbn; constructor.
      - inversion HS; subst. cbn in Hr. apply orb_false_iff in Hr as [Hr1 Hr2].
        destruct c as [|b s|r]; cbn in *; try discriminate; [tauto|exact Hc].
      - inversion HS; subst. cbn in Hr. apply orb_false_iff in Hr as [Hr1 Hr2]. auto. }
    destruct k; cbn [result].
    + destruct (every_some _ (HE ltac:(discriminate))) as (xs & Hx1 & Hx2). rewrite Hx1.
      rewrite (all_some_gather _ _ _ _ _ Hx2 HS Hr). reflexivity.
    + destruct (every_some _ (HE ltac:(discriminate))) as (xs & Hx1 & Hx2). rewrite Hx1.
      cbn in HR. destruct (first_of 0 _) as [[[i m] o1]|] eqn:Hfo.
      * destruct HR as (e & -> & ->). reflexivity.
      * subst er. apply first_none in Hfo. rewrite (all_some_join _ _ _ _ _ Hx2 HS Hr Hfo); [reflexivity|].
        apply Forall_forall. intros [m o1] Hi. cbn. apply (HB m). rewrite Hx2. apply in_map. exact Hi.
    + assert (HX : existsb (fun t => begun tr t && match ends tr t with None => true | Some _ => false end) l = false).
      { clear - HF Hr. induction HF as [|t1 c l cs Hc HF IH]; [reflexivity|]. cbn in *.
        apply orb_false_iff in Hr as [Hr1 Hr2]. rewrite (IH Hr2), orb_false_r.
        destruct c as [|b s|r]; cbn in *; try discriminate.
        - destruct (begun tr t1) eqn:Hb; [|reflexivity]. apply begun_iff in Hb as (id & H1 & H2).
          exfalso. apply (Hc id H1). apply touches_in. auto.
        - destruct (ends tr t1); [apply andb_false_r|tauto]. }
      rewrite HX. cbn in HR. destruct (first_of 0 _) as [[[i m] o1]|] eqn:Hfo.
      * destruct HR as (-> & HR). rewrite HR. apply first_some in Hfo. apply HB in Hfo as [_ Hfo].
        destruct o1; try reflexivity; tauto.
      * apply first_none in Hfo. rewrite Forall_forall in Hfo. apply Hfo in Hin. discriminate.
Qed.

Definition reason (k : kind) (ct : ctype) : ctype := match k with Race => ct | _ => ct_all end.

Lemma Forall2_in_r {A B} (P : A -> B -> Prop) l cs b : Forall2 P l cs -> In b cs -> exists a, In a l /\ P a b.
Proof.
  induction 1 as [|a b' l cs H HF IH]; [intros []|]. intros [->|Hi]; [exists a; cbn; auto|].
  destruct (IH Hi) as (a' & H1 & H2). exists a'. cbn. auto.
Qed.

Lemma cancel_ids tr l cs t id c :
  Forall2 (cellOK tr) l cs -> In (ESig id c) (flat_map (emit t) cs) -> c = t /\ In id (flat_map leaves l).
Proof.
  intros HF Hi. apply in_flat_map in Hi as (x & Hx & Hi). destruct x as [|[] s|r]; cbn in Hi; try tauto.
  apply signal_sigs in Hi as (j & [= <- <-] & Hj). split; [reflexivity|].
  destruct (Forall2_in_r _ _ _ _ HF Hx) as (t1 & Ht & Hw). cbn in Hw.
  apply in_flat_map. exists t1. split; [exact Ht|]. apply (W_waits _ _ _ Hw) in Hj. tauto.
Qed.

Lemma Forall2_len {A B} (P : A -> B -> Prop) l cs : Forall2 P l cs -> length l = length cs.
Proof. induction 1; cbn; auto. Qed.
Lemma nth_insert {A} (a b : list A) x y i z : nth_error (a ++ x :: b) i = Some z -> x <> z -> nth_error (a ++ y :: b) i = Some z.
Proof.
  revert i. induction a as [|w a IH]; intros [|i]; cbn; auto. congruence.
Qed.

Lemma finish_ok tr k ct l1 t l2 cs1 cs2 ix er n o c1 ix1 er1 t1 cs e1 d c0 :
  Forall filled (l1 ++ t :: l2) ->
  Forall2 (cellOK tr) l1 cs1 -> Forall2 (cellOK tr) l2 cs2 ->
  Forall2 (store tr k ix) l1 cs1 -> Forall2 (store tr k ix) l2 cs2 ->
  stored c0 = None -> regs k (map (ends tr) l1 ++ None :: map (ends tr) l2) ix er (cs1 ++ c0 :: cs2) ->
  Forall (flag tr d (dec k ix er)) (cs1 ++ cs2) ->
  ends tr t = Some (n, o) ->
  (forall t' m o', In t' (l1 ++ l2) -> ends tr t' = Some (m, o') -> m < n) ->
  finish k ct (length cs1) o ix er = (c1, ix1, er1, t1) ->
  maybe_cancel t1 (cs1 ++ c1 :: cs2) = (cs, e1) ->
  only_sigs e1 /\
  (exists r, c1 = CEnd r) /\
  Forall2 (cellOK (tr ++ e1)) (l1 ++ t :: l2) cs /\
  Forall2 (store (tr ++ e1) k ix1) (l1 ++ t :: l2) cs /\
  regs k (map (ends (tr ++ e1)) (l1 ++ t :: l2)) ix1 er1 cs /\
  Forall (flag (tr ++ e1) (match t1 with Some _ => true | None => d end) (dec k ix1 er1)) cs /\
  (t1 = None -> dec k ix1 er1 = dec k ix er) /\
  (t1 <> None -> dec k ix1 er1 = true /\ t1 = Some (reason k ct)) /\
  (forall id c, In (ESig id c) e1 -> t1 <> None /\ c = reason k ct /\ In id (flat_map leaves (l1 ++ t :: l2))) /\
  (k = Race -> ix1 <> None).
Proof.
  intros Hf HF1 HF2 HS1 HS2 Hc0 HR HG He Hlt Hfin Hmc.
  pose proof (maybe_only _ _ _ _ Hmc) as Hos.
  assert (Hgood : o <> OUndef).
  { apply Forall_app in Hf as [_ Hf]. inversion Hf; subst. eapply (ends_bound tr t); eauto. }
  assert (Hlen : length cs1 = length l1) by (symmetry; eapply Forall2_len; eauto).
  assert (Hc1 : exists r, c1 = CEnd r).
  { destruct k; cbn in Hfin; [injection Hfin as <- _ _ _; eauto| |].
    - destruct o; injection Hfin as <- _ _ _; eauto.
    - destruct ix; injection Hfin as <- _ _ _; eauto. }
  assert (HFn : Forall2 (cellOK tr) (l1 ++ t :: l2) (cs1 ++ c1 :: cs2)).
  { apply Forall2_app; [exact HF1|]. constructor; [|exact HF2]. destruct Hc1 as [r ->]. cbn. congruence. }
  assert (Hix : ix <> None -> ix1 <> None).
  { destruct k; cbn in Hfin; [injection Hfin as _ <- _ _; auto| |].
    - destruct o; injection Hfin as _ <- _ _; auto.
    - destruct ix; injection Hfin as _ <- _ _; auto; discriminate. }
  assert (HSn : Forall2 (store tr k ix1) (l1 ++ t :: l2) (cs1 ++ c1 :: cs2)).
  { apply Forall2_app; [|constructor].
    - eapply Forall2_imp; [|exact HS1]. intros a [| |] _ _; cbn; auto. tauto.
    - destruct k; cbn in Hfin; [injection Hfin as <- _ _ _; cbn| |].
      + intros m o1. congruence.
      + destruct o; injection Hfin as <- _ _ _; cbn; intros m v1; congruence.
      + destruct ix; injection Hfin as <- _ _ _; cbn; auto.
    - eapply Forall2_imp; [|exact HS2]. intros a [| |] _ _; cbn; auto. tauto. }
  assert (HRn : regs k (map (ends tr) (l1 ++ t :: l2)) ix1 er1 (cs1 ++ c1 :: cs2)).
  { rewrite map_app. cbn [map]. rewrite He. destruct k; cbn in *; [exact I| |].
    - rewrite map_app in *. cbn [map] in *. destruct o as [v|e|]; [| |congruence]; injection Hfin as _ <- <- _.
      + cbn [fails] in *. exact HR.
      + cbn [fails] in *. destruct (first_of 0 (map fails (map (ends tr) l1) ++ None :: _)) as [[[j m] o1]|] eqn:Hfo.
        * destruct HR as (e0 & -> & ->). rewrite (first_new_later _ _ _ _ _ _ _ _ Hfo); [eauto|].
          apply first_some in Hfo.
          assert (Hi : In (Some (m, OErr e0)) (map (ends tr) (l1 ++ l2))).
          { rewrite map_app. apply in_app_iff in Hfo as [Hfo|Hfo].
            - apply in_map_iff in Hfo as (r & Hr & Hi). apply in_app_iff. left.
              destruct r as [[m1 [| |]]|]; cbn in Hr; try discriminate. injection Hr as -> ->. exact Hi.
            - cbn in Hfo. destruct Hfo as [Hfo|Hfo]; [discriminate|].
              apply in_map_iff in Hfo as (r & Hr & Hi). apply in_app_iff. right.
              destruct r as [[m1 [| |]]|]; cbn in Hr; try discriminate. injection Hr as -> ->. exact Hi. }
          apply in_map_iff in Hi as (t' & H1 & H2). eauto.
        * subst er. rewrite (first_new _ _ _ _ _ Hfo). eauto.
    - destruct (first_of 0 _) as [[[j m] o1]|] eqn:Hfo.
      + destruct HR as [-> HR]. injection Hfin as <- <- <- _.
        rewrite (first_new_later _ _ _ _ _ _ _ _ Hfo).
        * split; [reflexivity|]. rewrite map_app in *. cbn [map] in *. eapply nth_insert; [exact HR|].
          rewrite Hc0. discriminate.
        * apply first_some in Hfo. apply in_app_iff in Hfo as [Hfo|[Hfo|Hfo]]; [|discriminate|];
            apply in_map_iff in Hfo as (t' & H1 & H2); eapply (Hlt t'); eauto; apply in_app_iff; auto.
      + subst ix. injection Hfin as <- <- <- _. rewrite (first_new _ _ _ _ _ Hfo).
        rewrite map_length, <- Hlen. split; [reflexivity|].
        rewrite map_app. cbn [map stored]. rewrite nth_error_app2; rewrite map_length; [|lia].
        rewrite Nat.sub_diag. reflexivity. }
  assert (HA : Forall (apart e1) (l1 ++ t :: l2)).
  { apply Forall_forall. intros. apply sigs_apart, Hos. }
  assert (HGn : Forall (flag tr d (dec k ix er)) (cs1 ++ c1 :: cs2)).
  { apply Forall_app in HG as [HG1 HG2]. apply Forall_app. split; [exact HG1|]. constructor; [|exact HG2].
    destruct Hc1 as [r ->]. exact I. }
  assert (Hdec : (t1 = None -> dec k ix1 er1 = dec k ix er) /\ (t1 <> None -> dec k ix1 er1 = true /\ t1 = Some (reason k ct))).
  { destruct k; cbn in Hfin; [injection Hfin as _ <- <- <-; cbn; split; [auto|tauto]| |].
    - destruct o; injection Hfin as _ <- <- <-; cbn; (split; [auto; discriminate|]); try tauto.
      intros _. destruct er; auto.
    - destruct ix; injection Hfin as _ <- <- <-; cbn; (split; [discriminate|auto]). }
  split; [exact Hos|]. split; [exact Hc1|].
  rewrite map_ends_ext by exact HA. rewrite Forall_forall in HA.
  destruct Hdec as [Hd1 Hd2].
  destruct t1 as [t1|]; cbn in Hmc; injection Hmc as <- <-.
  - destruct (Hd2 ltac:(discriminate)) as [Hd3 Hd4]. injection Hd4 as ->.
    repeat split; auto.
    + apply Forall2_map_r. eapply Forall2_imp; [|exact HFn]. intros a b Ha _ H. apply cellOK_ext; [auto|]. apply cellOK_clear, H.
    + apply Forall2_map_r. eapply Forall2_imp; [|exact HSn]. intros a b Ha _ H. apply store_ext; [auto|]. apply store_clear, H.
    + eapply regs_stored; [|exact HRn]. symmetry. apply stored_clear.
    + rewrite Hd3. eapply flags_cancel; eauto.
    + discriminate.
    + eapply cancel_ids in H; [|exact HFn]. tauto.
    + eapply cancel_ids in H; [|exact HFn]. tauto.
    + intros ->. cbn in Hd3. destruct ix1; discriminate.
  - rewrite app_nil_r. rewrite (Hd1 eq_refl). repeat split; auto; try tauto; try (destruct H; fail).
    intros ->. cbn in Hfin. destruct ix; discriminate.
Qed.

(** ** Why a signal is emitted *)
Definition why (q : list nat) (tr : list event) (t : tree) (id : nat) (c : ctype) : Prop :=
  exists u, part u t /\ In id (leaves u) /\ decided tr u /\ own u = c /\ incl q (leaves u).

Lemma part_leaves (u t : tree) : part u t -> incl (leaves u) (leaves t).
Proof.
  induction 1 as [|u t k ct l Hi Hp IH]; [apply incl_refl|]. intros id Hid. cbn. apply in_flat_map. eauto.
Qed.
Lemma decided_ext (tr e : list event) u : apart e u -> decided (tr ++ e) u <-> decided tr u.
Proof.
  intros Ha. destruct u as [|[] ct l]; cbn; try tauto.
  - split; intros (t & n & o & H1 & H2); exists t, n, o; (split; [exact H1|]); rewrite ends_ext in *; eauto using apart_child.
  - split; intros (t & n & o & H1 & H2); exists t, n, o; (split; [exact H1|]); rewrite ends_ext in *; eauto using apart_child.
Qed.
Lemma apart_part e (u t : tree) : part u t -> apart e t -> apart e u.
Proof. intros Hp Ha id Hid. apply Ha. eapply part_leaves; eauto. Qed.
Lemma why_ext q tr e t id c : apart e t -> why q tr t id c -> why q (tr ++ e) t id c.
Proof.
  intros Ha (u & H1 & H2 & H3 & H4 & H5). exists u. repeat split; auto. apply decided_ext; [|exact H3]. eapply apart_part; eauto.
Qed.
Lemma why_child q tr k ct l t id c : In t l -> why q tr t id c -> why q tr (Comb k ct l) id c.
Proof. intros Ht (u & H1 & H2). exists u. split; [|exact H2]. econstructor; eauto. Qed.
Lemma dec_decided tr k ct l ix er cs :
  regs k (map (ends tr) l) ix er cs -> dec k ix er = true <-> decided tr (Comb k ct l).
Proof.
  intros HR. destruct k; cbn in *; [split; [discriminate|tauto]| |].
  - destruct (first_of 0 _) as [[[i m] o]|] eqn:Hfo.
    + destruct HR as (e & -> & ->). apply first_some in Hfo. apply in_map_iff in Hfo as (r & Hr & Hi).
      destruct r as [[m1 [|e1|]]|]; cbn in Hr; try discriminate. injection Hr as -> ->.
      apply in_map_iff in Hi as (t & H1 & H2). split; [|reflexivity]. intros _. eauto.
    + subst er. split; [discriminate|]. intros (t & n & e & H1 & H2).
      apply first_none in Hfo. rewrite Forall_forall in Hfo.
      assert (H : Some (n, OErr e) = None :> option (nat * out)); [|discriminate].
      apply Hfo. apply in_map_iff. exists (Some (n, OErr e)). split; [reflexivity|]. rewrite <- H2. apply in_map. exact H1.
  - destruct (first_of 0 _) as [[[i m] o]|] eqn:Hfo.
    + destruct HR as [-> _]. apply first_some in Hfo. apply in_map_iff in Hfo as (t & H1 & H2).
      split; [|reflexivity]. intros _. eauto.
    + subst ix. split; [discriminate|]. intros (t & n & o & H1 & H2).
      apply first_none in Hfo. rewrite Forall_forall in Hfo.
      assert (H : Some (n, o) = None); [|discriminate].
      apply Hfo. rewrite <- H2. apply in_map. exact H1.
Qed.
Lemma why_here q tr k ct l ix er cs id :
  regs k (map (ends tr) l) ix er cs -> dec k ix er = true -> In id (flat_map leaves l) -> incl q (flat_map leaves l) ->
  why q tr (Comb k ct l) id (reason k ct).
Proof.
  intros HR Hd Hi Hq. exists (Comb k ct l). repeat split.
  - constructor.
  - exact Hi.
  - eapply dec_decided; eauto.
  - exact Hq.
Qed.

(** ** Starting *)
Definition last_ended (tr : list event) (l : list tree) : Prop :=
  exists t n o, In t l /\ ends tr t = Some (n, o) /\ S n = length (dones tr).

Definition clean (e : list event) (ids : list nat) : Prop :=
  incl (touches e) ids /\ NoDup (started e) /\ NoDup (map fst (dones e)) /\ incl (map fst (dones e)) (started e) /\ results e = [].

Definition goes (t : tree) (r : list event * (st + out)) : Prop :=
  forall tr, untouched tr t ->
  clean (fst r) (leaves t) /\
  (forall id c, In (ESig id c) (fst r) -> why [] (tr ++ fst r) t id c) /\
  match snd r with
  | inl s => W (tr ++ fst r) t s
  | inr o => exists n, ends (tr ++ fst r) t = Some (n, o) /\ S n = length (dones (tr ++ fst r)) /\ length (dones tr) <= n
  end.

Lemma clean_app e1 e2 a b : clean e1 a -> clean e2 b -> (forall id, In id a -> In id b -> False) -> clean (e1 ++ e2) (a ++ b).
Proof.
  intros (H1 & H2 & H3 & H4 & H5) (G1 & G2 & G3 & G4 & G5) Hd. unfold clean.
  rewrite started_app, dones_app, map_app, results_app, H5, G5.
  assert (D : forall id, In id (touches e1) -> In id (touches e2) -> False) by (intros; eapply Hd; eauto).
  assert (DN : forall x y : list nat, NoDup x -> NoDup y -> (forall id, In id x -> In id y -> False) -> NoDup (x ++ y)).
  { clear. induction x as [|i x IH]; intros y Hx Hy H; [exact Hy|]. inversion Hx; subst. cbn. constructor.
    - rewrite in_app_iff. intros [H0|H0]; [tauto|]. apply (H i); cbn; auto.
    - apply IH; auto. intros j. intros Hj. apply H. cbn. auto. }
  repeat split.
  - intros id Hid. apply touches_app in Hid. apply in_app_iff. destruct Hid; auto.
  - apply DN; auto. intros id A B. apply (D id); apply touches_in; auto.
  - apply DN; auto. intros id A B. apply (D id); apply touches_in; auto.
  - intros id Hid. apply in_app_iff. apply in_app_iff in Hid as [Hid|Hid]; auto.
Qed.
Lemma clean_sigs e a : only_sigs e -> clean e a.
Proof.
  intros H. apply sigs_touches in H as (H1 & H2 & H3). unfold clean, touches. rewrite H1, H2, H3. cbn.
  repeat split; try constructor; intros x [].
Qed.
Lemma clean_weaken e a b : incl a b -> clean e a -> clean e b.
Proof. intros H (H1 & H2). split; [|exact H2]. eapply incl_tran; eauto. Qed.

Lemma flag_lax tr d' c : flag tr true d' c -> flag tr false d' c.
Proof. destruct c as [|[] s|]; cbn; auto. Qed.
Lemma flag_dec tr d d' d'' c : (d' = true -> d'' = true) -> flag tr d d' c -> flag tr d d'' c.
Proof. destruct c as [|[] s|]; cbn; auto. tauto. Qed.

Lemma maybe_app t (a : list cell) r : maybe_cancel t (a ++ [CEnd r]) = (fst (maybe_cancel t a) ++ [CEnd r], snd (maybe_cancel t a)).
Proof.
  destruct t; cbn; [|reflexivity]. unfold cancel_all. rewrite map_app, flat_map_app. cbn. rewrite app_nil_r. reflexivity.
Qed.

Lemma disj (l1 : list tree) t l2 id t' :
  NoDup (flat_map leaves (l1 ++ t :: l2)) -> In id (leaves t) -> In t' (l1 ++ l2) -> ~ In id (leaves t').
Proof.
  intros Hn Hi Ht Hi'. rewrite flat_map_app in Hn. cbn in Hn.
  assert (D : forall (x y : list nat) j, NoDup (x ++ y) -> In j x -> In j y -> False).
  { clear. induction x as [|i x IH]; intros y j Hn Hx Hy; [destruct Hx|]. cbn in Hn. inversion Hn; subst.
    destruct Hx as [->|Hx]; [|eauto]. apply H1. apply in_app_iff. auto. }
  apply in_app_iff in Ht as [Ht|Ht].
  - apply (D _ _ id Hn); [apply in_flat_map; eauto|apply in_app_iff; auto].
  - assert (Hn2 : NoDup (leaves t ++ flat_map leaves l2)).
    { clear - Hn. induction (flat_map leaves l1) as [|i x IH]; [exact Hn|]. cbn in Hn. inversion Hn; auto. }
    apply (D _ _ id Hn2); [exact Hi|apply in_flat_map; eauto].
Qed.

Lemma go_l_ok k ct : forall l l1 acc ix er tr cs ix' er' e,
  Forall (fun t => filled t -> NoDup (leaves t) -> goes t (go t)) l ->
  Forall filled (l1 ++ l) -> NoDup (flat_map leaves (l1 ++ l)) ->
  Forall (untouched tr) l ->
  Forall2 (cellOK tr) l1 acc -> Forall2 (store tr k ix) l1 acc -> regs k (map (ends tr) l1) ix er acc ->
  Forall (flag tr false (dec k ix er)) acc -> (k = Race -> ix = None) ->
  (l1 = [] \/ existsb runs acc = true \/ last_ended tr l1) ->
  go_l go k ct acc ix er l = (cs, ix', er', e) ->
  clean e (flat_map leaves l) /\
  Forall2 (cellOK (tr ++ e)) (l1 ++ l) cs /\ Forall2 (store (tr ++ e) k ix') (l1 ++ l) cs /\
  regs k (map (ends (tr ++ e)) (l1 ++ l)) ix' er' cs /\
  Forall (flag (tr ++ e) (is_race k && dec k ix' er') (dec k ix' er')) cs /\
  (l1 ++ l = [] \/ existsb runs cs = true \/ last_ended (tr ++ e) (l1 ++ l)) /\
  (dec k ix er = true -> dec k ix' er' = true) /\
  (forall id c, In (ESig id c) e ->
     (exists t, In t l /\ why [] (tr ++ e) t id c) \/
     (dec k ix' er' = true /\ c = reason k ct /\ In id (flat_map leaves (l1 ++ l)))).
Proof.
  induction l as [|t l IH]; intros l1 acc ix er tr cs ix' er' e Hgo Hf Hnd Hu HF HS HR HG Hrc HL Hrun.
  - cbn in Hrun. injection Hrun as <- <- <- <-. rewrite !app_nil_r in *.
    split; [apply clean_sigs; intros x []|]. split; [exact HF|]. split; [exact HS|]. split; [exact HR|].
    split; [|split; [exact HL|split; [auto|intros id c []]]].
    eapply Forall_impl; [|exact HG]. intros c Hc. destruct k; cbn in *; auto. rewrite (Hrc eq_refl). rewrite (Hrc eq_refl) in Hc. exact Hc.
  - inversion Hgo as [|? ? Hg1 Hg2]; subst. inversion Hu as [|? ? Hu1 Hu2]; subst.
    assert (Hft : filled t) by (apply Forall_app in Hf as [_ Hf]; inversion Hf; auto).
    assert (Hnt : NoDup (leaves t)).
    { rewrite flat_map_app in Hnd. cbn in Hnd. clear - Hnd.
      induction (flat_map leaves l1) as [|i x IH]; cbn in Hnd; [|inversion Hnd; auto].
      induction (leaves t) as [|i x IH]; [constructor|]. cbn in Hnd. inversion Hnd; subst. constructor; [|auto].
      intros H. apply H1. apply in_app_iff. auto. }
    assert (Hnl : forall id, In id (leaves t) -> In id (flat_map leaves l) -> False).
    { intros id H1 H2. apply in_flat_map in H2 as (t' & H2 & H3). eapply disj; [exact Hnd|exact H1| |exact H3].
      apply in_app_iff. auto. }
    specialize (Hg1 Hft Hnt tr Hu1).
    cbn [go_l] in Hrun. destruct (go t) as [e1 r1] eqn:Hgt. cbn [fst snd] in Hg1. destruct Hg1 as (Hc1 & Hw1 & Hr1).
    assert (Hap : forall t', In t' (l1 ++ l) -> apart e1 t').
    { intros t' Ht' id Hid Hid2. apply (disj l1 t l id t' Hnd); auto. apply Hc1, Hid2. }
    assert (HA1 : Forall (apart e1) l1).
    { apply Forall_forall. intros. apply Hap, in_app_iff. auto. }
    assert (HF' : Forall2 (cellOK (tr ++ e1)) l1 acc).
    { eapply Forall2_imp; [|exact HF]. intros a b Ha _. apply cellOK_ext. apply Hap, in_app_iff. auto. }
    assert (HS' : Forall2 (store (tr ++ e1) k ix) l1 acc).
    { eapply Forall2_imp; [|exact HS]. intros a b Ha _. apply store_ext. apply Hap, in_app_iff. auto. }
    assert (HG' : Forall (flag (tr ++ e1) false (dec k ix er)) acc).
    { eapply Forall_impl; [|exact HG]. intros c. apply flag_ext. }
    assert (Hu' : Forall (untouched (tr ++ e1)) l).
    { rewrite Forall_forall in *. intros t' Ht' id Hid. rewrite touches_app. intros [H|H]; [exact (Hu2 t' Ht' id Hid H)|].
      apply (Hap t') in H; auto. apply in_app_iff. auto. }
    destruct r1 as [s1|o].
    + destruct (go_l go k ct (acc ++ [CRun true s1]) ix er l) as [[[cs2 ix2] er2] e2] eqn:Hrest.
      injection Hrun as <- <- <- <-.
      replace (l1 ++ t :: l) with ((l1 ++ [t]) ++ l) in * by (rewrite <- app_assoc; reflexivity).
      apply (IH (l1 ++ [t]) _ ix er (tr ++ e1)) in Hrest as (G1 & G2 & G3 & G4 & G5 & G6 & G7 & G8); auto.
      2: { apply Forall2_app; [exact HF'|]. constructor; [exact Hr1|constructor]. }
      2: { apply Forall2_app; [exact HS'|]. constructor; [exact I|constructor]. }
      2: { rewrite map_app. rewrite map_ends_ext by exact HA1. cbn [map]. rewrite (W_ends _ _ _ Hr1).
           destruct k; cbn in *; auto.
           - rewrite map_app. cbn [map fails]. rewrite first_app_none. exact HR.
           - rewrite first_app_none. destruct (first_of 0 _) as [[[i m] o]|]; [|exact HR].
             destruct HR as [HR1 HR2]. rewrite (Hrc eq_refl) in HR1. discriminate. }
      2: { apply Forall_app. split; [exact HG'|]. constructor; [reflexivity|constructor]. }
      2: { right. left. rewrite existsb_app. cbn. apply orb_true_r. }
      rewrite app_assoc.
      split; [apply (clean_app _ _ _ _ Hc1 G1 Hnl)|]. split; [exact G2|]. split; [exact G3|]. split; [exact G4|].
      split; [exact G5|]. split; [exact G6|]. split; [exact G7|].
      * intros id c Hi. apply in_app_iff in Hi as [Hi|Hi].
        -- left. exists t. split; [cbn; auto|]. apply why_ext; [|auto].
           intros j Hj Hj2. apply (Hnl j Hj). apply G1, Hj2.
        -- destruct (G8 _ _ Hi) as [(t' & H1 & H2)|H]; [left; exists t'; cbn; auto|right; exact H].
    + destruct Hr1 as (n & He & Hn & Hn2).
      destruct (finish k ct (length acc) o ix er) as [[[c1 ix1] er1] t1] eqn:Hfin.
      destruct (maybe_cancel t1 acc) as [acc1 e2] eqn:Hmc.
      destruct (maybe_cancel t1 (acc ++ [c1])) as [acc1' e2'] eqn:Hmc'.
      assert (Hf1 : Forall filled (l1 ++ [t])).
      { apply Forall_app in Hf as [H1 H2]. apply Forall_app. split; [exact H1|]. constructor; auto. }
      pose proof (finish_ok (tr ++ e1) k ct l1 t [] acc [] ix er n o c1 ix1 er1 t1 acc1' e2' false CIdle Hf1 HF' (Forall2_nil _)
        HS' (Forall2_nil _) eq_refl) as FO.
      destruct FO as (F1 & (r & ->) & F3 & F4 & F5 & F6 & F7 & F8 & F9 & F10); auto.
      { rewrite map_ends_ext by exact HA1. cbn [map].
        destruct k; cbn in *; auto.
        - rewrite map_app. cbn [map fails]. rewrite first_app_none. exact HR.
        - rewrite first_app_none. destruct (first_of 0 _) as [[[i m] o1]|]; [|exact HR].
          destruct HR as [HR1 HR2]. rewrite (Hrc eq_refl) in HR1. discriminate. }
      { rewrite app_nil_r. exact HG'. }
      { intros t' m o' Ht' Hm. rewrite app_nil_r in Ht'. rewrite ends_ext in Hm by (apply Hap, in_app_iff; auto).
        assert (Hft' : filled t') by (apply Forall_app in Hf as [Hf _]; rewrite Forall_forall in Hf; auto).
        pose proof (ends_bound tr t' Hft' _ _ Hm). lia. }
      rewrite maybe_app, Hmc in Hmc'. cbn in Hmc'. injection Hmc' as <- <-.
      assert (Hle : last_ended ((tr ++ e1) ++ e2) (l1 ++ [t])).
      { exists t, n, o. split; [apply in_app_iff; cbn; auto|]. rewrite ends_ext by (apply sigs_apart, F1). split; [exact He|].
        rewrite dones_app. apply sigs_touches in F1 as (_ & -> & _). rewrite app_nil_r. exact Hn. }
      assert (Hc12 : clean (e1 ++ e2) (leaves t)).
      { eapply clean_weaken; [|apply clean_app; [exact Hc1|apply (clean_sigs e2 []), F1|intros id _ []]].
        rewrite app_nil_r. apply incl_refl. }
      assert (Hdm : dec k ix er = true -> dec k ix1 er1 = true).
      { intros Hd. destruct t1; [apply F8; discriminate|]. rewrite F7; auto. }
      destruct (is_race k) eqn:Hk.
      * injection Hrun as <- <- <- <-. destruct k; try discriminate.
        rewrite app_assoc.
        replace (l1 ++ t :: l) with ((l1 ++ [t]) ++ l) in * by (rewrite <- app_assoc; reflexivity).
        replace (acc1 ++ CEnd r :: map (fun _ => CIdle) l) with ((acc1 ++ [CEnd r]) ++ map (fun _ => CIdle) l)
          by (rewrite <- app_assoc; reflexivity).
        assert (Hix1 : ix1 <> None) by auto.
        assert (Hu'' : Forall (untouched ((tr ++ e1) ++ e2)) l).
        { eapply Forall_impl; [|exact Hu']. intros t' Ht' id Hid. rewrite touches_app. intros [H|H]; [exact (Ht' id Hid H)|].
          exact (sigs_apart e2 t' F1 id Hid H). }
        assert (Hids : Forall (fun r => r = None) (map (ends ((tr ++ e1) ++ e2)) l)).
        { apply Forall_forall. intros r' Hr'. apply in_map_iff in Hr' as (t' & <- & Ht').
          rewrite Forall_forall in Hu''. apply Forall_app in Hf as [_ Hf]. rewrite Forall_forall in Hf.
          apply ends_untouched; auto. }
        split; [|split; [|split; [|split; [|split; [|split; [|split]]]]]].
        -- eapply clean_weaken; [|exact Hc12]. cbn. apply incl_appl, incl_refl.
        -- apply Forall2_app; [exact F3|]. clear - Hu''. induction Hu''; cbn; constructor; auto.
        -- apply Forall2_app; [exact F4|]. clear - Hix1. induction l; cbn; constructor; auto. cbn. auto.
        -- cbn in F5 |- *. rewrite map_app.
           assert (FA : forall i (a b : list (option (nat * out))), Forall (fun r => r = None) b -> first_of i (a ++ b) = first_of i a).
           { clear. intros i a b Hb. revert i. induction a as [|[[m o]|] a IHa]; intros i; cbn.
             - apply first_none. exact Hb.
             - rewrite IHa. reflexivity.
             - apply IHa. }
           rewrite FA by exact Hids. destruct (first_of 0 _) as [[[i m] o1]|]; [|exact F5].
           destruct F5 as [F51 F52]. split; [exact F51|]. rewrite map_app. rewrite nth_error_app1; [exact F52|].
           apply nth_error_Some. rewrite F52. discriminate.
        -- apply Forall_app. split; [|apply Forall_forall; intros c Hc; apply in_map_iff in Hc as (? & <- & _); exact I].
           eapply Forall_impl; [|exact F6]. intros c. destruct t1.
           ++ destruct (F8 ltac:(discriminate)) as [-> _]. auto.
           ++ cbn in Hfin. destruct ix; discriminate.
        -- right. right. destruct Hle as (t' & n' & o' & H1 & H2). exists t', n', o'. split; [apply in_app_iff; auto|exact H2].
        -- exact Hdm.
        -- intros id c Hi. apply in_app_iff in Hi as [Hi|Hi].
           ++ left. exists t. split; [cbn; auto|]. apply why_ext; [apply sigs_apart, F1|auto].
           ++ right. destruct (F9 _ _ Hi) as (H1 & H2 & H3). destruct (F8 H1) as [H4 _]. repeat split; auto.
              rewrite flat_map_app. apply in_app_iff. auto.
      * destruct (go_l go k ct (acc1 ++ [CEnd r]) ix1 er1 l) as [[[cs3 ix3] er3] e3] eqn:Hrest.
        injection Hrun as <- <- <- <-.
        replace (l1 ++ t :: l) with ((l1 ++ [t]) ++ l) in * by (rewrite <- app_assoc; reflexivity).
        apply (IH (l1 ++ [t]) _ ix1 er1 ((tr ++ e1) ++ e2)) in Hrest as (G1 & G2 & G3 & G4 & G5 & G6 & G7 & G8); auto.
        2: { eapply Forall_impl; [|exact Hu']. intros t' Ht' id Hid. rewrite touches_app. intros [H|H]; [exact (Ht' id Hid H)|].
          exact (sigs_apart e2 t' F1 id Hid H). }
        2: { eapply Forall_impl; [|exact F6]. intros c. destruct t1; [apply flag_lax|auto]. }
        2: { intros ->. discriminate. }
        replace (tr ++ e1 ++ e2 ++ e3) with (((tr ++ e1) ++ e2) ++ e3) by (rewrite !app_assoc; reflexivity).
        assert (HC : clean (e1 ++ e2 ++ e3) (flat_map leaves (t :: l))).
        { cbn. rewrite app_assoc. apply (clean_app _ _ _ _ Hc12 G1 Hnl). }
        split; [exact HC|]. split; [exact G2|]. split; [exact G3|]. split; [exact G4|]. split; [exact G5|].
        split; [exact G6|]. split; [auto|].
        intros id c Hi. apply in_app_iff in Hi as [Hi|Hi]; [|apply in_app_iff in Hi as [Hi|Hi]].
        -- left. exists t. split; [cbn; auto|]. apply why_ext; [|apply why_ext; [apply sigs_apart, F1|auto]].
           intros j Hj Hj2. apply (Hnl j Hj). apply G1, Hj2.
        -- right. destruct (F9 _ _ Hi) as (H1 & H2 & H3). destruct (F8 H1) as [H4 _]. repeat split; auto.
           rewrite flat_map_app. apply in_app_iff. auto.
        -- destruct (G8 _ _ Hi) as [(t' & H1 & H2)|H]; [left; exists t'; cbn; auto|right; exact H].
Qed.

Lemma go_ok t : filled t -> NoDup (leaves t) -> goes t (go t).
Proof.
  induction t as [id now|k ct l IH] using tree_ind2; intros Hf Hn tr Hu.
  - assert (H1 : ~ In id (touches tr)) by (apply Hu; cbn; auto).
    rewrite touches_in in H1.
    assert (N1 : NoDup [id]) by (constructor; [cbn; tauto|constructor]).
    destruct now as [x|]; cbn.
    + split; [|split].
      * unfold clean. cbn. repeat split; auto; [intros j; cbn; tauto|apply incl_refl].
      * intros j c [H|[H|[]]]; discriminate.
      * exists (length (dones tr)). rewrite dones_app. cbn. split; [|rewrite app_length; cbn; lia].
        rewrite find_last by tauto. reflexivity.
    + split; [|split; [|split; [reflexivity|split]]].
      * unfold clean. cbn. repeat split; auto; [intros j; cbn; tauto|constructor|intros j []].
      * intros j c [H|[]]; discriminate.
      * rewrite started_app. apply in_app_iff. cbn. auto.
      * rewrite dones_app. cbn. rewrite app_nil_r. tauto.
  - apply filled_comb in Hf as [Hne Hf]. cbn [go].
    destruct (go_l go k ct [] None None l) as [[[cs ix] er] e] eqn:Hrun.
    apply (go_l_ok k ct l [] [] None None tr) in Hrun as (G1 & G2 & G3 & G4 & G5 & G6 & G7 & G8); auto.
    2: { apply Forall_forall. intros t Ht id Hid. apply Hu. cbn. apply in_flat_map. eauto. }
    2: { destruct k; cbn; auto. }
    cbn [app] in *.
    destruct (match k, er with Join, Some _ => cancel_all ct_all cs | _, _ => (cs, []) end) as [cs1 e1] eqn:Hx.
    cbn [fst snd].
    assert (HX : only_sigs e1 /\ Forall2 (cellOK (tr ++ e ++ e1)) l cs1 /\ Forall2 (store (tr ++ e ++ e1) k ix) l cs1 /\
      regs k (map (ends (tr ++ e ++ e1)) l) ix er cs1 /\ Forall (flag (tr ++ e ++ e1) (dec k ix er) (dec k ix er)) cs1 /\
      existsb runs cs1 = existsb runs cs /\
      (forall id c, In (ESig id c) e1 -> dec k ix er = true /\ c = reason k ct /\ In id (flat_map leaves l))).
    { destruct (is_race k || negb (dec k ix er)) eqn:Hk.
      - assert (E1 : cs1 = cs /\ e1 = []).
        { destruct k; cbn in Hk; try (injection Hx as <- <-; auto). destruct er; [discriminate|]. injection Hx as <- <-. auto. }
        destruct E1 as [-> ->]. rewrite !app_nil_r.
        split; [intros x []|]. split; [exact G2|]. split; [exact G3|]. split; [exact G4|].
        split; [|split; [reflexivity|intros id c []]].
        eapply Forall_impl; [|exact G5]. intros c. destruct k; auto. cbn in Hk. cbn. destruct er; [discriminate|]. auto.
      - destruct k; try discriminate. destruct er as [er0|]; [|discriminate]. injection Hx as <- <-.
        assert (Ho : only_sigs (flat_map (emit ct_all) cs)) by apply cancel_only.
        rewrite !app_assoc.
        assert (HA : Forall (apart (flat_map (emit ct_all) cs)) l) by (apply Forall_forall; intros; apply sigs_apart, Ho).
        rewrite map_ends_ext by exact HA.
        split; [exact Ho|]. split; [|split; [|split; [|split; [|split]]]].
        + apply Forall2_map_r. eapply Forall2_imp; [|exact G2]. intros a b _ _ H. apply cellOK_ext; [apply sigs_apart, Ho|]. apply cellOK_clear, H.
        + apply Forall2_map_r. eapply Forall2_imp; [|exact G3]. intros a b _ _ H. apply store_ext; [apply sigs_apart, Ho|]. apply store_clear, H.
        + eapply regs_stored; [|exact G4]. symmetry. apply stored_clear.
        + eapply flags_cancel; eauto.
        + apply runs_clear.
        + intros id c Hi. destruct (cancel_ids _ _ _ _ _ _ G2 Hi) as [H1 H2]. auto. }
    destruct HX as (X1 & X2 & X3 & X4 & X5 & X6 & X7).
    split; [|split].
    + eapply clean_weaken; [|apply clean_app; [exact G1|apply (clean_sigs e1 []), X1|intros id _ []]].
      rewrite app_nil_r. apply incl_refl.
    + intros id c Hi. apply in_app_iff in Hi as [Hi|Hi].
      * destruct (G8 _ _ Hi) as [(t & H1 & H2)|(H1 & -> & H3)].
        -- apply why_child with t; [exact H1|]. rewrite app_assoc. apply why_ext; [apply sigs_apart, X1|exact H2].
        -- eapply why_here; eauto; intros ? [].
      * destruct (X7 _ _ Hi) as (H1 & -> & H3). eapply why_here; eauto; intros ? [].
    + assert (HL : existsb runs cs1 = true \/ last_ended (tr ++ e ++ e1) l).
      { rewrite X6. destruct G6 as [G6|[G6|(t & n & o & H1 & H2 & H3)]]; [tauto|auto|].
        right. exists t, n, o. split; [exact H1|]. rewrite app_assoc. rewrite ends_ext by (apply sigs_apart, X1).
        split; [exact H2|]. rewrite dones_app. apply sigs_touches in X1 as (_ & -> & _). rewrite app_nil_r. exact H3. }
      pose proof (settle_ok (tr ++ e ++ e1) k ct l ix er cs1 Hne Hf X2 X3 X4 X5 HL) as SO.
      destruct (settle k ct ix er cs1) as [s|o]; [exact SO|].
      destruct SO as (n & S1 & S2). exists n. split; [exact S1|]. split; [exact S2|].
      destruct (Nat.le_gt_cases (length (dones tr)) n) as [H|H]; [exact H|]. exfalso.
      (* it would have ended before it was started *)
      rewrite !dones_app, !app_length in S2.
      assert (Hd : dones (e ++ e1) = []).
      { destruct (dones (e ++ e1)) eqn:Hd; [reflexivity|]. rewrite dones_app in Hd. apply (f_equal (@length _)) in Hd.
        rewrite app_length in Hd. cbn in Hd. lia. }
      assert (Hq : forall id, In id (leaves (Comb k ct l)) -> ~ In id (map fst (dones (tr ++ e ++ e1)))).
      { intros id Hid. rewrite dones_app, Hd, app_nil_r. intros Hi. apply (Hu id Hid). apply touches_in. auto. }
      clear - S1 Hq Hne Hf.
      assert (G : forall t, filled t -> (forall id, In id (leaves t) -> ~ In id (map fst (dones (tr ++ e ++ e1)))) -> ends (tr ++ e ++ e1) t = None).
      { clear. induction t as [j now|k ct l IH] using tree_ind2; intros Hf Hu.
        - cbn. apply find_none. apply Hu. cbn. auto.
        - apply filled_comb in Hf as [Hne Hf]. rewrite Forall_forall in IH, Hf.
          assert (G : forall t, In t l -> ends (tr ++ e ++ e1) t = None).
          { intros t Ht. apply IH; auto. intros id Hid. apply Hu. cbn. apply in_flat_map. eauto. }
          destruct l as [|t l]; [tauto|].
          assert (GF : Forall (fun r => r = None) (map (ends (tr ++ e ++ e1)) (t :: l))).
          { apply Forall_forall. intros r Hr. apply in_map_iff in Hr as (t1 & <- & H1). auto. }
          assert (HN : In None (map (ends (tr ++ e ++ e1)) (t :: l))) by (rewrite <- (G t) by (cbn; auto); cbn; auto).
          apply (first_none 0) in GF.
          cbn [ends]. destruct k; [rewrite every_none by exact HN; reflexivity..|].
          destruct (existsb _ _); [reflexivity|]. rewrite GF. reflexivity. }
      rewrite G in S1; [discriminate| |exact Hq]. apply filled_comb. auto.
Qed.

(** ** An operation completes *)
Definition delivers (tr : list event) (t : tree) (id : nat) (x : comp) (r : list event * (st + out)) : Prop :=
  In id (leaves t) /\ pending tr id /\
  (exists sg, fst r = EDone id x :: sg /\ only_sigs sg) /\
  (forall j c, In (ESig j c) (fst r) -> why [id] (tr ++ fst r) t j c) /\
  match snd r with
  | inl s => W (tr ++ fst r) t s
  | inr o => exists n, ends (tr ++ fst r) t = Some (n, o) /\ S n = length (dones (tr ++ fst r))
  end.

Lemma done_cons id x sg : only_sigs sg ->
  started (EDone id x :: sg) = [] /\ dones (EDone id x :: sg) = [(id, x)] /\ results (EDone id x :: sg) = [].
Proof.
  intros H. apply sigs_touches in H as (H1 & H2 & H3).
  change (started (EDone id x :: sg)) with (started sg).
  change (dones (EDone id x :: sg)) with ((id, x) :: dones sg).
  change (results (EDone id x :: sg)) with (results sg). rewrite H1, H2, H3. auto.
Qed.
Lemma delivers_touches tr t id x e r : delivers tr t id x (e, r) -> touches e = [id] /\ length (dones (tr ++ e)) = S (length (dones tr)).
Proof.
  intros (_ & _ & (sg & He & Hs) & _). cbn in He. subst e. destruct (done_cons id x sg Hs) as (H1 & H2 & _).
  unfold touches. rewrite H1, H2. split; [reflexivity|].
  rewrite dones_app, H2, app_length. cbn. lia.
Qed.

Lemma Forall2_split {A B} (P : A -> B -> Prop) l cs1 c cs2 : Forall2 P l (cs1 ++ c :: cs2) ->
  forall l1 t l2, l = l1 ++ t :: l2 -> length l1 = length cs1 -> Forall2 P l1 cs1 /\ P t c /\ Forall2 P l2 cs2.
Proof.
  intros HF l1. revert l cs1 HF. induction l1 as [|a l1 IH]; intros l [|b cs1] HF t l2 -> Hl; try discriminate; cbn in *.
  - inversion HF; subst. auto.
  - inversion HF as [|? ? ? ? Hab HF']; subst. injection Hl as Hl. destruct (IH _ _ HF' t l2 eq_refl Hl) as (H1 & H2 & H3). auto.
Qed.

Lemma waits_signalled tr t s : W tr t s -> forall u id, part u t -> decided tr u -> In id (leaves u) -> pending tr id -> In id (signalled tr).
Proof.
  revert s. induction t as [j now|k ct l IH] using tree_ind2; intros s HW u id Hp Hd Hi Hpe.
  - inversion Hp; subst. destruct Hd.
  - destruct s as [i|k' ct' ix er cs]; [cbn in HW; tauto|]. apply W_comb in HW as (-> & -> & HF & HS & HR & HG & Hr).
    rewrite Forall_forall in IH, HG.
    assert (G : forall t, In t l -> In id (leaves t) -> exists b s1, In (CRun b s1) cs /\ W tr t s1 /\ In id (waits s1)).
    { intros t Ht Hit. clear - HF Ht Hit Hpe. induction HF as [|t1 c l cs Hc HF IHF]; [destruct Ht|].
      destruct Ht as [->|Ht].
      - destruct c as [|b s1|r]; cbn in Hc.
        + exfalso. apply (Hc id Hit). apply touches_in. left. apply Hpe.
        + exists b, s1. split; [cbn; auto|]. split; [exact Hc|]. apply (W_waits _ _ _ Hc). auto.
        + destruct (ends tr t) as [[n o]|] eqn:He; [|tauto]. exfalso. apply Hpe. eapply ends_quiet; eauto. apply Hpe.
      - destruct (IHF Ht) as (b & s1 & H1 & H2). exists b, s1. cbn. auto. }
    inversion Hp as [|? t ? ? ? Ht Hp2]; subst.
    + cbn in Hi. apply in_flat_map in Hi as (t & Ht & Hi). destruct (G t Ht Hi) as (b & s1 & H1 & H2 & H3).
      apply (dec_decided _ _ _ _ _ _ _ HR) in Hd. apply HG in H1. destruct b; cbn in H1; [congruence|]. apply H1, H3.
    + destruct (G t Ht) as (b & s1 & H1 & H2 & H3); [eapply part_leaves; eauto|]. eapply IH; eauto.
Qed.

Lemma deliver_l_ok id x k ct ix er : forall cs2 l2 l1 cs1 tr e r,
  Forall (fun t => filled t -> NoDup (leaves t) -> forall tr s r, W tr t s -> deliver id x s = Some r -> delivers tr t id x r) (l1 ++ l2) ->
  l1 ++ l2 <> [] -> Forall filled (l1 ++ l2) -> NoDup (flat_map leaves (l1 ++ l2)) -> length l1 = length cs1 ->
  W tr (Comb k ct (l1 ++ l2)) (SComb k ct ix er (cs1 ++ cs2)) ->
  deliver_l (deliver id x) k ct ix er cs1 cs2 = Some (e, r) ->
  delivers tr (Comb k ct (l1 ++ l2)) id x (e, r).
Proof.
  induction cs2 as [|c cs2 IH]; intros l2 l1 cs1 tr e r Hd Hne Hf Hn Hlen HW Hrun; [discriminate|].
  pose proof HW as HW0. apply W_comb in HW as (_ & _ & HF & HS & HR & HG & Hr).
  destruct l2 as [|t l2].
  { apply Forall2_len in HF. rewrite !app_length in HF. cbn in HF. lia. }
  assert (Hnext : deliver_l (deliver id x) k ct ix er (cs1 ++ [c]) cs2 = Some (e, r) -> delivers tr (Comb k ct (l1 ++ t :: l2)) id x (e, r)).
  { intros H. replace (l1 ++ t :: l2) with ((l1 ++ [t]) ++ l2) in * by (rewrite <- app_assoc; reflexivity).
    replace (cs1 ++ c :: cs2) with ((cs1 ++ [c]) ++ cs2) in * by (rewrite <- app_assoc; reflexivity).
    eapply IH; eauto. rewrite !app_length. cbn. lia. }
  cbn [deliver_l] in Hrun. destruct c as [|b s|r0]; auto.
  destruct (deliver id x s) as [[e1 r1]|] eqn:Hds; auto. clear Hnext IH.
  destruct (Forall2_split _ _ _ _ _ HF _ _ _ eq_refl Hlen) as (HF1 & HFt & HF2).
  destruct (Forall2_split _ _ _ _ _ HS _ _ _ eq_refl Hlen) as (HS1 & HSt & HS2).
  cbn in HFt.
  assert (Hft : filled t) by (apply Forall_app in Hf as [_ Hf]; inversion Hf; auto).
  assert (Hnt : NoDup (leaves t)).
  { rewrite flat_map_app in Hn. cbn in Hn. clear - Hn.
    induction (flat_map leaves l1) as [|i y IH]; cbn in Hn; [|inversion Hn; auto].
    induction (leaves t) as [|i y IH]; [constructor|]. cbn in Hn. inversion Hn; subst. constructor; [|auto].
    intros H. apply H1. apply in_app_iff. auto. }
  assert (HD : delivers tr t id x (e1, r1)).
  { rewrite Forall_forall in Hd. eapply Hd; eauto. apply in_app_iff. cbn. auto. }
  pose proof (delivers_touches _ _ _ _ _ _ HD) as [Htch Hlen1].
  destruct HD as (D1 & D2 & (sg & D3 & D4) & D5 & D6). cbn [fst snd] in *.
  assert (Hap : forall t', In t' (l1 ++ l2) -> apart e1 t').
  { intros t' Ht' j Hj Hj2. rewrite Htch in Hj2. destruct Hj2 as [<-|[]]. apply (disj l1 t l2 id t' Hn); auto. }
  assert (HA1 : Forall (apart e1) l1) by (apply Forall_forall; intros; apply Hap, in_app_iff; auto).
  assert (HA2 : Forall (apart e1) l2) by (apply Forall_forall; intros; apply Hap, in_app_iff; auto).
  assert (HF1' : Forall2 (cellOK (tr ++ e1)) l1 cs1).
  { eapply Forall2_imp; [|exact HF1]. intros a d Ha _. apply cellOK_ext. apply Hap, in_app_iff. auto. }
  assert (HF2' : Forall2 (cellOK (tr ++ e1)) l2 cs2).
  { eapply Forall2_imp; [|exact HF2]. intros a d Ha _. apply cellOK_ext. apply Hap, in_app_iff. auto. }
  assert (HS1' : Forall2 (store (tr ++ e1) k ix) l1 cs1).
  { eapply Forall2_imp; [|exact HS1]. intros a d Ha _. apply store_ext. apply Hap, in_app_iff. auto. }
  assert (HS2' : Forall2 (store (tr ++ e1) k ix) l2 cs2).
  { eapply Forall2_imp; [|exact HS2]. intros a d Ha _. apply store_ext. apply Hap, in_app_iff. auto. }
  assert (HR' : regs k (map (ends (tr ++ e1)) l1 ++ None :: map (ends (tr ++ e1)) l2) ix er (cs1 ++ CRun b s :: cs2)).
  { rewrite !map_ends_ext by assumption. rewrite map_app in HR. cbn [map] in HR. rewrite (W_ends _ _ _ HFt) in HR. exact HR. }
  assert (HG' : Forall (flag (tr ++ e1) (dec k ix er) (dec k ix er)) (cs1 ++ cs2)).
  { apply Forall_app in HG as [HG1 HG2]. inversion HG2; subst. apply Forall_app.
    split; (eapply Forall_impl; [|eassumption]); intros c; apply flag_ext. }
  assert (Hin : In id (leaves (Comb k ct (l1 ++ t :: l2)))).
  { cbn. rewrite flat_map_app. apply in_app_iff. right. apply in_app_iff. auto. }
  destruct r1 as [s1|o].
  - injection Hrun as <- <-. split; [exact Hin|]. split; [exact D2|]. cbn [fst snd].
    split; [eauto|]. split.
    + intros j c Hj. eapply why_child; [|eauto]. apply in_app_iff. cbn. auto.
    + apply W_comb. split; [reflexivity|]. split; [reflexivity|]. split; [|split; [|split; [|split]]].
      * apply Forall2_app; [exact HF1'|]. constructor; auto.
      * apply Forall2_app; [exact HS1'|]. constructor; auto.
      * rewrite map_app. cbn [map]. rewrite (W_ends _ _ _ D6). eapply regs_stored; [|exact HR'].
        rewrite !map_app. reflexivity.
      * apply Forall_app in HG' as [HG1 HG2]. apply Forall_app. split; [exact HG1|]. constructor; [|exact HG2].
        apply Forall_app in HG as [_ HG]. inversion HG as [|? ? HGc _]; subst. destruct b; cbn in *; [exact HGc|].
        destruct HGc as [HGc1 HGc2]. split; [exact HGc1|]. rewrite signalled_app. apply incl_appl.
        intros j Hj. apply HGc2. apply (W_waits _ _ _ D6) in Hj as [Hj1 [Hj2 Hj3]].
        apply (W_waits _ _ _ HFt). split; [exact Hj1|]. split.
        -- rewrite started_app in Hj2. apply (done_cons id x) in D4 as (D4 & _). rewrite D4, app_nil_r in Hj2. exact Hj2.
        -- intros Hj4. apply Hj3. rewrite dones_app, map_app. apply in_app_iff. auto.
      * rewrite existsb_app. cbn. apply orb_true_r.
  - destruct D6 as (n & He & Hnn).
    destruct (finish k ct (length cs1) o ix er) as [[[c1 ix1] er1] t1] eqn:Hfin.
    destruct (maybe_cancel t1 (cs1 ++ c1 :: cs2)) as [cs e2] eqn:Hmc. injection Hrun as <- <-.
    destruct (finish_ok (tr ++ e1) k ct l1 t l2 cs1 cs2 ix er n o c1 ix1 er1 t1 cs e2 (dec k ix er) (CRun b s)
      Hf HF1' HF2' HS1' HS2' eq_refl HR' HG' He) as (F1 & _ & F3 & F4 & F5 & F6 & F7 & F8 & F9 & F10); auto.
    { intros t' m o' Ht' Hm. rewrite ends_ext in Hm by auto.
      assert (Hft' : filled t').
      { rewrite Forall_forall in Hf. apply Hf. apply in_app_iff in Ht' as [|]; apply in_app_iff; cbn; auto. }
      pose proof (ends_bound tr t' Hft' _ _ Hm). lia. }
    split; [exact Hin|]. split; [exact D2|]. cbn [fst snd]. split; [|split].
    + exists (sg ++ e2). rewrite D3. split; [reflexivity|]. apply only_sigs_app; auto.
    + rewrite app_assoc. intros j c Hj. apply in_app_iff in Hj as [Hj|Hj].
      * eapply why_child; [|apply why_ext; [apply sigs_apart, F1|eauto]]. apply in_app_iff. cbn. auto.
      * destruct (F9 _ _ Hj) as (G1 & -> & G3). eapply why_here; eauto; [apply F8, G1|]. intros i [<-|[]]. exact Hin.
    + rewrite app_assoc. apply settle_ok; auto.
      * eapply Forall_impl; [|exact F6]. intros c. destruct t1.
        -- destruct (F8 ltac:(discriminate)) as [-> _]. auto.
        -- rewrite F7 by reflexivity. auto.
      * right. exists t, n, o. split; [apply in_app_iff; cbn; auto|]. rewrite ends_ext by (apply sigs_apart, F1).
        split; [exact He|]. rewrite dones_app. apply sigs_touches in F1 as (_ & -> & _). rewrite app_nil_r. exact Hnn.
Qed.

Lemma deliver_ok id x t : filled t -> NoDup (leaves t) -> forall tr s r, W tr t s -> deliver id x s = Some r -> delivers tr t id x r.
Proof.
  induction t as [j now|k ct l IH] using tree_ind2; intros Hf Hn tr s r HW Hrun.
  - destruct s as [i|]; cbn in HW; [|tauto]. destruct HW as [-> HW]. cbn in Hrun.
    destruct (Nat.eqb_spec j id); [|discriminate]. subst j. injection Hrun as <-. split; [cbn; auto|]. split; [exact HW|]. cbn [fst snd].
    split; [exists []; split; [reflexivity|intros y []]|]. split; [intros i c [H|[]]; discriminate|].
    exists (length (dones tr)). rewrite dones_app. cbn. rewrite app_length. cbn. split; [|lia].
    rewrite dones_app. cbn. rewrite find_last by apply HW. reflexivity.
  - destruct s as [i|k' ct' ix er cs]; [cbn in HW; tauto|]. pose proof HW as HW0. apply W_comb in HW as (-> & -> & _).
    apply filled_comb in Hf as [Hne Hf]. destruct r as [e r]. cbn [deliver] in Hrun.
    apply (deliver_l_ok id x k ct ix er cs l [] [] tr e r); auto.
Qed.

Lemma deliver_enabled id x s : In id (waits s) -> deliver id x s <> None.
Proof.
  induction s as [j|k ct ix er cs IH] using st_ind2; intros Hi.
  - cbn in *. destruct Hi as [->|[]]. rewrite Nat.eqb_refl. discriminate.
  - cbn in *. assert (G : forall acc, deliver_l (deliver id x) k ct ix er acc cs <> None); [|apply G].
    induction cs as [|c cs IHc]; intros acc; [destruct Hi|]. cbn in *. apply in_app_iff in Hi.
    assert (IHr : In id (flat_map (fun c => match c with CRun _ s => waits s | _ => [] end) cs) -> forall acc, deliver_l (deliver id x) k ct ix er acc cs <> None).
    { intros H. apply IHc; [|exact H]. intros b s Hb. eapply IH. right. exact Hb. }
    destruct c as [|b s|r]; try (apply IHr; destruct Hi as [[]|Hi]; exact Hi).
    destruct (deliver id x s) as [[e [s1|o]]|] eqn:Hd; [discriminate| |].
    + destruct (finish k ct (length acc) o ix er) as [[[c1 ix1] er1] t1]. destruct (maybe_cancel _ _). discriminate.
    + apply IHr. destruct Hi as [Hi|Hi]; [|exact Hi]. exfalso. eapply IH; [left; reflexivity|exact Hi|exact Hd].
Qed.

(** ** Cancellation from outside *)
Lemma nodup_parts {A} (a b : list A) : NoDup (a ++ b) -> NoDup a /\ NoDup b.
Proof.
  induction a as [|i a IH]; cbn; intros H; [split; [constructor|exact H]|].
  inversion H as [|? ? H1 H2]; subst. apply IH in H2 as [H2 H3]. split; [|exact H3]. constructor; [|exact H2].
  intros Hi. apply H1. apply in_app_iff. auto.
Qed.
Lemma nodup_child (l : list tree) t : NoDup (flat_map leaves l) -> In t l -> NoDup (leaves t).
Proof.
  intros Hn Ht. induction l as [|t1 l IH]; [destruct Ht|]. cbn in Hn. apply nodup_parts in Hn as [H1 H2].
  destruct Ht as [<-|Ht]; auto.
Qed.

Lemma signal_exact tr t s c : NoDup (leaves t) -> W tr t s -> forall id c',
  In (ESig id c') (signal c s) <-> c' = c /\ In id (leaves t) /\ pending tr id /\ ~ below_decided tr t id.
Proof.
  revert s. induction t as [j now|k ct l IH] using tree_ind2; intros s Hn HW id c'.
  - destruct s as [i|]; cbn in HW; [|tauto]. destruct HW as [-> HW]. cbn. split.
    + intros [[= <- <-]|[]]. repeat split; auto; try apply HW. intros (u & H1 & H2 & H3). inversion H1; subst. destruct H3.
    + intros (-> & [<-|[]] & _). auto.
  - destruct s as [i|k' ct' ix er cs]; [cbn in HW; tauto|]. apply W_comb in HW as (-> & -> & HF & HS & HR & HG & Hr).
    rewrite Forall_forall in IH, HG.
    assert (Hnc : forall t, In t l -> NoDup (leaves t)).
    { intros t Ht. eapply nodup_child; eauto. }
    assert (Hun : forall t t', In t l -> In t' l -> In id (leaves t) -> In id (leaves t') -> t = t').
    { intros t t' Ht Ht' Hi Hi'. apply in_split in Ht as (a & b & ->). cbn in Hn.
      apply in_app_iff in Ht' as [Ht'|[Ht'|Ht']]; [|exact Ht'|];
        exfalso; apply (disj a t b id t' Hn Hi); auto; apply in_app_iff; auto. }
    cbn [signal]. rewrite in_flat_map. split.
    + intros (x & Hx & Hi). destruct x as [|b s1|r]; cbn in Hi; try tauto.
      destruct (is_gather k || b) eqn:Hb; [|cbn in Hi; tauto].
      destruct (Forall2_in_r _ _ _ _ HF Hx) as (t & Ht & Hw). cbn in Hw.
      destruct (proj1 (IH t Ht s1 (Hnc t Ht) Hw id c') Hi) as (Hcc & H2 & H3 & H4). subst c'.
      split; [reflexivity|]. split; [cbn; apply in_flat_map; eauto|]. split; [exact H3|].
      intros (u & Hu1 & Hu2 & Hu3). inversion Hu1 as [|? t' ? ? ? Ht' Hp]; subst.
      * apply (dec_decided _ _ _ _ _ _ _ HR) in Hu3. apply HG in Hx.
        destruct b; cbn in Hx; [congruence|]. destruct k; cbn in Hb, Hu3; discriminate.
      * assert (t' = t) by (apply Hun; auto; eapply part_leaves; eauto). subst t'.
        apply H4. exists u. auto.
    + intros (-> & Hi & Hpe & Hnb). cbn in Hi. apply in_flat_map in Hi as (t & Ht & Hi).
      assert (exists b s1, In (CRun b s1) cs /\ W tr t s1) as (b & s1 & H1 & H2).
      { clear - HF Ht Hi Hpe. induction HF as [|t1 x l cs Hc HF IHF]; [destruct Ht|].
        destruct Ht as [->|Ht].
        - destruct x as [|b s1|r]; cbn in Hc.
          + exfalso. apply (Hc id Hi). apply touches_in. left. apply Hpe.
          + exists b, s1. cbn. auto.
          + destruct (ends tr t) as [[n o]|] eqn:He; [|tauto]. exfalso. apply Hpe. eapply ends_quiet; eauto. apply Hpe.
        - destruct (IHF Ht) as (b & s1 & H1 & H2). exists b, s1. cbn. auto. }
      exists (CRun b s1). split; [exact H1|].
      assert (Hb : is_gather k || b = true).
      { pose proof H1 as H1'. apply HG in H1. destruct b; [apply orb_true_r|]. cbn in H1. destruct H1 as [H1 _].
        exfalso. apply Hnb. exists (Comb k ct l). split; [constructor|]. split; [cbn; apply in_flat_map; eauto|].
        apply (dec_decided _ _ ct _ _ _ _ HR). exact H1. }
      rewrite Hb. apply (IH t Ht s1 (Hnc t Ht) H2). repeat split; auto; try apply Hpe.
      intros (u & Hu1 & Hu2 & Hu3). apply Hnb. exists u. split; [econstructor; eauto|auto].
Qed.

(** ** What is not started *)
Lemma ended_unstarted (tr : list event) (t : tree) n o id :
  incl (map fst (dones tr)) (started tr) ->
  ends tr t = Some (n, o) -> In id (leaves t) -> ~ In id (started tr) ->
  exists ct (l : list tree), part (Comb Race ct l) t /\ In id (leaves (Comb Race ct l)) /\ decided tr (Comb Race ct l).
Proof.
  intros Hds. revert n o. induction t as [j now|k ct l IH] using tree_ind2; intros n o He Hi Hs.
  - cbn in *. destruct Hi as [->|[]]. exfalso. apply Hs, Hds.
    destruct (in_dec Nat.eq_dec id (map fst (dones tr))) as [H|H]; [exact H|]. apply (find_none 0) in H. congruence.
  - rewrite Forall_forall in IH. pose proof Hi as Hi0. cbn in Hi. apply in_flat_map in Hi as (t & Ht & Hi).
    destruct (ends tr t) as [[m o1]|] eqn:Het.
    + destruct (IH t Ht _ _ Het Hi Hs) as (ct1 & l1 & H1 & H2). exists ct1, l1. split; [econstructor; eauto|exact H2].
    + assert (HN : In None (map (ends tr) l)) by (rewrite <- Het; apply in_map; exact Ht).
      cbn in He. destruct k; [rewrite every_none in He by exact HN; discriminate..|].
      destruct (existsb _ l); [discriminate|]. destruct (first_of 0 _) as [[[i m] o1]|] eqn:Hfo; [|discriminate].
      apply first_some in Hfo. apply in_map_iff in Hfo as (t1 & H1 & H2).
      exists ct, l. split; [constructor|]. split; [exact Hi0|]. cbn. eauto.
Qed.
Lemma waiting_unstarted (tr : list event) (t : tree) s id :
  incl (map fst (dones tr)) (started tr) ->
  W tr t s -> In id (leaves t) -> ~ In id (started tr) ->
  exists ct (l : list tree), part (Comb Race ct l) t /\ In id (leaves (Comb Race ct l)) /\ decided tr (Comb Race ct l).
Proof.
  intros Hds. revert s. induction t as [j now|k ct l IH] using tree_ind2; intros s HW Hi Hs.
  - destruct s as [i|]; cbn in HW; [|tauto]. destruct HW as [-> [HW _]]. cbn in Hi. destruct Hi as [->|[]]. tauto.
  - destruct s as [i|k' ct' ix er cs]; [cbn in HW; tauto|]. apply W_comb in HW as (-> & -> & HF & HS & HR & HG & Hr).
    rewrite Forall_forall in IH. pose proof Hi as Hi0. cbn in Hi. apply in_flat_map in Hi as (t & Ht & Hi).
    assert (G : (exists s1, W tr t s1) \/ ends tr t <> None \/ (k = Race /\ ix <> None)).
    { clear - HF HS Ht. revert HS. induction HF as [|t1 c l cs Hc HF IHF]; intros HS; [destruct Ht|].
      inversion HS; subst. destruct Ht as [->|Ht]; [|auto]. destruct c; cbn in *; eauto. }
    destruct G as [(s1 & Hw)|[Hne|[-> Hix]]].
    + destruct (IH t Ht _ Hw Hi Hs) as (ct1 & l1 & H1 & H2). exists ct1, l1. split; [econstructor; eauto|exact H2].
    + destruct (ends tr t) as [[m o1]|] eqn:Het; [|tauto].
      destruct (ended_unstarted _ _ _ _ _ Hds Het Hi Hs) as (ct1 & l1 & H1 & H2). exists ct1, l1. split; [econstructor; eauto|exact H2].
    + exists ct, l. split; [constructor|]. split; [exact Hi0|].
      apply (dec_decided _ _ ct _ _ _ _ HR). cbn. destruct ix; [reflexivity|tauto].
Qed.

(** ** Histories *)
Definition Inv (t : tree) (tr : list event) (s : state V E) : Prop :=
  incl (touches tr) (leaves t) /\ NoDup (started tr) /\ NoDup (map fst (dones tr)) /\ incl (map fst (dones tr)) (started tr) /\
  match s with
  | Some s => W tr t s /\ results tr = []
  | None => exists tr0 n o, tr = tr0 ++ [EResult o] /\ results tr0 = [] /\ ends tr t = Some (n, o)
  end.

Lemma Inv_answer t tr e r s e1 :
  incl (touches (tr ++ e)) (leaves t) -> NoDup (started (tr ++ e)) -> NoDup (map fst (dones (tr ++ e))) ->
  incl (map fst (dones (tr ++ e))) (started (tr ++ e)) -> results (tr ++ e) = [] ->
  match r with inl s => W (tr ++ e) t s | inr o => exists n, ends (tr ++ e) t = Some (n, o) end ->
  answer r = (s, e1) -> Inv t (tr ++ e ++ e1) s.
Proof.
  intros H1 H2 H3 H4 H5 H6 Ha. unfold Inv. destruct r as [s1|o]; cbn in Ha; injection Ha as <- <-.
  - rewrite app_nil_r. repeat split; auto.
  - rewrite app_assoc. rewrite started_app, dones_app. cbn. rewrite !app_nil_r. repeat split; auto.
    + intros id Hid. apply H1. apply touches_app in Hid. cbn in Hid. tauto.
    + destruct H6 as (n & H6). exists (tr ++ e), n, o. repeat split; auto.
      rewrite ends_ext; [exact H6|]. intros id _. cbn. tauto.
Qed.

Lemma run_app (s : state V E) l1 l2 : run s (l1 ++ l2) =
  match run s l1 with
  | Some (s1, e1) => match run s1 l2 with Some (s2, e2) => Some (s2, e1 ++ e2) | None => None end
  | None => None
  end.
Proof.
  revert s. induction l1 as [|l l1 IH]; intros s; cbn.
  - destruct (run s l2) as [[s2 e2]|]; reflexivity.
  - destruct (step s l) as [[s1 e1]|]; [|reflexivity]. rewrite IH.
    destruct (run s1 l1) as [[s2 e2]|]; [|reflexivity]. destruct (run s2 l2) as [[s3 e3]|]; [|reflexivity].
    rewrite app_assoc. reflexivity.
Qed.
Lemma await_app t l1 l2 : @await V E t (l1 ++ l2) =
  match await t l1 with
  | Some (s1, e1) => match run s1 l2 with Some (s2, e2) => Some (s2, e1 ++ e2) | None => None end
  | None => None
  end.
Proof.
  unfold await. destruct (go t) as [e r]. destruct (answer r) as [s e1]. rewrite run_app.
  destruct (run s l1) as [[s1 e2]|]; [|reflexivity]. destruct (run s1 l2) as [[s2 e3]|]; [|reflexivity].
  rewrite !app_assoc. reflexivity.
Qed.

Lemma step_inv t tr s l s1 e : wf t -> Inv t tr s -> step s l = Some (s1, e) -> Inv t (tr ++ e) s1.
Proof.
  intros [Hn Hf] (I1 & I2 & I3 & I4 & I5) Hst. destruct s as [s|]; [|discriminate]. destruct I5 as [HW Hres].
  destruct l as [id x|c]; cbn in Hst.
  - destruct (deliver id x s) as [[e1 r]|] eqn:Hd; [|discriminate]. destruct (answer r) as [s2 e2] eqn:Ha. injection Hst as <- <-.
    pose proof (deliver_ok id x t Hf Hn _ _ _ HW Hd) as (D1 & [D2a D2b] & (sg & D3 & D4) & D5 & D6). cbn [fst snd] in *.
    apply (done_cons id x) in D4 as (S1 & S2 & S3). rewrite <- D3 in S1, S2, S3.
    eapply Inv_answer; [..|exact Ha].
    + intros j Hj. apply touches_app in Hj as [Hj|Hj]; [auto|]. unfold touches in Hj. rewrite S1, S2 in Hj. destruct Hj as [<-|[]]. exact D1.
    + rewrite started_app, S1, app_nil_r. exact I2.
    + rewrite dones_app, S2, map_app. cbn. apply NoDup_Add with (l := map fst (dones tr)) (a := id).
      * pose proof (Add_app id (map fst (dones tr)) []) as HA. rewrite app_nil_r in HA. exact HA.
      * auto.
    + rewrite dones_app, S2, map_app, started_app, S1, app_nil_r. intros j Hj. apply in_app_iff in Hj as [Hj|[<-|[]]]; auto.
    + rewrite results_app, Hres, S3. reflexivity.
    + destruct r; [exact D6|]. destruct D6 as (n & D6 & _). eauto.
  - injection Hst as <- <-. pose proof (signal_only c s) as Ho. pose proof (sigs_touches _ Ho) as (S1 & S2 & S3).
    unfold Inv. rewrite started_app, dones_app, results_app, S1, S2, S3, !app_nil_r. repeat split; auto.
    + intros j Hj. apply touches_app in Hj as [Hj|Hj]; [auto|]. unfold touches in Hj. rewrite S1, S2 in Hj. destruct Hj.
    + apply W_ext; [apply sigs_apart, Ho|exact HW].
Qed.

Theorem await_inv t ls s tr : wf t -> await t ls = Some (s, tr) -> Inv t tr s.
Proof.
  intros Hwf. revert s tr. induction ls as [|l ls IH] using rev_ind; intros s tr Hrun.
  - unfold await in Hrun. destruct Hwf as [Hn Hf]. pose proof (go_ok t Hf Hn []) as G.
    destruct (go t) as [e r]. cbn [fst snd] in G. destruct G as ((G1 & G2 & G3 & G4 & G5) & _ & G6); [intros id _ []|].
    destruct (answer r) as [s1 e1] eqn:Ha. cbn in Hrun. injection Hrun as <- <-. rewrite app_nil_r.
    apply (Inv_answer t [] e r); auto. destruct r; [exact G6|]. destruct G6 as (n & G6 & _). eauto.
  - rewrite await_app in Hrun. destruct (await t ls) as [[s1 e1]|]; [|discriminate]. cbn in Hrun.
    destruct (step s1 l) as [[s2 e2]|] eqn:Hst; [|discriminate]. injection Hrun as <- <-. rewrite app_nil_r.
    eapply step_inv; eauto.
Qed.
End Proofs.
