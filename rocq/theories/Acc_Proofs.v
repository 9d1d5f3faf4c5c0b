(** * Invariants of the model of io::acceptor *)
From Coq Require Import List Bool Arith Lia Permutation.
From Verif Require Import Acc_Model Acc_Spec.
Import ListNotations.

Lemma upd_same : forall A (f : nat -> A) k v, upd f k v k = v.
Proof. intros. unfold upd. now rewrite Nat.eqb_refl. Qed.
Lemma upd_other : forall A (f : nat -> A) k v n, n <> k -> upd f k v n = f n.
Proof. intros. unfold upd. destruct (Nat.eqb_spec n k); congruence. Qed.

Lemma mem_In : forall i l, mem i l = true <-> In i l.
Proof.
  intros. unfold mem. rewrite existsb_exists. split.
  - intros (x & H & E). apply Nat.eqb_eq in E. now subst.
  - intros H. exists i. split; auto. apply Nat.eqb_refl.
Qed.
Lemma mem_nIn : forall i l, mem i l = false <-> ~ In i l.
Proof. intros. rewrite <- mem_In. destruct (mem i l); split; congruence. Qed.

(** One accept operation runs at a time in the proofs: [run] one step longer *)
Lemma run_snoc : forall ls l s s2 es, run s (ls ++ [l]) = Some (s2, es) ->
  exists s1 e1 e2, run s ls = Some (s1, e1) /\ step s1 l = Some (s2, e2) /\ es = e1 ++ e2.
Proof.
  induction ls as [|x ls IH]; cbn; intros l s s2 es H.
  - destruct (step s l) as [[s1 e]|] eqn:E; [|discriminate]. injection H as <- <-. exists s, [], e. rewrite app_nil_r. auto.
  - destruct (step s x) as [[s1 e]|] eqn:E; [|discriminate].
    destruct (run s1 (ls ++ [l])) as [[s3 e3]|] eqn:R; [|discriminate]. injection H as <- <-.
    apply IH in R as (s4 & e4 & e5 & R & S & ->). rewrite R. exists s4, (e ++ e4), e5. rewrite app_assoc. auto.
Qed.

Lemma arrived_app : forall a b, arrived (a ++ b) = arrived a ++ arrived b.
Proof. induction a as [|[] a IH]; cbn; intros; rewrite ?IH; auto. Qed.
Lemma asked_app : forall a b, asked (a ++ b) = asked a ++ asked b.
Proof. induction a as [|[] a IH]; cbn; intros; rewrite ?IH; auto. Qed.
Lemma on_the_way_app : forall a b, on_the_way (a ++ b) = on_the_way a ++ on_the_way b.
Proof. intros. apply flat_map_app. Qed.

Lemma find_In : forall i q k, find i q = Some k -> In (i, k) q.
Proof.
  intros i q k H. unfold find in H. destruct (List.find _ q) as [[j k']|] eqn:F; [|discriminate].
  apply find_some in F as (I & E). apply Nat.eqb_eq in E. cbn in *. injection H as ->. now subst.
Qed.
Lemma find_None : forall i q, find i q = None -> ~ In i (map fst q).
Proof.
  intros i q H I. unfold find in H. destruct (List.find _ q) eqn:F; [discriminate|].
  apply in_map_iff in I as ((j & k) & E & I). eapply find_none in F; eauto. cbn in *. subst. rewrite Nat.eqb_refl in F. discriminate.
Qed.
Lemma without_In : forall i q x, In x (without i q) <-> In x q /\ fst x <> i.
Proof.
  intros. unfold without. rewrite filter_In. split; intros (A & B); split; auto.
  - apply negb_true_iff, Nat.eqb_neq in B. auto.
  - apply negb_true_iff, Nat.eqb_neq. auto.
Qed.
Lemma without_notin : forall i q, ~ In i (map fst q) -> without i q = q.
Proof.
  induction q as [|[j k] q IH]; cbn; intros H; auto. destruct (Nat.eqb_spec j i); cbn; [exfalso; auto|]. f_equal. auto.
Qed.
Lemma without_perm : forall i k q, NoDup (map fst q) -> In (i, k) q -> Permutation (map fst q) (i :: map fst (without i q)).
Proof.
  induction q as [|[j k'] q IH]; cbn; intros N I; [contradiction|]. inversion N; subst.
  destruct I as [I|I].
  - injection I as -> ->. rewrite Nat.eqb_refl. cbn. change (filter _ q) with (without i q). rewrite without_notin; auto.
  - destruct (Nat.eqb_spec j i) as [->|Ne]; cbn.
    + exfalso. apply H1. apply in_map_iff. exists (i, k). auto.
    + change (filter _ q) with (without i q). rewrite (IH H2 I). apply perm_swap.
Qed.

(** ** Subsequences *)
Lemma ss_refl : forall A (l : list A), subseq l l.
Proof. induction l; [constructor|apply ss_take; auto]. Qed.
Lemma ss_trans : forall A (b c : list A), subseq b c -> forall a, subseq a b -> subseq a c.
Proof.
  induction 1; intros y Hy.
  - inversion Hy. constructor.
  - apply ss_skip. auto.
  - inversion Hy; subst; [apply ss_nil|apply ss_skip; auto|apply ss_take; auto].
Qed.
Lemma ss_app : forall A (a b c d : list A), subseq a b -> subseq c d -> subseq (a ++ c) (b ++ d).
Proof.
  induction 1; cbn; intros; [|apply ss_skip; auto|apply ss_take; auto]. induction l; cbn; auto. now apply ss_skip.
Qed.
Lemma ss_filter : forall A f (l : list A), subseq (filter f l) l.
Proof. induction l as [|x l IH]; cbn; [constructor|]. destruct (f x); [now apply ss_take|now apply ss_skip]. Qed.
Lemma ss_map : forall A B (f : A -> B) a b, subseq a b -> subseq (map f a) (map f b).
Proof. induction 1; cbn; [constructor|now apply ss_skip|now apply ss_take]. Qed.
Lemma ss_drop : forall A (x a : list A), subseq a (x ++ a).
Proof. induction x; cbn; intros; [apply ss_refl|apply ss_skip; auto]. Qed.
Lemma ss_In : forall A (a b : list A), subseq a b -> forall x, In x a -> In x b.
Proof. induction 1; cbn; intros; intuition. Qed.

(** Delivering changes the sockets only *)
Lemma deliver_eq : forall i k r s, exists sk,
  fst (deliver i k r s) = mk (dsc s) (alive s) (backlog s) (queue s) (posted s) sk (used s) (lost s).
Proof.
  intros i k r [d a b q p so u lo]. destruct r; cbn [deliver]; [|exists so; reflexivity..].
  destruct k; cbn [deliver socks]; [|exists so; reflexivity..].
  destruct (so s); [exists so; reflexivity|]. eexists. reflexivity.
Qed.

(** ** Descriptor *)
Lemma init_desc : forall ep ls s es, run (init ep) ls = Some (s, es) ->
  alive s = true -> dsc s = mkd ep ep ep.
Proof.
  intros ep ls. induction ls as [|l ls IH] using rev_ind; intros s es R A.
  - injection R as <- <-. reflexivity.
  - apply run_snoc in R as (s1 & e1 & e2 & R & S & ->). specialize (IH _ _ R).
    destruct l; cbn [step] in S.
    + destruct (alive s1) eqn:A1; [|discriminate]. cbn [negb] in S. rewrite IH in S by reflexivity. destruct ep; cbn in S; injection S as <- <-; auto.
    + destruct (alive s1) eqn:A1; [|discriminate]. cbn [negb] in S. rewrite IH in S by reflexivity. destruct ep; cbn in S; injection S as <- <-; auto.
    + destruct (alive s1 && listening (dsc s1)); [|discriminate]. injection S as <- <-. auto.
    + destruct (negb (alive s1) || mem i (used s1)); [discriminate|].
      destruct (match k with KInto x => match socks s1 x with Some _ => true | None => false end | _ => false end);
        [|destruct (negb (opened (dsc s1))); [|destruct (negb (listening (dsc s1)))]]; injection S as <- <-; auto.
    + destruct (queue s1) as [|[i []] q]; [discriminate|..]; (destruct (backlog s1); [discriminate|]); injection S as <- <-; auto.
    + destruct (posted s1) as [|[[i k] r] p]; [discriminate|]. injection S as S.
      destruct (deliver_eq i k r (mk (dsc s1) (alive s1) (backlog s1) (queue s1) p (socks s1) (used s1) (lost s1))) as (sk & E).
      rewrite S in E. cbn [fst] in E. subst s. auto.
    + injection S as <- <-. unfold cancel in *. destruct (find i (queue s1)) as [k|]; [destruct (cancellable k)|]; auto.
    + destruct (mem i (used s1)); [|discriminate]. injection S as <- <-. cbn [alive dsc] in *. unfold cancel in *.
      destruct (find i (queue s1)) as [k|]; [destruct (cancellable k)|]; auto.
    + injection S as <- <-. auto.
    + destruct (alive s1); [|discriminate]. injection S as <- <-. discriminate.
Qed.

(** ** Conservation *)
Definition conn_ids (p : list (nat * kind * res)) : list nat :=
  flat_map (fun x => match snd x with RConn _ => [fst (fst x)] | _ => [] end) p.

Record inv (ls : list label) (s : state) (es : list event) : Prop := mkinv
  { i_used : used s = asked ls;
    i_nodup : NoDup (asked ls);
    i_perm : Permutation (asked ls) (flat_map ended es ++ completing s ++ waiting s);
    i_conn : arrived ls = flat_map conn_of es ++ on_the_way (posted s) ++ backlog s;
    i_order : subseq (flat_map served es ++ conn_ids (posted s) ++ waiting s) (asked ls) }.

Lemma deliver_ev : forall i k r s, 
  flat_map ended (snd (deliver i k r s)) = [i] /\
  flat_map conn_of (snd (deliver i k r s)) = on_the_way [(i, k, r)] /\
  subseq (flat_map served (snd (deliver i k r s))) (conn_ids [(i, k, r)]).
Proof.
  intros i k r s. unfold deliver, on_the_way, conn_ids. cbn [flat_map snd fst app].
  destruct r as [c|e|]; [destruct k as [x| |]; [destruct (socks s x)|..]|..]; destruct (lost s i); cbn;
    repeat split; auto using ss_refl, ss_nil.
Qed.

Lemma nodup_waiting : forall ls s es, inv ls s es -> NoDup (waiting s) /\ NoDup (completing s) /\
  (forall i, In i (waiting s) -> ~ In i (completing s)) /\ (forall i, In i (waiting s) \/ In i (completing s) -> In i (used s) /\ ~ In i (flat_map ended es)).
Proof.
  intros ls s es I. pose proof (i_nodup _ _ _ I) as N. pose proof (i_perm _ _ _ I) as P.
  pose proof (Permutation_NoDup P N) as N2.
  assert (D : forall A (a b : list A), NoDup (a ++ b) -> NoDup a /\ NoDup b /\ forall x, In x a -> ~ In x b).
  { clear. induction a as [|x a IH]; cbn; intros b H; [repeat split; auto; constructor|].
    inversion H; subst. apply IH in H3 as (A1 & B1 & C1). rewrite in_app_iff in H2. repeat split; auto.
    - constructor; auto.
    - intros y [->|Y]; auto. }
  apply D in N2 as (Ne & N3 & X). apply D in N3 as (Nc & Nw & Y). repeat split; auto.
  - intros i W C. apply (Y i C W).
  - rewrite (i_used _ _ _ I). eapply Permutation_in; [symmetry; exact P|]. rewrite !in_app_iff. tauto.
  - intros E. apply (X i E). rewrite in_app_iff. tauto.
Qed.

Lemma completing_snoc : forall p i k r, map (fun x : nat * kind * res => fst (fst x)) (p ++ [(i, k, r)]) = map (fun x => fst (fst x)) p ++ [i].
Proof. intros. now rewrite map_app. Qed.

Definition abort_all (q : list (nat * kind)) : list (nat * kind * res) := map (fun x => (fst x, snd x, RErr aborted)) q.
Lemma destroyed_way : forall q, on_the_way (abort_all q) = [].
Proof. induction q; cbn; auto. Qed.
Lemma destroyed_ids : forall q, conn_ids (abort_all q) = [].
Proof. induction q; cbn; auto. Qed.

Lemma inv_step : forall ls s es l s' e, inv ls s es -> step s l = Some (s', e) -> inv (ls ++ [l]) s' (es ++ e).
Proof.
  intros ls s es l s' e I S. pose proof (nodup_waiting _ _ _ I) as (Nw & Nc & Dj & Us).
  destruct I as [Iu In_ Ip Ic Io]. unfold waiting, completing in *.
  assert (Same : forall sk d al lo ev b, b = backlog s -> flat_map ended ev = [] -> flat_map conn_of ev = [] -> flat_map served ev = [] ->
            asked [l] = [] -> arrived [l] = [] ->
            inv (ls ++ [l]) (mk d al b (queue s) (posted s) sk (used s) lo) (es ++ ev)).
  { intros sk d al lo ev b -> E1 E2 E3 A1 A2. constructor; unfold waiting, completing; cbn [used posted queue backlog];
      rewrite ?asked_app, ?arrived_app, ?flat_map_app, ?A1, ?A2, ?E1, ?E2, ?E3, ?app_nil_r; auto. }
  assert (Canc : forall i lo, asked [l] = [] -> arrived [l] = [] ->
            inv (ls ++ [l]) (let s1 := cancel i s in mk (dsc s1) (alive s1) (backlog s1) (queue s1) (posted s1) (socks s1) (used s1) lo) (es ++ [])).
  { intros i lo A1 A2. unfold cancel. destruct (find i (queue s)) as [k|] eqn:F; [|now apply Same].
    destruct (cancellable k) eqn:C; [|now apply Same]. apply find_In in F.
    constructor; unfold waiting, completing; cbn [used posted queue backlog];
      rewrite ?asked_app, ?arrived_app, ?A1, ?A2, ?app_nil_r; auto.
    - rewrite completing_snoc, Ip. apply Permutation_app_head. rewrite <- app_assoc. apply Permutation_app_head. cbn. eapply without_perm; eauto.
    - rewrite on_the_way_app. cbn. now rewrite app_nil_r.
    - eapply ss_trans; [exact Io|]. apply ss_app; [apply ss_refl|]. unfold conn_ids. rewrite flat_map_app. cbn. rewrite app_nil_r.
      apply ss_app; [apply ss_refl|]. apply ss_map, ss_filter. }
  destruct l; cbn [step] in S.
  - destruct (alive s); [|discriminate]. cbn [negb] in S. destruct s as [d a b q p so u lo].
    destruct (negb (opened _)); [|destruct (bound _)]; injection S as <- <-; now apply Same.
  - destruct (alive s); [|discriminate]. cbn [negb] in S. destruct s as [d a b q p so u lo].
    destruct (negb (opened _)); injection S as <- <-; now apply Same.
  - destruct (alive s && listening (dsc s)); [|discriminate]. injection S as <- <-.
    constructor; unfold waiting, completing; cbn [used posted queue backlog];
      rewrite ?asked_app, ?arrived_app, ?app_nil_r; cbn [asked arrived]; rewrite ?app_nil_r; auto.
    rewrite Ic. now rewrite <- !app_assoc.
  - destruct (negb (alive s) || mem i (used s)) eqn:G; [discriminate|]. apply orb_false_iff in G as (_ & G). apply mem_nIn in G.
    assert (Nd : NoDup (asked ls ++ [i])).
    { rewrite Iu in G. eapply Permutation_NoDup; [apply Permutation_cons_append|]. constructor; auto. }
    assert (Fail : forall er, inv (ls ++ [LAccept i k]) (mk (dsc s) (alive s) (backlog s) (queue s) (posted s ++ [(i, k, RErr er)]) (socks s) (used s ++ [i]) (lost s)) (es ++ [])).
    { intros er. constructor; unfold waiting, completing; cbn [used posted queue backlog];
        rewrite ?asked_app, ?arrived_app, ?app_nil_r; cbn [asked arrived]; rewrite ?app_nil_r; auto.
      - now rewrite Iu.
      - rewrite completing_snoc, Ip. rewrite <- !app_assoc. apply Permutation_app_head, Permutation_app_head. apply Permutation_sym, Permutation_cons_append.
      - rewrite on_the_way_app. cbn. now rewrite app_nil_r.
      - unfold conn_ids. rewrite flat_map_app. cbn. rewrite app_nil_r. rewrite <- (app_nil_r (flat_map served es ++ _)). apply ss_app; [exact Io|apply ss_nil]. }
    destruct (match k with KInto x => match socks s x with Some _ => true | None => false end | _ => false end);
      [injection S as <- <-; apply Fail|].
    destruct (negb (opened (dsc s))); [injection S as <- <-; apply Fail|].
    destruct (negb (listening (dsc s))); [injection S as <- <-; apply Fail|]. injection S as <- <-.
    constructor; unfold waiting, completing; cbn [used posted queue backlog];
        rewrite ?asked_app, ?arrived_app, ?app_nil_r; cbn [asked arrived]; rewrite ?app_nil_r; auto.
    + now rewrite Iu.
    + rewrite map_app. cbn [map fst]. rewrite !app_assoc. apply Permutation_app_tail. now rewrite <- app_assoc.
    + rewrite map_app. cbn [map fst]. rewrite !app_assoc. apply ss_app; [now rewrite <- app_assoc|apply ss_refl].
  - assert (Re : forall i k q r b, queue s = (i, k) :: q -> on_the_way [(i, k, r)] ++ b = backlog s ->
       inv (ls ++ [LReact]) (mk (dsc s) (alive s) b q (posted s ++ [(i, k, r)]) (socks s) (used s) (lost s)) (es ++ [])).
    { intros i k q r b Q B. rewrite Q in *. constructor; unfold waiting, completing; cbn [used posted queue backlog];
        rewrite ?asked_app, ?arrived_app, ?app_nil_r; cbn [asked arrived]; rewrite ?app_nil_r; auto.
      - rewrite completing_snoc, Ip. rewrite <- !app_assoc. reflexivity.
      - rewrite on_the_way_app, <- app_assoc, B. auto.
      - eapply ss_trans; [exact Io|]. apply ss_app; [apply ss_refl|]. unfold conn_ids. rewrite flat_map_app, <- app_assoc.
        apply ss_app; [apply ss_refl|]. cbn. destruct r; cbn; [apply ss_refl|apply ss_skip, ss_refl..]. }
    destruct (queue s) as [|[i []] q]; [discriminate|..]; (destruct (backlog s); [discriminate|]); injection S as <- <-; apply Re; reflexivity.
  - destruct (posted s) as [|[[i k] r] p] eqn:P; [discriminate|]. injection S as S.
    destruct (deliver_eq i k r (mk (dsc s) (alive s) (backlog s) (queue s) p (socks s) (used s) (lost s))) as (sk & E).
    destruct (deliver_ev i k r (mk (dsc s) (alive s) (backlog s) (queue s) p (socks s) (used s) (lost s))) as (E1 & E2 & E3).
    rewrite S in *. cbn [fst snd] in *. subst s'. cbn [dsc alive backlog queue posted used lost map fst] in *.
    constructor; unfold waiting, completing; cbn [used posted queue backlog];
        rewrite ?asked_app, ?arrived_app, ?flat_map_app; cbn [asked arrived]; rewrite ?app_nil_r; auto.
    + rewrite E1, Ip, <- !app_assoc. reflexivity.
    + rewrite E2, Ic, <- !app_assoc. f_equal. unfold on_the_way. cbn. now rewrite <- !app_assoc.
    + eapply ss_trans; [exact Io|]. rewrite <- app_assoc. apply ss_app; [apply ss_refl|].
      change (conn_ids ((i, k, r) :: p)) with (conn_ids ([(i, k, r)] ++ p)). unfold conn_ids at 2. rewrite flat_map_app, <- app_assoc.
      apply ss_app; [exact E3|apply ss_refl].
  - injection S as <- <-. pose proof (Canc i (lost s) eq_refl eq_refl) as X. cbv zeta in X.
    replace (mk _ _ _ _ _ _ _ _) with (cancel i s) in X; auto. unfold cancel.
    destruct (find i (queue s)) as [k|]; [destruct (cancellable k)|]; destruct s; reflexivity.
  - destruct (mem i (used s)); [|discriminate]. injection S as <- <-. now apply Canc.
  - injection S as <- <-. now apply Same.
  - destruct (alive s); [|discriminate]. injection S as <- <-.
    constructor; unfold waiting, completing; cbn [used posted queue backlog];
        rewrite ?asked_app, ?arrived_app, ?app_nil_r; cbn [asked arrived]; rewrite ?app_nil_r; auto.
    + rewrite map_app, map_map. cbn [map]. rewrite ?app_nil_r. exact Ip.
    + rewrite on_the_way_app. replace (on_the_way (map _ (queue s))) with (@nil nat); [now rewrite app_nil_r|].
      symmetry. apply destroyed_way.
    + eapply ss_trans; [exact Io|]. apply ss_app; [apply ss_refl|]. unfold conn_ids. rewrite flat_map_app.
      replace (flat_map _ (map _ (queue s))) with (@nil nat); [rewrite ?app_nil_r|symmetry; apply destroyed_ids].
      rewrite <- (app_nil_r (flat_map _ (posted s))) at 1. apply ss_app; [apply ss_refl|apply ss_nil].
Qed.

Lemma inv_init : forall ep, inv [] (init ep) [].
Proof. intros. constructor; cbn; auto; constructor. Qed.

Lemma run_inv : forall ep ls s es, run (init ep) ls = Some (s, es) -> inv ls s es.
Proof.
  intros ep ls. induction ls as [|l ls IH] using rev_ind; intros s es R.
  - injection R as <- <-. apply inv_init.
  - apply run_snoc in R as (s1 & e1 & e2 & R & S & ->). eapply inv_step; eauto.
Qed.

(** ** A cancelled operation *)
Definition settled (i : nat) (s : state) : Prop :=
  In i (used s) /\ ~ In i (waiting s) /\ forall k r, In (i, k, r) (posted s) -> r = RErr aborted.

Lemma settled_step : forall i s l s' e, settled i s -> step s l = Some (s', e) ->
  settled i s' /\ forall o, In (EResult i o) e -> o = OErr aborted.
Proof.
  intros i s l s' e (U & W & P) S. unfold settled, waiting in *.
  assert (Canc : forall j, In i (used (cancel j s)) /\ ~ In i (map fst (queue (cancel j s))) /\ forall k r, In (i, k, r) (posted (cancel j s)) -> r = RErr aborted).
  { intros j. unfold cancel. destruct (find j (queue s)) as [k|] eqn:F; [destruct (cancellable k)|]; auto. cbn.
    repeat split; auto.
    - intros X. apply W. apply in_map_iff in X as (x & E & X). apply without_In in X as (X & _). apply in_map_iff. eauto.
    - intros k' r X. apply in_app_iff in X as [X|[X|[]]]; eauto. congruence. }
  destruct l; cbn [step] in S.
  - destruct (alive s); [|discriminate]. cbn [negb] in S.
    destruct (negb (opened _)); [|destruct (bound _)]; injection S as <- <-; (split; [auto|]); intros o [X|[]]; discriminate.
  - destruct (alive s); [|discriminate]. cbn [negb] in S.
    destruct (negb (opened _)); injection S as <- <-; (split; [auto|]); intros o [X|[]]; discriminate.
  - destruct (alive s && listening (dsc s)); [|discriminate]. injection S as <- <-. split; [auto|]. intros o [].
  - destruct (negb (alive s) || mem i0 (used s)) eqn:G; [discriminate|]. apply orb_false_iff in G as (_ & G). apply mem_nIn in G.
    assert (Ne : i0 <> i) by (intros ->; auto).
    assert (A : In i (used s ++ [i0])) by (rewrite in_app_iff; auto).
    destruct (match k with KInto x => match socks s x with Some _ => true | None => false end | _ => false end);
      [|destruct (negb (opened (dsc s))); [|destruct (negb (listening (dsc s)))]]; injection S as <- <-; cbn; (split; [|intros o []]);
      repeat split; auto.
    1-3: intros k' r X; apply in_app_iff in X as [X|[X|[]]]; [eauto|congruence].
    rewrite map_app, in_app_iff. cbn. intros [X|[X|[]]]; auto.
  - assert (Re : forall j k q r b, queue s = (j, k) :: q ->
        let s' := mk (dsc s) (alive s) b q (posted s ++ [(j, k, r)]) (socks s) (used s) (lost s) in
        In i (used s') /\ ~ In i (map fst (queue s')) /\ forall k r, In (i, k, r) (posted s') -> r = RErr aborted).
    { intros j k q r b Q. rewrite Q in W. cbn in *. repeat split; auto. intros k' r' X. apply in_app_iff in X as [X|[X|[]]]; [eauto|].
      exfalso. apply W. left. congruence. }
    destruct (queue s) as [|[j []] q]; [discriminate|..]; (destruct (backlog s); [discriminate|]); injection S as <- <-;
      (split; [now apply Re|intros o []]).
  - destruct (posted s) as [|[[j k] r] p] eqn:Po; [discriminate|]. injection S as S.
    destruct (deliver_eq j k r (mk (dsc s) (alive s) (backlog s) (queue s) p (socks s) (used s) (lost s))) as (sk & E).
    assert (X : forall o, In (EResult i o) (snd (deliver j k r (mk (dsc s) (alive s) (backlog s) (queue s) p (socks s) (used s) (lost s)))) -> o = OErr aborted).
    { intros o X. destruct (Nat.eq_dec j i) as [->|Ne].
      - assert (r = RErr aborted) by (eapply P; left; reflexivity). subst r. cbn in X. destruct (lost s i); destruct X as [X|[]]; congruence.
      - exfalso. destruct (deliver_ev j k r (mk (dsc s) (alive s) (backlog s) (queue s) p (socks s) (used s) (lost s))) as (E1 & _).
        assert (Y : In i (flat_map ended (snd (deliver j k r (mk (dsc s) (alive s) (backlog s) (queue s) p (socks s) (used s) (lost s)))))).
        { apply in_flat_map. exists (EResult i o). split; [auto|now left]. }
        rewrite E1 in Y. destruct Y as [Y|[]]. auto. }
    rewrite S in *. cbn [fst snd] in *. subst s'. cbn. repeat split; auto. intros k' r' Y. eapply P. right. eauto.
  - injection S as <- <-. split; [apply Canc|intros o []].
  - destruct (mem i0 (used s)); [|discriminate]. injection S as <- <-. split; [|intros o []]. cbn. apply Canc.
  - injection S as <- <-. split; [auto|intros o []].
  - destruct (alive s); [|discriminate]. injection S as <- <-. cbn. split; [|intros o []]. repeat split; auto.
    intros k r X. apply in_app_iff in X as [X|X]; [eauto|]. apply in_map_iff in X as (x & X & _). congruence.
Qed.

Lemma settled_run : forall ls i s s' es, settled i s -> run s ls = Some (s', es) -> forall o, In (EResult i o) es -> o = OErr aborted.
Proof.
  induction ls as [|l ls IH]; cbn; intros i s s' es H R o X.
  - injection R as <- <-. destruct X.
  - destruct (step s l) as [[s1 e]|] eqn:S; [|discriminate]. destruct (run s1 ls) as [[s2 e2]|] eqn:R2; [|discriminate]. injection R as <- <-.
    apply in_app_iff in X as [X|X].
    + eapply settled_step; eauto.
    + eapply IH; [|exact R2|exact X]. eapply settled_step; eauto.
Qed.

(** ** Careful users *)
Definition ops (s : state) : list (nat * kind) := queue s ++ map fst (posted s).
Definition targets (l : list (nat * kind)) : list nat := flat_map (fun x => match snd x with KInto t => [t] | _ => [] end) l.

Record tidy (s : state) : Prop := mktidy
  { t_one : NoDup (targets (ops s));
    t_queue : forall i x, In (i, KInto x) (queue s) -> socks s x = None;
    t_posted : forall i x c, In (i, KInto x, RConn c) (posted s) -> socks s x = None;
    t_wait : forall i c, ~ In (i, KWait, RConn c) (posted s);
    t_lost : forall i, lost s i = true -> In i (used s) /\ ~ In (i, KNew) (ops s) }.

Lemma without_perm2 : forall i k q, NoDup (map fst q) -> In (i, k) q -> Permutation q ((i, k) :: without i q).
Proof.
  induction q as [|[j k'] q IH]; cbn; intros N I; [contradiction|]. inversion N; subst.
  destruct I as [I|I].
  - injection I as -> ->. rewrite Nat.eqb_refl. cbn. change (filter _ q) with (without i q). rewrite without_notin; auto.
  - destruct (Nat.eqb_spec j i) as [->|Ne]; cbn.
    + exfalso. apply H1. apply in_map_iff. exists (i, k). auto.
    + change (filter _ q) with (without i q). rewrite (IH H2 I) at 1. apply perm_swap.
Qed.
Lemma targets_perm : forall a b, Permutation a b -> Permutation (targets a) (targets b).
Proof. intros. now apply Permutation_flat_map. Qed.
Lemma targets_In : forall x l, In x (targets l) <-> exists i, In (i, KInto x) l.
Proof.
  intros. unfold targets. rewrite in_flat_map. split.
  - intros ((i & k) & I & X). cbn in X. destruct k; [|contradiction..]; destruct X as [->|[]]. eauto.
  - intros (i & I). exists (i, KInto x). split; [auto|now left].
Qed.
Lemma free_targets : forall x s, free_for x s -> ~ In x (targets (ops s)).
Proof.
  intros x s (A & B) I. apply targets_In in I as (i & I). unfold ops in I. apply in_app_iff in I as [I|I]; [eapply A; eauto|].
  apply in_map_iff in I as ((y & r) & E & I). cbn in E. subst y. eapply B; eauto.
Qed.

Lemma tidy_perm : forall s s', tidy s -> Permutation (ops s) (ops s') -> socks s' = socks s -> used s' = used s -> lost s' = lost s ->
  (forall i x, In (i, KInto x) (queue s') -> In (i, KInto x) (queue s)) ->
  (forall i x c, In (i, KInto x, RConn c) (posted s') -> In (i, KInto x, RConn c) (posted s) \/ In (i, KInto x) (queue s)) ->
  (forall i c, In (i, KWait, RConn c) (posted s') -> In (i, KWait, RConn c) (posted s)) -> tidy s'.
Proof.
  intros s s' [A B C D E] P So U L Q Po W. constructor; rewrite ?So, ?U, ?L; auto.
  - eapply Permutation_NoDup; [apply targets_perm; exact P|auto].
  - intros i x I. eapply B. eauto.
  - intros i x c I. apply Po in I as [I|I]; eauto.
  - intros i c I. eapply D; eauto.
  - intros i H. apply E in H as (H1 & H2). split; auto. intros X. apply H2. eapply Permutation_in; [symmetry; exact P|exact X].
Qed.

Lemma tidy_cancel : forall s i, NoDup (waiting s) -> tidy s -> tidy (cancel i s).
Proof.
  intros s i N T. unfold cancel. destruct (find i (queue s)) as [k|] eqn:F; [|auto]. destruct (cancellable k); auto.
  apply find_In in F. eapply tidy_perm; [exact T|..]; cbn; auto.
  - unfold ops. cbn. rewrite map_app. cbn. rewrite (without_perm2 _ _ _ N F) at 1. cbn.
    rewrite app_assoc. apply Permutation_cons_append.
  - intros j x X. apply without_In in X. tauto.
  - intros j x c X. apply in_app_iff in X as [X|[X|[]]]; [auto|discriminate].
  - intros j c X. apply in_app_iff in X as [X|[X|[]]]; [auto|discriminate].
Qed.
Lemma cancel_ops : forall s i x, NoDup (waiting s) -> In x (ops (cancel i s)) -> In x (ops s).
Proof.
  intros s i x N H. unfold cancel in H. destruct (find i (queue s)) as [k|] eqn:F; [|auto]. destruct (cancellable k); auto.
  apply find_In in F. unfold ops in *. cbn in H. rewrite map_app in H. cbn in H. rewrite !in_app_iff in *.
  destruct H as [H|[H|[<-|[]]]]; auto. apply without_In in H. tauto.
Qed.

Lemma careful_step : forall ls s es l s' e, inv ls s es -> tidy s -> careful_at s l -> step s l = Some (s', e) ->
  tidy s' /\ forall c, ~ In (EClosed c) e.
Proof.
  intros ls s es l s' e I T C S. pose proof (nodup_waiting _ _ _ I) as (Nw & _ & _ & Us).
  assert (Uops : forall i k, In (i, k) (ops s) -> In i (used s)).
  { intros i k X. unfold ops in X. apply in_app_iff in X as [X|X].
    - apply Us. left. unfold waiting. apply in_map_iff. exists (i, k). auto.
    - apply Us. right. unfold completing. apply in_map_iff in X as (y & E & X). apply in_map_iff. exists y. rewrite E. auto. }
  assert (Same : forall d al b, tidy (mk d al b (queue s) (posted s) (socks s) (used s) (lost s))).
  { intros. destruct T. constructor; auto. }
  destruct l; cbn [step] in S.
  - destruct (alive s); [|discriminate]. cbn [negb] in S.
    destruct (negb (opened _)); [|destruct (bound _)]; injection S as <- <-; (split; [auto; apply Same|]); intros c [X|[]]; discriminate.
  - destruct (alive s); [|discriminate]. cbn [negb] in S.
    destruct (negb (opened _)); injection S as <- <-; (split; [auto; apply Same|]); intros c [X|[]]; discriminate.
  - destruct (alive s && listening (dsc s)); [|discriminate]. injection S as <- <-. split; [apply Same|intros ? []].
  - destruct (negb (alive s) || mem i (used s)) eqn:G; [discriminate|]. apply orb_false_iff in G as (_ & G). apply mem_nIn in G.
    assert (P1 : forall q (p : list (nat * kind * res)), Permutation (ops s ++ [(i, k)]) (q ++ map fst p) -> NoDup (targets (q ++ map fst p))).
    { intros q p P. eapply Permutation_NoDup; [apply targets_perm; exact P|]. unfold targets. rewrite flat_map_app. cbn. rewrite app_nil_r.
      destruct k as [x| |]; cbn; rewrite ?app_nil_r; try apply (t_one _ T).
      eapply Permutation_NoDup; [apply Permutation_cons_append|]. constructor; [|apply (t_one _ T)]. apply free_targets. exact C. }
    assert (P2 : forall q (p : list (nat * kind * res)), Permutation (ops s ++ [(i, k)]) (q ++ map fst p) ->
        forall j, lost s j = true -> In j (used s ++ [i]) /\ ~ In (j, KNew) (q ++ map fst p)).
    { intros q p P j L. apply (t_lost _ T) in L as (L1 & L2). rewrite in_app_iff. split; auto. intros X.
      eapply Permutation_in in X; [|symmetry; exact P]. apply in_app_iff in X as [X|[X|[]]]; [auto|]. injection X as -> ->. auto. }
    assert (Fail : forall er, tidy (mk (dsc s) (alive s) (backlog s) (queue s) (posted s ++ [(i, k, RErr er)]) (socks s) (used s ++ [i]) (lost s))).
    { intros er. assert (P : Permutation (ops s ++ [(i, k)]) (queue s ++ map fst (posted s ++ [(i, k, RErr er)]))).
      { unfold ops. rewrite map_app. cbn. now rewrite app_assoc. }
      constructor; unfold ops; cbn.
      - now apply P1.
      - apply (t_queue _ T).
      - intros j x c X. apply in_app_iff in X as [X|[X|[]]]; [|discriminate]. eapply (t_posted _ T); eauto.
      - intros j c X. apply in_app_iff in X as [X|[X|[]]]; [|discriminate]. eapply (t_wait _ T); eauto.
      - now apply P2. }
    destruct (match k with KInto x => match socks s x with Some _ => true | None => false end | _ => false end) eqn:B;
      [|destruct (negb (opened (dsc s))); [|destruct (negb (listening (dsc s)))]]; injection S as <- <-; (split; [apply Fail|intros ? []]) || (split; [|intros ? []]).
    assert (P : Permutation (ops s ++ [(i, k)]) ((queue s ++ [(i, k)]) ++ map fst (posted s))).
    { unfold ops. rewrite <- !app_assoc. apply Permutation_app_head. apply Permutation_app_comm. }
    constructor; unfold ops; cbn.
    + now apply P1.
    + intros j x X. apply in_app_iff in X as [X|[X|[]]]; [eapply (t_queue _ T); eauto|]. injection X as -> ->. destruct (socks s x); congruence.
    + apply (t_posted _ T).
    + apply (t_wait _ T).
    + now apply P2.
  - assert (Re : forall j k q r b, queue s = (j, k) :: q -> (k = KWait -> r = RReady) ->
        tidy (mk (dsc s) (alive s) b q (posted s ++ [(j, k, r)]) (socks s) (used s) (lost s))).
    { intros j k q r b Q K. eapply tidy_perm; [exact T|..]; cbn; auto.
      - unfold ops. cbn. rewrite Q, map_app. cbn. rewrite app_assoc. apply Permutation_cons_append.
      - rewrite Q. intros. now right.
      - rewrite Q. intros i x c X. apply in_app_iff in X as [X|[X|[]]]; [now left|]. injection X as -> -> ->. right. now left.
      - intros i c X. apply in_app_iff in X as [X|[X|[]]]; [auto|]. injection X as -> -> ->. specialize (K eq_refl). discriminate. }
    destruct (queue s) as [|[j []] q]; [discriminate|..]; (destruct (backlog s); [discriminate|]); injection S as <- <-;
      (split; [apply Re; congruence|intros o []]).
  - destruct (posted s) as [|[[j k] r] p] eqn:Po; [discriminate|]. injection S as S.
    assert (Base : forall sk, (forall x, socks s x = None -> sk x = None \/ (k = KInto x /\ exists c, r = RConn c)) ->
        tidy (mk (dsc s) (alive s) (backlog s) (queue s) p sk (used s) (lost s))).
    { intros sk Sk. destruct T as [A B Cc D E]. unfold ops in *. rewrite Po in *. cbn in *.
      assert (Pm : Permutation (targets (queue s ++ (j, k) :: map fst p)) (targets ([(j, k)] ++ queue s ++ map fst p))).
      { apply targets_perm. symmetry. cbn [app]. apply Permutation_middle. }
      pose proof (Permutation_NoDup Pm A) as A'. unfold targets in A'. rewrite flat_map_app in A'. fold targets in A'.
      assert (Nd : NoDup (targets (queue s ++ map fst p))).
      { clear - A'. destruct k; cbn in A'; auto. now inversion A'. }
      assert (Nx : forall x, k = KInto x -> ~ In x (targets (queue s ++ map fst p))).
      { intros x ->. cbn in A'. now inversion A'. }
      constructor; unfold ops; cbn; auto.
      - intros i x X. destruct (Sk x (B _ _ X)) as [X'|(X' & _)]; auto. exfalso. apply (Nx x X'). apply targets_In. exists i. rewrite in_app_iff. auto.
      - intros i x c X. destruct (Sk x (Cc _ _ _ (or_intror X))) as [X'|(X' & _)]; auto. exfalso. apply (Nx x X'). apply targets_In. exists i. rewrite in_app_iff.
        right. apply in_map_iff. exists (i, KInto x, RConn c). auto.
      - intros i c X. eapply D. right. eauto.
      - intros i L. apply E in L as (L1 & L2). split; auto. intros X. apply L2. rewrite in_app_iff in *. cbn. tauto. }
    assert (Lo : lost s j = true -> k <> KNew).
    { intros L ->. apply (t_lost _ T) in L as (_ & L). apply L. unfold ops. rewrite Po. rewrite in_app_iff. right. now left. }
    unfold deliver in S. cbn [socks lost dsc alive backlog queue posted used] in S.
    destruct r as [c|er|].
    + destruct k as [x| |].
      * assert (Sx : socks s x = None) by (eapply (t_posted _ T); rewrite Po; left; reflexivity).
        rewrite Sx in S. injection S as <- <-. split.
        -- apply Base. intros y Y. unfold upd. destruct (Nat.eqb_spec y x); [subst|auto]. right. eauto.
        -- intros c' X. destruct (lost s j); cbn in X; intuition discriminate.
      * injection S as <- <-. split; [apply Base; auto|]. intros c' X. destruct (lost s j); [now apply Lo|]. destruct X as [X|[]]. discriminate.
      * exfalso. eapply (t_wait _ T). rewrite Po. left. reflexivity.
    + injection S as <- <-. split; [apply Base; auto|]. intros c' X. destruct (lost s j); destruct X as [X|[]]; discriminate.
    + injection S as <- <-. split; [apply Base; auto|]. intros c' X. destruct (lost s j); destruct X as [X|[]]; discriminate.
  - injection S as <- <-. split; [now apply tidy_cancel|intros ? []].
  - destruct (mem i (used s)) eqn:M; [|discriminate]. apply mem_In in M. injection S as <- <-. split; [|intros ? []].
    pose proof (tidy_cancel s i Nw T) as T'. destruct T' as [A B Cc D E]. constructor; unfold ops in *; cbn in *; auto.
    intros j L. unfold upd in L. destruct (Nat.eqb_spec j i) as [Ej|Ne]; [subst j|auto].
    assert (Uc : used (cancel i s) = used s). { unfold cancel. destruct (find i (queue s)) as [k|]; [destruct (cancellable k)|]; auto. }
    rewrite Uc. split; auto. intros X. apply cancel_ops in X; auto. destruct C as (C1 & C2). unfold ops in X. apply in_app_iff in X as [X|X].
    + now apply (C1 KNew).
    + apply in_map_iff in X as ((y & r) & Ey & X). cbn in Ey. subst y. now apply (C2 r).
  - injection S as <- <-. split; [|intros ? []]. destruct T as [A B Cc D E]. constructor; auto; cbn.
    + intros i x X. unfold upd. destruct (Nat.eqb x s0); eauto.
    + intros i x c X. unfold upd. destruct (Nat.eqb x s0); eauto.
  - destruct (alive s); [|discriminate]. injection S as <- <-. split; [|intros ? []].
    eapply tidy_perm; [exact T|..]; cbn; auto.
    + unfold ops. cbn. rewrite map_app, map_map. cbn.
      replace (map (fun x : nat * kind => (fst x, snd x)) (queue s)) with (queue s); [apply Permutation_app_comm|].
      symmetry. rewrite <- (map_id (queue s)) at 2. apply map_ext. now intros [].
    + intros i x [].
    + intros i x c X. apply in_app_iff in X as [X|X]; [auto|]. apply in_map_iff in X as (y & Y & _). discriminate.
    + intros i c X. apply in_app_iff in X as [X|X]; [auto|]. apply in_map_iff in X as (y & Y & _). discriminate.
Qed.

Lemma careful_run : forall ls ls0 s es0 s' es, inv ls0 s es0 -> tidy s -> careful s ls -> run s ls = Some (s', es) -> forall c, ~ In (EClosed c) es.
Proof.
  induction ls as [|l ls IH]; cbn; intros ls0 s es0 s' es I T C R c X.
  - injection R as <- <-. destruct X.
  - destruct (step s l) as [[s1 e]|] eqn:S; [|discriminate]. destruct (run s1 ls) as [[s2 e2]|] eqn:R2; [|discriminate]. injection R as <- <-.
    destruct C as (C1 & C2). destruct (careful_step _ _ _ _ _ _ I T C1 S) as (T1 & N1).
    apply in_app_iff in X as [X|X]; [now apply (N1 c)|].
    eapply (IH (ls0 ++ [l]) s1 (es0 ++ e)); eauto. eapply inv_step; eauto.
Qed.
Lemma tidy_init : forall ep, tidy (init ep).
Proof. intros. constructor; cbn; try discriminate; try constructor; intros; auto; contradiction. Qed.

(** ** Results *)
Lemma errors_true : forall ls s es, run (init true) ls = Some (s, es) ->
  forall i, ~ In (EResult i (OErr bad_descriptor)) es /\ ~ In (EResult i (OErr invalid_argument)) es.
Proof.
  assert (G : forall ls s es, run (init true) ls = Some (s, es) ->
    (forall i k e, In (i, k, RErr e) (posted s) -> e = aborted \/ e = already_open) /\ (forall i e, In (EResult i (OErr e)) es -> e = aborted \/ e = already_open)).
  { intros ls. induction ls as [|l ls IH] using rev_ind; intros s es R.
    - injection R as <- <-. split; intros; contradiction.
    - apply run_snoc in R as (s1 & e1 & e2 & R & S & ->). destruct (IH _ _ R) as (P & E). pose proof (init_desc _ _ _ _ R) as D. clear IH R.
      assert (Canc : forall j i k e, In (i, k, RErr e) (posted (cancel j s1)) -> e = aborted \/ e = already_open).
      { intros j i k e. unfold cancel. destruct (find j (queue s1)) as [k'|]; [destruct (cancellable k')|]; try apply P. cbn.
        intros X. apply in_app_iff in X as [X|[X|[]]]; [eapply P; eauto|]. injection X as _ _ <-. auto. }
      assert (Ev : (forall i e, In (EResult i (OErr e)) e2 -> e = aborted \/ e = already_open) ->
                   forall i e, In (EResult i (OErr e)) (e1 ++ e2) -> e = aborted \/ e = already_open).
      { intros Y i e X. apply in_app_iff in X as [X|X]; eauto. }
      destruct l; cbn [step] in S.
      + destruct (alive s1); [|discriminate]. cbn [negb] in S.
        destruct (negb (opened _)); [|destruct (bound _)]; injection S as <- <-; (split; [exact P|]); apply Ev; intros i e [X|[]]; discriminate.
      + destruct (alive s1); [|discriminate]. cbn [negb] in S.
        destruct (negb (opened _)); injection S as <- <-; (split; [exact P|]); apply Ev; intros i e [X|[]]; discriminate.
      + destruct (alive s1 && listening (dsc s1)); [|discriminate]. injection S as <- <-. split; [exact P|]. apply Ev. intros i e [].
      + destruct (alive s1) eqn:A; [|discriminate]. cbn [negb orb] in S. destruct (mem i (used s1)); [discriminate|]. rewrite (D eq_refl) in S. cbn [opened listening negb] in S.
        destruct (match k with KInto x => match socks s1 x with Some _ => true | None => false end | _ => false end); injection S as <- <-; cbn;
          (split; [|apply Ev; intros ? ? []]); auto.
        intros j k' e X. apply in_app_iff in X as [X|[X|[]]]; [eapply P; eauto|]. injection X as _ _ <-. auto.
      + destruct (queue s1) as [|[j []] q]; [discriminate|..]; (destruct (backlog s1); [discriminate|]); injection S as <- <-; cbn;
          (split; [|apply Ev; intros ? ? []]); intros j' k' e X; (apply in_app_iff in X as [X|[X|[]]]; [eapply P; eauto|discriminate]).
      + destruct (posted s1) as [|[[j k] r] p] eqn:Po; [discriminate|]. injection S as S.
        destruct (deliver_eq j k r (mk (dsc s1) (alive s1) (backlog s1) (queue s1) p (socks s1) (used s1) (lost s1))) as (sk & Eq).
        rewrite S in Eq. cbn [fst] in Eq. subst s. cbn. split; [intros; eapply P; right; eauto|]. apply Ev. intros i e X.
        unfold deliver in S. cbn [socks lost dsc alive backlog queue posted used] in S.
        destruct r as [c|er|]; [destruct k as [x| |]; [destruct (socks s1 x)|..]|..]; injection S as _ <-; destruct (lost s1 j); cbn in X;
          repeat (destruct X as [X|X]); try contradiction; try discriminate; injection X as <- <-; auto.
        eapply P. left. reflexivity.
      + injection S as <- <-. split; [apply Canc|]. apply Ev. intros ? ? [].
      + destruct (mem i (used s1)); [|discriminate]. injection S as <- <-. split; [apply Canc|]. apply Ev. intros ? ? [].
      + injection S as <- <-. split; [exact P|]. apply Ev. intros ? ? [].
      + destruct (alive s1); [|discriminate]. injection S as <- <-. split; [|apply Ev; intros ? ? []]. cbn. intros i k e X.
        apply in_app_iff in X as [X|X]; [eapply P; eauto|]. apply in_map_iff in X as (y & Y & _). injection Y as _ _ <-. auto. }
  intros ls s es R i. destruct (G _ _ _ R) as (_ & E). split; intros X; apply E in X as [X|X]; discriminate.
Qed.

Lemma no_bind : forall s l s' e, (alive s = true -> bound (dsc s) = opened (dsc s)) -> step s l = Some (s', e) -> ~ In (EBind None) e.
Proof.
  intros s l s' e A S X. destruct l; cbn [step] in S.
  - destruct (alive s); [|discriminate]. cbn [negb] in S. rewrite A in S by reflexivity. destruct (opened (dsc s)); injection S as <- <-; destruct X as [X|[]]; discriminate.
  - destruct (alive s); [|discriminate]. cbn [negb] in S. destruct (negb (opened _)); injection S as <- <-; destruct X as [X|[]]; discriminate.
  - destruct (alive s && listening (dsc s)); [|discriminate]. injection S as <- <-. destruct X.
  - destruct (negb (alive s) || mem i (used s)); [discriminate|].
    destruct (match k with KInto x => match socks s x with Some _ => true | None => false end | _ => false end);
        [|destruct (negb (opened (dsc s))); [|destruct (negb (listening (dsc s)))]]; injection S as <- <-; destruct X.
  - destruct (queue s) as [|[j []] q]; [discriminate|..]; (destruct (backlog s); [discriminate|]); injection S as <- <-; destruct X.
  - destruct (posted s) as [|[[j k] r] p] eqn:Po; [discriminate|]. injection S as S.
    unfold deliver in S. cbn [socks lost dsc alive backlog queue posted used] in S.
    destruct r as [c|er|]; [destruct k as [x| |]; [destruct (socks s x)|..]|..]; injection S as _ <-; destruct (lost s j); cbn in X; intuition discriminate.
  - injection S as <- <-. destruct X.
  - destruct (mem i (used s)); [|discriminate]. injection S as <- <-. destruct X.
  - injection S as <- <-. destruct X.
  - destruct (alive s); [|discriminate]. injection S as <- <-. destruct X.
Qed.
