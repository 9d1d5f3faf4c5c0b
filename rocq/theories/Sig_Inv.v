(** * Invariants of io::signal_set *)
From Coq Require Import List Bool Arith Lia.
From Verif Require Import Sig_Model Sig_Spec.
Import ListNotations.

(** the order of registrations *)
Fixpoint sorted (l : list (nat * nat)) : Prop :=
  match l with [] => True | p :: l' => (forall q, In q l' -> fst p < fst q) /\ sorted l' end.

Record J (s : state) (es : list event) : Prop := mkJ
  { j_count : forall x, count s <= x -> sets s x = none;
    j_dead : forall x, alive (sets s x) = false -> sets s x = none;
    j_wait : forall x i, In i (waits (sets s x)) -> begun s i = Some x;
    j_nodup : forall x, NoDup (waits (sets s x));
    j_post : forall i, In i (map fst (posted s)) -> exists x, begun s i = Some x /\ ~ In i (waits (sets s x));
    j_end : forall i, In i (flat_map ends es) -> exists x, begun s i = Some x /\ ~ In i (waits (sets s x));
    j_once : NoDup (map fst (posted s) ++ flat_map ends es);
    j_regs : forall x, sorted (regs (sets s x));
    j_idle : forall x, waits (sets s x) <> [] -> forall p, In p (regs (sets s x)) -> snd p = 0 }.

Lemma upd_same {A} (f : nat -> A) k v : upd f k v k = v.
Proof. unfold upd. now rewrite Nat.eqb_refl. Qed.
Lemma upd_other {A} (f : nat -> A) k v n : n <> k -> upd f k v n = f n.
Proof. unfold upd. intros H. apply Nat.eqb_neq in H. now rewrite H. Qed.

Lemma in_insert n l p : In p (insert n l) -> p = (n, 0) \/ In p l.
Proof.
  induction l as [|[m c] l IH]; cbn -[Nat.ltb Nat.eqb].
  - intros [<-|[]]. now left.
  - destruct (n =? m); [now right|]. destruct (n <? m); cbn -[Nat.ltb Nat.eqb]; intuition auto.
Qed.
Lemma insert_keeps n l p : In p l -> In p (insert n l).
Proof.
  induction l as [|[m c] l IH]; cbn -[Nat.ltb Nat.eqb]; [easy|]. destruct (n =? m); [now cbn|]. destruct (n <? m); cbn -[Nat.ltb Nat.eqb]; intuition.
Qed.
Lemma insert_has n l : In n (map fst (insert n l)).
Proof.
  induction l as [|[m c] l IH]; cbn -[Nat.ltb Nat.eqb]; [now left|]. destruct (Nat.eqb_spec n m) as [->|]; [now left|].
  destruct (n <? m); cbn -[Nat.ltb Nat.eqb]; [now left|now right].
Qed.
Lemma insert_sorted n l : sorted l -> sorted (insert n l).
Proof.
  induction l as [|[m c] l IH]; cbn -[Nat.ltb Nat.eqb]; [easy|]. intros [A B]. destruct (Nat.eqb_spec n m) as [->|N]; [now cbn|].
  destruct (Nat.ltb_spec n m) as [L|L]; cbn -[Nat.ltb Nat.eqb].
  - split; [|now split]. intros q [<-|P]; [easy|]. specialize (A q P). lia.
  - split; [|auto]. intros q P. apply in_insert in P as [->|P]; [cbn; lia|auto].
Qed.
Lemma filter_sorted f l : sorted l -> sorted (filter f l).
Proof.
  induction l as [|p l IH]; cbn; [easy|]. intros [A B]. destruct (f p); cbn; auto.
  split; auto. intros q Q. apply filter_In in Q as [Q _]. auto.
Qed.
Lemma sorted_keys l l' : map fst l = map fst l' -> sorted l -> sorted l'.
Proof.
  revert l'. induction l as [|p l IH]; intros [|p' l'] E; try easy. cbn in E. injection E as E1 E2.
  cbn. intros [A B]. split; [|now apply IH].
  intros q Q. apply (in_map fst) in Q. rewrite <- E2 in Q. apply in_map_iff in Q as (q0 & F & Q). rewrite <- F, <- E1. auto.
Qed.
Lemma bump_keys n l : map fst (bump n l) = map fst l.
Proof. unfold bump. rewrite map_map. apply map_ext. intros [m c]; cbn. now destruct (m =? n). Qed.
Lemma take_keys l n l' : take l = Some (n, l') -> map fst l' = map fst l.
Proof.
  revert n l'. induction l as [|[m c] l IH]; intros n l' E; cbn in E; [discriminate|].
  destruct c as [|c]; [|injection E as <- <-; now cbn].
  destruct (take l) as [[k l'']|]; [|discriminate]. injection E as <- <-. cbn. f_equal. eauto.
Qed.
Lemma take_none l : take l = None -> forall p, In p l -> snd p = 0.
Proof.
  induction l as [|[m c] l IH]; cbn; [easy|]. destruct c as [|c]; [|discriminate].
  destruct (take l) as [[k l'']|]; [discriminate|]. intros _ p [<-|P]; [easy|auto].
Qed.
Lemma has_in n t : has n t = true <-> In n (map fst (regs t)).
Proof.
  unfold has. rewrite existsb_exists, in_map_iff. split; intros (p & A & B); exists p.
  - split; [now apply Nat.eqb_eq|easy].
  - split; [easy|now apply Nat.eqb_eq].
Qed.
Lemma adds_sorted bad ns l l' : adds bad ns l = Some l' -> sorted l -> sorted l'.
Proof.
  revert l. induction ns as [|n ns IH]; cbn; intros l E S.
  - now injection E as <-.
  - destruct (bad n); [discriminate|]. eapply IH; eauto. now apply insert_sorted.
Qed.

Lemma J_init : J init [].
Proof. constructor; cbn; try easy; intros; constructor. Qed.

(** operations move from waiting to posted *)
Lemma J_move s s' es L : J s es -> count s' = count s -> begun s' = begun s -> posted s' = posted s ++ L ->
  (forall x, count s <= x -> sets s' x = none) -> (forall x, alive (sets s' x) = false -> sets s' x = none) ->
  (forall x i, In i (waits (sets s' x)) -> In i (waits (sets s x))) ->
  (forall x, NoDup (waits (sets s' x))) -> NoDup (map fst L) ->
  (forall i, In i (map fst L) -> exists x, In i (waits (sets s x)) /\ ~ In i (waits (sets s' x))) ->
  (forall x, sorted (regs (sets s' x))) ->
  (forall x, waits (sets s' x) <> [] -> forall p, In p (regs (sets s' x)) -> snd p = 0) -> J s' es.
Proof.
  intros [A B C D E F G H K] EC EB EP HC HD HW HN HL HM HR HI. constructor; auto; rewrite ?EC, ?EB, ?EP; auto.
  - intros i I. rewrite map_app, in_app_iff in I. destruct I as [I|I].
    + destruct (E i I) as (x & P & Q). exists x. split; auto.
    + destruct (HM i I) as (x & P & Q). exists x. split; auto.
  - intros i I. destruct (F i I) as (x & P & Q). exists x. split; auto.
  - assert (M : forall i, In i (map fst L) -> ~ In i (map fst (posted s)) /\ ~ In i (flat_map ends es)).
    { intros i I. destruct (HM i I) as (x & P & Q). pose proof (C x i P) as Bi. split; intros X.
      - destruct (E i X) as (y & Y1 & Y2). rewrite Bi in Y1. injection Y1 as <-. easy.
      - destruct (F i X) as (y & Y1 & Y2). rewrite Bi in Y1. injection Y1 as <-. easy. }
    rewrite map_app, <- app_assoc. clear - G HL M.
    induction (map fst (posted s)) as [|a l IH]; cbn in *.
    + induction (map fst L) as [|b m IHm]; cbn; auto. inversion HL as [|? ? Q1 Q2]; subst. constructor.
      * rewrite in_app_iff. intros [X|X]; [easy|]. now apply (proj2 (M b (or_introl eq_refl))).
      * apply IHm; auto. intros i I. apply M. now right.
    + inversion G as [|? ? Q1 Q2]; subst. constructor.
      * rewrite !in_app_iff in *. intros [X|[X|X]]; [apply Q1; now left| |apply Q1; now right].
        apply (proj1 (M a X)). now left.
      * apply IH; auto. intros i I. destruct (M i I) as [Y Z]. split; [intros X; apply Y; now right|auto].
Qed.

(** only registrations change *)
Lemma J_keep s es x l : J s es -> alive (sets s x) = true -> sorted l ->
  (waits (sets s x) <> [] -> forall p, In p l -> snd p = 0) -> J (with_set s x (mks true l (waits (sets s x)))) es.
Proof.
  intros Q AL SO ID. pose proof Q as [A B C D E F G H K].
  assert (W : forall y, waits (sets (with_set s x (mks true l (waits (sets s x)))) y) = waits (sets s y)).
  { intros y. cbn. unfold upd. destruct (Nat.eqb_spec y x) as [->|]; easy. }
  apply (J_move s _ es []); auto; cbn [with_set count begun posted map]; rewrite ?app_nil_r; auto; try easy.
  - intros y Y. cbn. rewrite upd_other; auto. intros ->. rewrite (A x Y) in AL. discriminate.
  - intros y. cbn. unfold upd. destruct (Nat.eqb_spec y x) as [->|]; [discriminate|auto].
  - intros y i. now rewrite W.
  - intros y. now rewrite W.
  - constructor.
  - intros y. cbn. unfold upd. destruct (Nat.eqb_spec y x) as [->|]; auto.
  - intros y. rewrite W. cbn. unfold upd. destruct (Nat.eqb_spec y x) as [->|]; [auto|apply K].
Qed.

Lemma J_stop s es i : J s es -> J (stop s i) es.
Proof.
  intros Q. pose proof Q as [A B C D E F G H K]. unfold stop.
  destruct (begun s i) as [x|] eqn:Bi; auto.
  destruct (existsb (Nat.eqb i) (waits (sets s x))) eqn:X; auto.
  apply existsb_exists in X as (j & X & Y). apply Nat.eqb_eq in Y as <-.
  assert (W : forall y j, In j (waits (upd (sets s) x (mks (alive (sets s x)) (regs (sets s x)) (filter (fun j => negb (j =? i)) (waits (sets s x)))) y)) -> In j (waits (sets s y))).
  { intros y j. unfold upd. destruct (Nat.eqb_spec y x) as [->|]; auto. cbn. intros I. now apply filter_In in I. }
  apply (J_move s _ es [(i, OAborted)]); auto; cbn.
  - intros y Y. rewrite upd_other; auto. intros ->. rewrite (A x Y) in X. easy.
  - intros y. unfold upd. destruct (Nat.eqb_spec y x) as [->|]; auto. cbn. intros AL. rewrite (B x AL) in X. easy.
  - intros y. unfold upd. destruct (Nat.eqb_spec y x) as [->|]; auto. cbn. now apply NoDup_filter.
  - repeat constructor. easy.
  - intros j [<-|[]]. exists x. split; auto. rewrite upd_same. cbn. intros I. apply filter_In in I as [_ I].
    now rewrite Nat.eqb_refl in I.
  - intros y. unfold upd. destruct (Nat.eqb_spec y x) as [->|]; auto. cbn. auto.
  - intros y. unfold upd. destruct (Nat.eqb_spec y x) as [->|]; [|apply K]. cbn. intros _ p P. apply (K x); auto.
    intros N. now rewrite N in X.
Qed.

Lemma J_lose s es i : J s es -> J (mk (count s) (sets s) (posted s) (begun s) (upd (loser s) i true)) es.
Proof. intros [A B C D E F G H K]. constructor; auto. Qed.

Lemma map_fst_pair (o : outcome) l : map fst (map (fun i : nat => (i, o)) l) = l.
Proof. rewrite map_map. cbn. apply map_id. Qed.

Lemma J_cancel s es x : J s es -> alive (sets s x) = true -> J (cancel s x) es.
Proof.
  intros Q AL. pose proof Q as [A B C D E F G H K]. unfold cancel.
  eapply (J_move s _ es (map (fun i => (i, OAborted)) (waits (sets s x)))); eauto; cbn; rewrite ?map_fst_pair; auto.
  - intros y Y. rewrite upd_other; auto. intros ->. rewrite (A x Y) in AL. discriminate.
  - intros y. unfold upd. destruct (Nat.eqb_spec y x) as [->|]; auto. cbn. congruence.
  - intros y i. unfold upd. destruct (Nat.eqb_spec y x) as [->|]; auto. cbn. easy.
  - intros y. unfold upd. destruct (Nat.eqb_spec y x) as [->|]; auto. constructor.
  - intros i I. exists x. split; auto. rewrite upd_same. cbn. easy.
  - intros y. unfold upd. destruct (Nat.eqb_spec y x) as [->|]; auto. cbn. auto.
  - intros y. unfold upd. destruct (Nat.eqb_spec y x) as [->|]; [|apply K]. cbn. easy.
Qed.

Lemma J_none s es x : J s es -> waits (sets s x) = [] -> J (with_set s x none) es.
Proof.
  intros Q N. pose proof Q as [A B C D E F G H K].
  eapply (J_move s _ es []); eauto; cbn; rewrite ?app_nil_r; auto; try easy; try constructor.
  - intros y Y. unfold upd. destruct (Nat.eqb_spec y x) as [->|]; auto.
  - intros y. unfold upd. destruct (Nat.eqb_spec y x) as [->|]; auto.
  - intros y i. unfold upd. destruct (Nat.eqb_spec y x) as [->|]; auto. easy.
  - intros y. unfold upd. destruct (Nat.eqb_spec y x) as [->|]; auto. constructor.
  - intros y. unfold upd. destruct (Nat.eqb_spec y x) as [->|]; auto. exact I.
  - intros y. unfold upd. destruct (Nat.eqb_spec y x) as [->|]; [|apply K]. easy.
Qed.

Lemma J_make s es l : J s es -> sorted l -> J (make s l) es.
Proof.
  intros [A B C D E F G H K] SO. constructor; cbn; auto.
  - intros y Y. rewrite upd_other by lia. apply A. lia.
  - intros y. unfold upd. destruct (Nat.eqb_spec y (count s)) as [->|]; [discriminate|auto].
  - intros y i. unfold upd. destruct (Nat.eqb_spec y (count s)) as [->|]; [easy|auto].
  - intros y. unfold upd. destruct (Nat.eqb_spec y (count s)) as [->|]; [constructor|auto].
  - intros i I. destruct (E i I) as (x & P & Q). exists x. split; auto. unfold upd. destruct (Nat.eqb_spec x (count s)); [easy|auto].
  - intros i I. destruct (F i I) as (x & P & Q). exists x. split; auto. unfold upd. destruct (Nat.eqb_spec x (count s)); [easy|auto].
  - intros y. unfold upd. destruct (Nat.eqb_spec y (count s)) as [->|]; [easy|auto].
  - intros y. unfold upd. destruct (Nat.eqb_spec y (count s)) as [->|]; [easy|apply K].
Qed.

Lemma hit_alive n t : alive (hit n t) = alive t.
Proof. unfold hit. destruct (has n t); auto. now destruct (waits t). Qed.
Lemma hit_keys n t : map fst (regs (hit n t)) = map fst (regs t).
Proof. unfold hit. destruct (has n t); auto. destruct (waits t); cbn; auto. apply bump_keys. Qed.
Lemma hit_waits n t : waits (hit n t) = if has n t then [] else waits t.
Proof. unfold hit. destruct (has n t); auto. now destruct (waits t). Qed.

Lemma J_raise s es n ids : J s es -> NoDup ids ->
  (forall x, In x ids <-> x < count s) ->
  J (mk (count s) (fun x => hit n (sets s x)) (posted s ++ flat_map (fun x => woken n (sets s x)) ids) (begun s) (loser s)) es.
Proof.
  intros Q ND IDS. pose proof Q as [A B C D E F G H K].
  apply (J_move s _ es (flat_map (fun x => woken n (sets s x)) ids)); auto; cbn.
  - intros y Y. now rewrite (A y Y).
  - intros y. rewrite hit_alive. intros Y. now rewrite (B y Y).
  - intros y i. rewrite hit_waits. now destruct (has n (sets s y)).
  - intros y. rewrite hit_waits. destruct (has n (sets s y)); auto. constructor.
  - clear IDS. induction ND as [|a l NA ND IH]; cbn; [constructor|]. rewrite map_app.
    assert (X : forall i, In i (map fst (woken n (sets s a))) -> In i (waits (sets s a))).
    { intros i. unfold woken. destruct (has n (sets s a)); [now rewrite map_fst_pair|easy]. }
    assert (Y : forall i, In i (map fst (flat_map (fun x => woken n (sets s x)) l)) -> exists x, In x l /\ In i (waits (sets s x))).
    { intros i I. apply in_map_iff in I as (p & <- & I). apply in_flat_map in I as (x & I & P). exists x. split; auto.
      unfold woken in P. destruct (has n (sets s x)); [|easy]. apply in_map_iff in P as (j & <- & P). easy. }
    assert (Z : NoDup (map fst (woken n (sets s a)))).
    { unfold woken. destruct (has n (sets s a)); [now rewrite map_fst_pair|constructor]. }
    induction (map fst (woken n (sets s a))) as [|i m IHm]; cbn; auto.
    inversion Z as [|? ? Z1 Z2]; subst. constructor.
    + rewrite in_app_iff. intros [U|U]; [easy|]. destruct (Y i U) as (x & V & V').
      apply C in V'. rewrite (C a i) in V' by (apply X; now left). injection V' as <-. easy.
    + apply IHm; auto. intros j J'. apply X. now right.
  - intros i I. apply in_map_iff in I as (p & <- & I). apply in_flat_map in I as (x & I & P). exists x.
    unfold woken in P. rewrite hit_waits. destruct (has n (sets s x)); [|easy]. apply in_map_iff in P as (j & <- & P). easy.
  - intros y. eapply sorted_keys; [|apply H]. symmetry. apply hit_keys.
  - intros y. rewrite hit_waits. unfold hit. destruct (has n (sets s y)); [easy|apply K].
Qed.

Lemma J_run s es k i r e : J s es -> nth_error (posted s) k = Some (i, r) -> ends e = [i] ->
  J (mk (count s) (sets s) (firstn k (posted s) ++ skipn (S k) (posted s)) (begun s) (loser s)) (es ++ [e]).
Proof.
  intros [A B C D E F G H K] N EE.
  apply nth_error_split in N as (l1 & l2 & P & <-).
  assert (Q : firstn (length l1) (posted s) ++ skipn (S (length l1)) (posted s) = l1 ++ l2).
  { rewrite P. clear. induction l1 as [|a l1 IH]; [easy|]. cbn in *. now rewrite IH. }
  rewrite Q. constructor; cbn; auto.
  - intros j I. apply E. rewrite P, map_app in *. cbn. rewrite in_app_iff in *. cbn. intuition.
  - intros j I. rewrite flat_map_app, in_app_iff in I. destruct I as [I|I]; auto.
    cbn in I. rewrite EE in I. destruct I as [<-|[]]. apply E. rewrite P, map_app, in_app_iff. cbn. auto.
  - rewrite flat_map_app. cbn. rewrite EE. rewrite P in G. cbn.
    apply (NoDup_Add (a := i) (l := map fst l1 ++ map fst l2 ++ flat_map ends es)) in G as [G1 G2].
    + rewrite map_app, <- app_assoc. rewrite !app_assoc. rewrite !app_assoc in G1, G2.
      apply NoDup_rev in G1. rewrite <- (rev_involutive (_ ++ [i])). apply NoDup_rev. rewrite rev_app_distr. cbn. constructor; auto.
      now rewrite <- in_rev.
    + rewrite map_app, <- app_assoc. cbn. apply Add_app.
Qed.

Theorem J_exec bad l s s' es e : J s es -> exec bad l s = Some (s', e) -> J s' (es ++ e).
Proof.
  intros Q X. pose proof Q as [A B C D E F G H K].
  assert (Z : forall t e, flat_map ends e = [] -> J t es -> J t (es ++ e)).
  { intros t e0 N [? ? ? ? ? ? ? ? ?]. constructor; auto; rewrite flat_map_app, N, app_nil_r; auto. }
  destruct l as [|ns|x n|x n|x|x|x|i x|i|i|n|k]; cbn -[cancel stop make] in X.
  - injection X as <- <-. apply Z; auto. now apply J_make.
  - destruct (adds bad ns []) as [l|] eqn:AD; injection X as <- <-; apply Z; auto.
    apply J_make; auto. eapply adds_sorted; eauto. exact I.
  - destruct (alive (sets s x)) eqn:AL; [|discriminate]. destruct (bad n); injection X as <- <-; apply Z; auto.
    apply J_keep; auto; [apply insert_sorted; auto|]. intros W p P. apply in_insert in P as [->|P]; [easy|now apply (K x)].
  - destruct (alive (sets s x)) eqn:AL; [|discriminate]. injection X as <- <-. apply Z; auto.
    apply J_keep; auto; [now apply filter_sorted|]. intros W p P. apply filter_In in P as [P _]. now apply (K x).
  - destruct (alive (sets s x)) eqn:AL; [|discriminate]. injection X as <- <-. apply Z; auto. apply J_keep; auto; easy.
  - destruct (alive (sets s x)) eqn:AL; [|discriminate]. injection X as <- <-. apply Z; auto. now apply J_cancel.
  - destruct (alive (sets s x)) eqn:AL; [|discriminate]. injection X as <- <-. apply Z; auto. apply J_none; [now apply J_cancel|].
    cbn. now rewrite upd_same.
  - destruct (alive (sets s x)) eqn:AL; [|discriminate]. destruct (begun s i) as [?|] eqn:BI; [discriminate|].
    assert (NW : forall y, ~ In i (waits (sets s y))) by (intros y Y; apply C in Y; congruence).
    assert (NP : ~ In i (map fst (posted s))) by (intros Y; apply E in Y as (y & Y & _); congruence).
    assert (NE : ~ In i (flat_map ends es)) by (intros Y; apply F in Y as (y & Y & _); congruence).
    assert (UB : forall j y, begun s j = Some y -> upd (begun s) i (Some x) j = Some y).
    { intros j y Y. rewrite upd_other; auto. congruence. }
    destruct (take (regs (sets s x))) as [[n l]|] eqn:TK; injection X as <- <-; apply Z; auto.
    + assert (W : forall y, waits (upd (sets s) x (mks true l (waits (sets s x))) y) = waits (sets s y)).
      { intros y. unfold upd. destruct (Nat.eqb_spec y x) as [->|]; easy. }
      constructor; cbn; auto.
      * intros y Y. rewrite upd_other; auto. intros ->. rewrite (A x Y) in AL. discriminate.
      * intros y. unfold upd. destruct (Nat.eqb_spec y x) as [->|]; [discriminate|auto].
      * intros y j. rewrite W. intros Y. auto.
      * intros y. now rewrite W.
      * intros j I. rewrite map_app, in_app_iff in I. destruct I as [I|[<-|[]]].
        -- destruct (E j I) as (y & Y1 & Y2). exists y. rewrite W. auto.
        -- exists x. rewrite W, upd_same. auto.
      * intros j I. destruct (F j I) as (y & Y1 & Y2). exists y. rewrite W. auto.
      * rewrite map_app, <- app_assoc. cbn. apply (NoDup_Add (a := i) (l := map fst (posted s) ++ flat_map ends es)); [apply Add_app|].
        split; auto. rewrite in_app_iff. tauto.
      * intros y. unfold upd. destruct (Nat.eqb_spec y x) as [->|]; auto. cbn. apply (sorted_keys (regs (sets s x))); [symmetry; eapply take_keys; eauto|auto].
      * intros y. rewrite W. intros N. destruct (Nat.eq_dec y x) as [->|NE']; [|rewrite upd_other by auto; now apply K].
        exfalso. pose proof (K x N) as K'. clear - K' TK. induction (regs (sets s x)) as [|[m c] t IH] in l, n, TK, K' |- *; cbn in *; [discriminate|].
        destruct c as [|c]; [|now specialize (K' (m, S c) (or_introl eq_refl))].
        destruct (take t) as [[? ?]|] eqn:T; [|discriminate]. eapply IH; eauto.
    + assert (W : forall y j, In j (waits (upd (sets s) x (mks true (regs (sets s x)) (waits (sets s x) ++ [i])) y)) -> In j (waits (sets s y)) \/ j = i /\ y = x).
      { intros y j. unfold upd. destruct (Nat.eqb_spec y x) as [->|]; cbn; auto. rewrite in_app_iff. cbn. intuition. }
      constructor; cbn; auto.
      * intros y Y. rewrite upd_other; auto. intros ->. rewrite (A x Y) in AL. discriminate.
      * intros y. unfold upd. destruct (Nat.eqb_spec y x) as [->|]; [discriminate|auto].
      * intros y j Y. apply W in Y as [Y|[-> ->]]; [auto|apply upd_same].
      * intros y. unfold upd. destruct (Nat.eqb_spec y x) as [->|]; auto. cbn.
        apply (NoDup_Add (a := i) (l := waits (sets s x))); auto. rewrite <- (app_nil_r (waits (sets s x))) at 1. apply Add_app.
      * intros j I. destruct (E j I) as (y & Y1 & Y2). exists y. split; auto. intros Y. apply W in Y as [Y|[-> ->]]; auto.
      * intros j I. destruct (F j I) as (y & Y1 & Y2). exists y. split; auto. intros Y. apply W in Y as [Y|[-> ->]]; auto.
      * intros y. unfold upd. destruct (Nat.eqb_spec y x) as [->|]; auto. cbn. auto.
      * intros y N p. unfold upd. destruct (Nat.eqb_spec y x) as [->|NE']; cbn.
        -- intros P. eapply take_none; eauto.
        -- apply K. rewrite upd_other in N; auto.
  - destruct (begun s i); [|discriminate]. injection X as <- <-. apply Z; auto. now apply J_stop.
  - destruct (begun s i); [|discriminate]. injection X as <- <-. apply Z; auto. apply J_lose. now apply J_stop.
  - injection X as <- <-. apply Z; [now destruct (existsb _ _)|]. apply J_raise; auto; [apply seq_NoDup|]. intros y. rewrite in_seq. lia.
  - destruct (nth_error (posted s) k) as [[i r]|] eqn:N; [|discriminate]. injection X as <- <-.
    apply (J_run s es k i r); auto. now destruct (loser s i).
Qed.

Theorem J_steps bad ls s s' es e : J s es -> run bad ls s = Some (s', e) -> J s' (es ++ e).
Proof.
  revert s es e. induction ls as [|l ls IH]; intros s es e Q R; cbn in R.
  - injection R as <- <-. now rewrite app_nil_r.
  - destruct (exec bad l s) as [[s1 e1]|] eqn:X; [|discriminate]. destruct (run bad ls s1) as [[s2 e2]|] eqn:R'; [|discriminate].
    injection R as <- <-. rewrite app_assoc. eapply IH; eauto. eapply J_exec; eauto.
Qed.

Theorem J_reach bad ls s e : run bad ls init = Some (s, e) -> J s e.
Proof. intros R. apply (J_steps bad ls init s [] e J_init R). Qed.
