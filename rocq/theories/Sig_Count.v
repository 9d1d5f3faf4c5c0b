(** * Where the occurrences of a signal are *)
From Coq Require Import List Bool Arith Lia.
From Verif Require Import Sig_Model Sig_Spec Sig_Inv.
Import ListNotations.

Lemma total_app {A} (f : A -> nat) l m : total f (l ++ m) = total f l + total f m.
Proof. unfold total. induction l; cbn; [easy|]. rewrite IHl. lia. Qed.
Lemma total_zero {A} (f : A -> nat) l : (forall a, In a l -> f a = 0) -> total f l = 0.
Proof. induction l; cbn; intros H; [easy|]. rewrite H, IHl; auto. Qed.
Lemma total_ext {A} (f g : A -> nat) l : (forall a, In a l -> f a = g a) -> total f l = total g l.
Proof. induction l; cbn; intros H; [easy|]. rewrite H, IHl; auto. Qed.

Definition held (n : nat) (l : list (nat * nat)) : nat := total (fun p => if fst p =? n then snd p else 0) l.

Lemma held_insert n m l : held n (insert m l) = held n l.
Proof.
  unfold held. induction l as [|[k c] l IH]; cbn -[Nat.ltb Nat.eqb]; [now destruct (m =? n)|].
  destruct (m =? k); [easy|]. destruct (m <? k); cbn -[Nat.ltb Nat.eqb]; [now destruct (m =? n)|lia].
Qed.
Lemma held_erase n m l : n <> m -> held n (erase m l) = held n l.
Proof.
  intros N. unfold held, erase. induction l as [|[k c] l IH]; cbn; [easy|].
  destruct (Nat.eqb_spec k m) as [->|]; cbn; rewrite IH; [|easy].
  destruct (Nat.eqb_spec m n); [congruence|easy].
Qed.
Lemma held_take n m l l' : take l = Some (m, l') -> held n l = held n l' + (if m =? n then 1 else 0).
Proof.
  unfold held. revert m l'. induction l as [|[k c] l IH]; cbn; intros m l' E; [discriminate|].
  destruct c as [|c].
  - destruct (take l) as [[j t]|]; [|discriminate]. injection E as <- <-. cbn. rewrite (IH j t eq_refl). destruct (k =? n); lia.
  - injection E as <- <-. cbn. destruct (k =? n); lia.
Qed.
Lemma held_bump n m l : sorted l -> In n (map fst l) -> held n (bump m l) = held n l + (if m =? n then 1 else 0).
Proof.
  unfold held, bump. induction l as [|[k c] l IH]; cbn; [easy|]. intros [A B] [<-|I].
  - assert (Z : total (fun p => if fst p =? k then snd p else 0) (map (fun p => if fst p =? m then (fst p, S (snd p)) else p) l) =
                total (fun p => if fst p =? k then snd p else 0) l).
    { clear - A. induction l as [|[j d] l IH]; [easy|]. cbn. rewrite IH by (intros q Q; apply A; now right).
      assert (L : k < j) by exact (A (j, d) (or_introl eq_refl)).
      destruct (j =? m); cbn; (destruct (Nat.eqb_spec j k); [lia|easy]). }
    rewrite Z. rewrite (Nat.eqb_sym m k). destruct (Nat.eqb_spec k m) as [->|]; cbn; rewrite Nat.eqb_refl; lia.
  - rewrite (IH B I). assert (L : k < n). { apply in_map_iff in I as (q & <- & Q). now apply A. }
    destruct (k =? m); cbn; (destruct (Nat.eqb_spec k n); [lia|lia]).
Qed.

Definition infl (x n : nat) (b : nat -> option nat) (p : list (nat * outcome)) : nat :=
  total (fun q => if is_sig n (snd q) && is_set x (b (fst q)) then 1 else 0) p.
Lemma infl_app x n b p q : infl x n b (p ++ q) = infl x n b p + infl x n b q.
Proof. apply total_app. Qed.
Lemma infl_upd x n b p i v : ~ In i (map fst p) -> infl x n (upd b i v) p = infl x n b p.
Proof.
  intros N. apply total_ext. intros [j r] I. cbn. rewrite upd_other; auto. intros ->. apply N. now apply (in_map fst) in I.
Qed.
Lemma infl_aborted x n b l : infl x n b (map (fun i => (i, OAborted)) l) = 0.
Proof. apply total_zero. intros [i r] I. apply in_map_iff in I as (j & E & _). injection E as <- <-. easy. Qed.

Lemma infl_woken x n b m t y : (forall i, In i (waits t) -> b i = Some y) ->
  infl x n b (woken m t) = if (has m t && (m =? n)) && (y =? x) then length (waits t) else 0.
Proof.
  intros H. unfold woken. destruct (has m t); [|easy]. cbn [andb]. unfold infl.
  induction (waits t) as [|i l IH]; cbn -[Nat.eqb]; [now destruct (_ && _)|].
  rewrite IH by (intros j J'; apply H; now right). rewrite (H i (or_introl eq_refl)). cbn.
  now destruct ((m =? n) && (y =? x)).
Qed.
Lemma infl_raise x n b m f ids : NoDup ids -> (forall y i, In i (waits (f y)) -> b i = Some y) ->
  infl x n b (flat_map (fun y => woken m (f y)) ids) =
  if existsb (Nat.eqb x) ids && (has m (f x) && (m =? n)) then length (waits (f x)) else 0.
Proof.
  intros ND H. induction ND as [|y l N ND IH]; [easy|]. cbn [flat_map existsb]. rewrite infl_app, IH, (infl_woken x n b m (f y) y) by apply H.
  rewrite (Nat.eqb_sym y x). destruct (Nat.eqb_spec x y) as [->|NE]; cbn -[Nat.eqb].
  - assert (X : existsb (Nat.eqb y) l = false).
    { apply not_true_is_false. intros X. apply existsb_exists in X as (z & Z & E). apply Nat.eqb_eq in E as <-. easy. }
    rewrite X. cbn -[Nat.eqb]. rewrite andb_true_r. destruct (has m (f y) && (m =? n)); lia.
  - rewrite andb_false_r. lia.
Qed.

(** all but one of the operations that a signal wakes *)
Definition surplus (x n : nat) (l : label) (s : state) : nat :=
  match l with LRaise m => if m =? n then length (waits (sets s x)) - 1 else 0 | _ => 0 end.

Arguments held : simpl never.
Arguments infl : simpl never.

Lemma registered_has x n s : registered x n s -> has n (sets s x) = true.
Proof. intros H. now apply has_in. Qed.

Lemma stop_facts s i x n es : J s es ->
  regs (sets (stop s i) x) = regs (sets s x) /\ in_flight x n (stop s i) = in_flight x n s.
Proof.
  intros Q. unfold stop. destruct (begun s i) as [y|]; [|easy]. destruct (existsb _ _); [|easy]. cbn. split.
  - unfold upd. destruct (Nat.eqb_spec x y) as [->|]; easy.
  - unfold in_flight. cbn. rewrite total_app. cbn. lia.
Qed.

Theorem ledger bad l s s' es e x n : J s es -> exec bad l s = Some (s', e) -> registered x n s -> keeps x n [l] ->
  registered x n s' /\
  told x n e + dropped x n e + in_flight x n s' + pending x n s' =
  raised n [l] + in_flight x n s + pending x n s + surplus x n l s.
Proof.
  intros Q X R (K1 & K2 & K3). pose proof Q as [A B C D E F G H K].
  assert (XC : x < count s). { destruct (Nat.lt_ge_cases x (count s)) as [|L]; auto. unfold registered in R. rewrite (A x L) in R. easy. }
  assert (XA : alive (sets s x) = true). { destruct (alive (sets s x)) eqn:AL; auto. unfold registered in R. rewrite (B x AL) in R. easy. }
  unfold pending, registered in *. change (total (fun p : nat * nat => if fst p =? n then snd p else 0)) with (held n).
  destruct l as [|ns|y m|y m|y|y|y|i y|i|i|m|k]; cbn -[cancel stop make Nat.eqb skipn] in X.
  - injection X as <- <-. unfold in_flight. cbn. rewrite upd_other by lia. split; [easy|lia].
  - destruct (adds bad ns []) as [l|]; injection X as <- <-; unfold in_flight; cbn; [rewrite upd_other by lia|]; (split; [easy|lia]).
  - destruct (alive (sets s y)) eqn:AL; [|discriminate]. destruct (bad m); injection X as <- <-; unfold in_flight; cbn; [split; [easy|lia]|].
    unfold upd. destruct (Nat.eqb_spec x y) as [->|]; cbn; [rewrite held_insert|]; (split; [|lia]); auto.
    apply in_map_iff in R as (p & <- & P). apply in_map. now apply insert_keeps.
  - destruct (alive (sets s y)) eqn:AL; [|discriminate]. injection X as <- <-. unfold in_flight. cbn.
    unfold upd. destruct (Nat.eqb_spec x y) as [->|]; cbn; [|split; [easy|lia]].
    assert (NM : n <> m) by (intros ->; apply K1; now left). rewrite held_erase by auto. split; [|lia].
    apply in_map_iff in R as (p & <- & P). apply in_map. apply filter_In. split; auto.
    destruct (Nat.eqb_spec (fst p) m); [congruence|easy].
  - destruct (alive (sets s y)) eqn:AL; [|discriminate]. injection X as <- <-. unfold in_flight. cbn.
    rewrite upd_other by (intros ->; apply K2; now left). split; [easy|lia].
  - destruct (alive (sets s y)) eqn:AL; [|discriminate]. injection X as <- <-. unfold in_flight. cbn.
    rewrite total_app. pose proof (infl_aborted x n (begun s) (waits (sets s y))) as IA. unfold infl in IA. rewrite IA.
    unfold upd. destruct (Nat.eqb_spec x y) as [->|]; cbn; (split; [easy|lia]).
  - destruct (alive (sets s y)) eqn:AL; [|discriminate]. injection X as <- <-. unfold in_flight. cbn.
    rewrite total_app. pose proof (infl_aborted x n (begun s) (waits (sets s y))) as IA. unfold infl in IA. rewrite IA.
    assert (x <> y) by (intros ->; apply K3; now left). rewrite !upd_other by auto. split; [easy|lia].
  - destruct (alive (sets s y)) eqn:AL; [|discriminate]. destruct (begun s i) as [?|] eqn:BI; [discriminate|].
    assert (NP : ~ In i (map fst (posted s))) by (intros Y; apply E in Y as (z & Y & _); congruence).
    destruct (take (regs (sets s y))) as [[m l]|] eqn:TK; injection X as <- <-.
    + change (in_flight x n (post (with_set (mk (count s) (sets s) (posted s) (upd (begun s) i (Some y)) (loser s)) y (mks true l (waits (sets s y)))) [(i, OSig m)]))
        with (infl x n (upd (begun s) i (Some y)) (posted s ++ [(i, OSig m)])).
      change (in_flight x n s) with (infl x n (begun s) (posted s)).
      rewrite infl_app, infl_upd by auto. unfold infl at 2. cbn -[Nat.eqb]. rewrite upd_same. cbn -[Nat.eqb].
      unfold upd. rewrite (Nat.eqb_sym y x). destruct (Nat.eqb_spec x y) as [->|]; cbn -[Nat.eqb].
      * rewrite (take_keys _ _ _ TK). split; auto. rewrite (held_take n m _ _ TK). destruct (m =? n); cbn; lia.
      * split; auto. rewrite andb_false_r. lia.
    + change (in_flight x n (with_set (mk (count s) (sets s) (posted s) (upd (begun s) i (Some y)) (loser s)) y (mks true (regs (sets s y)) (waits (sets s y) ++ [i]))))
        with (infl x n (upd (begun s) i (Some y)) (posted s)).
      change (in_flight x n s) with (infl x n (begun s) (posted s)).
      rewrite infl_upd by auto. cbn. unfold upd. destruct (Nat.eqb_spec x y) as [->|]; cbn; (split; [auto|lia]).
  - destruct (begun s i); [|discriminate]. injection X as <- <-. destruct (stop_facts s i x n es Q) as [-> ->]. cbn. split; [easy|lia].
  - destruct (begun s i); [|discriminate]. injection X as <- <-. cbn [sets].
    change (in_flight x n (mk (count (stop s i)) (sets (stop s i)) (posted (stop s i)) (begun (stop s i)) (upd (loser (stop s i)) i true)))
      with (in_flight x n (stop s i)).
    destruct (stop_facts s i x n es Q) as [-> ->]. cbn. split; [easy|lia].
  - injection X as <- <-. cbn [sets].
    change (in_flight x n (mk (count s) (fun z => hit m (sets s z)) (posted s ++ flat_map (fun w => woken m (sets s w)) (seq 0 (count s))) (begun s) (loser s)))
      with (infl x n (begun s) (posted s ++ flat_map (fun w => woken m (sets s w)) (seq 0 (count s)))).
    change (in_flight x n s) with (infl x n (begun s) (posted s)).
    rewrite hit_keys. split; auto. rewrite infl_app, (infl_raise x n (begun s) m (sets s)) by (auto using seq_NoDup).
    assert (EX : existsb (Nat.eqb x) (seq 0 (count s)) = true).
    { apply existsb_exists. exists x. rewrite in_seq, Nat.eqb_refl. split; [lia|easy]. }
    assert (T1 : forall b : bool, told x n (if b then [] else [EDefault m]) = 0) by now intros [|].
    assert (T2 : forall b : bool, dropped x n (if b then [] else [EDefault m]) = 0) by now intros [|].
    rewrite EX, T1, T2. unfold raised, surplus. cbn -[Nat.eqb hit].
    unfold hit. destruct (Nat.eqb_spec m n) as [->|NE].
    + rewrite (proj2 (has_in n (sets s x)) R). cbn -[Nat.eqb]. destruct (waits (sets s x)) as [|w ws]; cbn -[Nat.eqb].
      * rewrite held_bump, Nat.eqb_refl by auto. lia.
      * lia.
    + rewrite andb_false_r. destruct (has m (sets s x)); [|lia]. destruct (waits (sets s x)) as [|w ws]; cbn -[Nat.eqb]; [|lia].
      rewrite held_bump by auto. destruct (Nat.eqb_spec m n); [easy|lia].
  - destruct (nth_error (posted s) k) as [[i r]|] eqn:N; [|discriminate]. injection X as <- <-. cbn [sets].
    split; auto. apply nth_error_split in N as (l1 & l2 & P & <-).
    assert (Z : firstn (length l1) (posted s) ++ skipn (S (length l1)) (posted s) = l1 ++ l2).
    { rewrite P. clear. induction l1 as [|a l1 IH]; [easy|]. cbn in *. now rewrite IH. }
    unfold in_flight. cbn [posted begun].
    change (match posted s with [] => [] | _ :: l => skipn (length l1) l end) with (skipn (S (length l1)) (posted s)).
    rewrite Z, P, !total_app. cbn -[Nat.eqb].
    destruct (E i) as (y & BI & _). { rewrite P, map_app, in_app_iff. right. now left. }
    rewrite BI. cbn -[Nat.eqb].
    destruct (loser s i); cbn -[Nat.eqb]; destruct (is_sig n r && (y =? x)); lia.
Qed.

Lemma raised_cons n l ls : raised n (l :: ls) = raised n [l] + raised n ls.
Proof. unfold raised. cbn. lia. Qed.
Lemma keeps_cons x n l ls : keeps x n (l :: ls) -> keeps x n [l] /\ keeps x n ls.
Proof. intros (A & B & C). cbn in *. unfold keeps. cbn. tauto. Qed.

Theorem ledger_run bad ls s s' es e x n : J s es -> run bad ls s = Some (s', e) -> registered x n s -> keeps x n ls ->
  registered x n s' /\
  raised n ls + in_flight x n s + pending x n s <= told x n e + dropped x n e + in_flight x n s' + pending x n s'.
Proof.
  revert s es e. induction ls as [|l ls IH]; intros s es e Q R RG KP; cbn in R.
  - injection R as <- <-. split; [easy|]. unfold told, dropped, raised. cbn. lia.
  - destruct (exec bad l s) as [[s1 e1]|] eqn:X; [|discriminate]. destruct (run bad ls s1) as [[s2 e2]|] eqn:R'; [|discriminate].
    injection R as <- <-. apply keeps_cons in KP as [KP1 KP2].
    destruct (ledger bad l s s1 es e1 x n Q X RG KP1) as [RG1 L1].
    destruct (IH s1 (es ++ e1) e2 (J_exec _ _ _ _ _ _ Q X) R' RG1 KP2) as [RG2 L2]. split; auto.
    rewrite raised_cons. unfold told, dropped in *. rewrite !total_app. lia.
Qed.

Lemma filter_length {A} (f : A -> bool) l : length (filter f l) <= length l.
Proof. induction l as [|a l IH]; cbn; [easy|]. destruct (f a); cbn; lia. Qed.

(** at most one operation waits on [x] *)
Lemma lone_exec bad l s s' e x : exec bad l s = Some (s', e) -> length (waits (sets s x)) <= 1 ->
  (forall i, l = LWait i x -> waits (sets s x) = []) -> length (waits (sets s' x)) <= 1.
Proof.
  intros X L W. assert (ST : forall i, length (waits (sets (stop s i) x)) <= 1).
  { intros i. unfold stop. destruct (begun s i) as [y|]; auto. destruct (existsb _ _); auto. cbn. unfold upd.
    destruct (Nat.eqb_spec x y) as [->|]; auto. cbn. pose proof (filter_length (fun j => negb (j =? i)) (waits (sets s y))). lia. }
  destruct l as [|ns|y m|y m|y|y|y|i y|i|i|m|k]; cbn -[cancel stop make Nat.eqb skipn] in X.
  - injection X as <- <-. cbn. unfold upd. destruct (x =? count s); cbn; auto.
  - destruct (adds bad ns []); injection X as <- <-; auto. cbn. unfold upd. destruct (x =? count s); cbn; auto.
  - destruct (alive (sets s y)); [|discriminate]. destruct (bad m); injection X as <- <-; auto. cbn. unfold upd.
    destruct (Nat.eqb_spec x y) as [->|]; auto.
  - destruct (alive (sets s y)); [|discriminate]. injection X as <- <-. cbn. unfold upd. destruct (Nat.eqb_spec x y) as [->|]; auto.
  - destruct (alive (sets s y)); [|discriminate]. injection X as <- <-. cbn. unfold upd. destruct (Nat.eqb_spec x y) as [->|]; auto.
  - destruct (alive (sets s y)); [|discriminate]. injection X as <- <-. cbn. unfold upd. destruct (Nat.eqb_spec x y) as [->|]; cbn; auto.
  - destruct (alive (sets s y)); [|discriminate]. injection X as <- <-. cbn. unfold upd. destruct (Nat.eqb_spec x y) as [->|]; cbn; auto.
  - destruct (alive (sets s y)); [|discriminate]. destruct (begun s i); [discriminate|].
    destruct (take (regs (sets s y))) as [[m l]|]; injection X as <- <-; cbn; unfold upd; destruct (Nat.eqb_spec x y) as [->|]; cbn; auto.
    rewrite (W i eq_refl). cbn. lia.
  - destruct (begun s i); [|discriminate]. injection X as <- <-. auto.
  - destruct (begun s i); [|discriminate]. injection X as <- <-. cbn [sets]. auto.
  - injection X as <- <-. cbn [sets]. rewrite hit_waits. destruct (has m (sets s x)); cbn; auto.
  - destruct (nth_error (posted s) k) as [[i r]|]; [|discriminate]. injection X as <- <-. auto.
Qed.

Theorem ledger_exact bad ls s s' es e x n : J s es -> run bad ls s = Some (s', e) -> registered x n s -> keeps x n ls ->
  length (waits (sets s x)) <= 1 -> one_at_a_time bad x ls s ->
  raised n ls + in_flight x n s + pending x n s = told x n e + dropped x n e + in_flight x n s' + pending x n s'.
Proof.
  revert s es e. induction ls as [|l ls IH]; intros s es e Q R RG KP LO ON; cbn in R.
  - injection R as <- <-. unfold told, dropped, raised. cbn. lia.
  - destruct (exec bad l s) as [[s1 e1]|] eqn:X; [|discriminate]. destruct (run bad ls s1) as [[s2 e2]|] eqn:R'; [|discriminate].
    injection R as <- <-. apply keeps_cons in KP as [KP1 KP2].
    destruct (ledger bad l s s1 es e1 x n Q X RG KP1) as [RG1 L1].
    assert (LO1 : length (waits (sets s1 x)) <= 1).
    { eapply lone_exec; eauto. intros i ->. now apply (ON [] i ls s []). }
    assert (ON1 : one_at_a_time bad x ls s1).
    { intros l1 i l2 t et -> RT. eapply (ON (l :: l1) i l2 t (e1 ++ et)); [easy|]. cbn. now rewrite X, RT. }
    assert (SU : surplus x n l s = 0). { destruct l; cbn; auto. destruct (_ =? n); auto. lia. }
    pose proof (IH s1 (es ++ e1) e2 (J_exec _ _ _ _ _ _ Q X) R' RG1 KP2 LO1 ON1).
    rewrite raised_cons. unfold told, dropped in *. rewrite !total_app. lia.
Qed.
