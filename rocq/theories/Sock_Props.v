(** * Theorems about descriptors (properties C50, C60, C61) *)
From Coq Require Import List Bool Arith Lia.
From Verif Require Import Sock_Model Sock_Spec.
Import ListNotations.

Definition one (d : fd) (o : option fd) : nat := if owns d o then 1 else 0.
Definition own (d : fd) (l : list (option fd)) : nat := length (filter (owns d) l).
Lemma own_app d a b : own d (a ++ b) = own d a + own d b.
Proof. unfold own. rewrite filter_app, app_length. reflexivity. Qed.
Lemma own_upd d l i o : i < length l -> own d (upd l i o) + one d (nth i l None) = own d l + one d o.
Proof.
  unfold own, one. revert i; induction l as [|x l IH]; intros i H; cbn [length] in H; [lia|].
  destruct i as [|i]; cbn [upd nth filter].
  - destruct (owns d x), (owns d o); cbn [length]; lia.
  - specialize (IH i ltac:(lia)). destruct (owns d x); cbn [length]; lia.
Qed.
Lemma upd_length l i o : length (upd l i o) = length l.
Proof. revert i; induction l as [|x l IH]; intros [|i]; cbn; auto. Qed.
Lemma nth_upd_same l i o : i < length l -> nth i (upd l i o) None = o.
Proof. revert i; induction l as [|x l IH]; intros [|i] H; cbn in *; auto; try lia. apply IH. lia. Qed.
Lemma nth_upd_other l i k o : k <> i -> nth k (upd l i o) None = nth k l None.
Proof. revert i k; induction l as [|x l IH]; intros [|i] [|k] H; cbn; auto; try lia. Qed.
Lemma upd_upd l i a b : upd (upd l i a) i b = upd l i b.
Proof. revert i; induction l as [|x l IH]; intros [|i]; cbn; congruence. Qed.
Lemma upd_same l i : upd l i (nth i l None) = l.
Proof. revert i; induction l as [|x l IH]; intros [|i]; cbn; congruence. Qed.

Lemma created_app d a b : created d (a ++ b) = created d a + created d b.
Proof. unfold created. rewrite filter_app, app_length. reflexivity. Qed.
Lemma closed_app d a b : closed d (a ++ b) = closed d a + closed d b.
Proof. unfold closed. rewrite filter_app, app_length. reflexivity. Qed.
Lemma in_app d a b : given_in d (a ++ b) = given_in d a + given_in d b.
Proof. unfold given_in. rewrite filter_app, app_length. reflexivity. Qed.
Lemma out_app d a b : given_out d (a ++ b) = given_out d a + given_out d b.
Proof. unfold given_out. rewrite filter_app, app_length. reflexivity. Qed.

(** ** connect_pair, completely *)
Lemma connect_pair_cases s i j ok a b s1 es : inr s i = true -> inr s j = true ->
  connect_pair s i j ok a b = (s1, es) ->
  (ok = true /\ a = true /\ b = true /\ i <> j /\ get s i = None /\ get s j = None /\
   s1 = mk (upd (upd (socks s) i (Some (fresh s))) j (Some (S (fresh s)))) (S (S (fresh s))) /\
   es = [ECreate (fresh s); ECreate (S (fresh s)); EOk]) \/
  ((ok = false \/ a = false \/ b = false \/ i = j \/ get s i <> None \/ get s j <> None) /\
   socks s1 = socks s /\
   ((fresh s1 = fresh s /\ es = [EErr]) \/
    (fresh s1 = S (S (fresh s)) /\
     es = [ECreate (fresh s); ECreate (S (fresh s)); EClose (fresh s); EClose (S (fresh s)); EErr]))).
Proof.
  intros I J H. apply Nat.ltb_lt in I, J. unfold connect_pair in H. destruct ok.
  2:{ injection H as <- <-. right. auto 10. }
  unfold assign in H. change (get (mk (socks s) (S (S (fresh s)))) i) with (get s i) in H.
  destruct (get s i) as [x|] eqn:Gi.
  { injection H as <- <-. right. split; [right; right; right; right; left; discriminate|]. cbn. auto. }
  destruct a.
  2:{ injection H as <- <-. right. split; [auto|]. cbn. auto. }
  unfold get in H at 1. cbn [put socks fresh] in H. destruct (Nat.eq_dec i j) as [<-|N].
  - rewrite nth_upd_same in H by exact I. unfold close, get in H. cbn [put socks] in H.
    rewrite nth_upd_same in H by exact I. injection H as <- <-. right. split; [auto 10|].
    cbn [put socks fresh]. rewrite upd_upd. split.
    + unfold get in Gi. rewrite <- Gi. apply upd_same.
    + right. auto.
  - rewrite nth_upd_other in H by auto. fold (get s j) in H. destruct (get s j) as [y|] eqn:Gj.
    + unfold close, get in H. cbn [put socks] in H. rewrite nth_upd_same in H by exact I. injection H as <- <-.
      right. split; [right; right; right; right; right; discriminate|]. cbn [put socks fresh]. rewrite upd_upd.
      split; [unfold get in Gi; rewrite <- Gi; apply upd_same|]. right. auto.
    + destruct b.
      * injection H as <- <-. left. repeat split; auto.
      * unfold close, get in H. cbn [put socks] in H. rewrite nth_upd_same in H by exact I. injection H as <- <-.
        right. split; [auto|]. cbn [put socks fresh]. rewrite upd_upd.
        split; [unfold get in Gi; rewrite <- Gi; apply upd_same|]. right. auto.
Qed.

(** On success both sockets, which were closed and are different, own one end each and nothing
    else changes *)
Theorem C50_success : forall s i j ok a b s1 es,
  step s (LPair i j ok a b) = Some (s1, es) -> In EOk es ->
  i <> j /\ get s i = None /\ get s j = None /\
  exists d e, d <> e /\ es = [ECreate d; ECreate e; EOk] /\ get s1 i = Some d /\ get s1 j = Some e /\
    forall k, k <> i -> k <> j -> get s1 k = get s k.
Proof.
  intros s i j ok a b s1 es H K. cbn [step] in H. destruct (inr s i && inr s j) eqn:R; [|discriminate].
  apply andb_true_iff in R as [I J]. injection H as H.
  destruct (connect_pair_cases _ _ _ _ _ _ _ _ I J H) as [(-> & -> & -> & N & Gi & Gj & -> & ->)|(_ & _ & [(_ & ->)|(_ & ->)])].
  - split; [exact N|]. split; [exact Gi|]. split; [exact Gj|]. exists (fresh s), (S (fresh s)).
    apply Nat.ltb_lt in I, J. split; [lia|]. split; [reflexivity|]. unfold get; cbn [socks].
    split; [rewrite nth_upd_other by auto; apply nth_upd_same; exact I|].
    split; [apply nth_upd_same; rewrite upd_length; exact J|].
    intros k Ki Kj. rewrite !nth_upd_other by auto. reflexivity.
  - cbn in K. intuition discriminate.
  - cbn in K. intuition discriminate.
Qed.
Print Assumptions C50_success.

(** Otherwise an error is returned, every descriptor created is closed, each once, and all sockets
    own what they owned *)
Theorem C50_failure : forall s i j ok a b s1 es,
  step s (LPair i j ok a b) = Some (s1, es) -> ~ In EOk es ->
  In EErr es /\ socks s1 = socks s /\ forall d, closed d es = created d es /\ created d es <= 1.
Proof.
  intros s i j ok a b s1 es H K. cbn [step] in H. destruct (inr s i && inr s j) eqn:R; [|discriminate].
  apply andb_true_iff in R as [I J]. injection H as H.
  destruct (connect_pair_cases _ _ _ _ _ _ _ _ I J H) as [(_ & _ & _ & _ & _ & _ & _ & ->)|(_ & E & [(_ & ->)|(_ & ->)])].
  - exfalso. apply K. cbn. auto.
  - split; [left; reflexivity|]. split; [exact E|]. intro d. cbn. auto.
  - split; [cbn; auto 10|]. split; [exact E|]. intro d. unfold closed, created. cbn [filter].
    destruct (Nat.eqb_spec d (fresh s)), (Nat.eqb_spec d (S (fresh s))); cbn; lia.
Qed.
Print Assumptions C50_failure.

(** It succeeds exactly if the two sockets are different and closed and no call fails *)
Theorem C50_succeeds_iff : forall s i j ok a b s1 es,
  step s (LPair i j ok a b) = Some (s1, es) ->
  (In EOk es <-> ok = true /\ a = true /\ b = true /\ i <> j /\ get s i = None /\ get s j = None).
Proof.
  intros s i j ok a b s1 es H. cbn [step] in H. destruct (inr s i && inr s j) eqn:R; [|discriminate].
  apply andb_true_iff in R as [I J]. injection H as H.
  destruct (connect_pair_cases _ _ _ _ _ _ _ _ I J H) as [(-> & -> & -> & N & Gi & Gj & -> & ->)|(D & _ & [(_ & ->)|(_ & ->)])].
  - split; [auto 10|]. intros _. cbn. auto.
  - split; [cbn; intuition discriminate|]. intros (-> & -> & -> & N & Gi & Gj).
    exfalso. destruct D as [D|[D|[D|[D|[D|D]]]]]; congruence.
  - split; [cbn; intuition discriminate|]. intros (-> & -> & -> & N & Gi & Gj).
    exfalso. destruct D as [D|[D|[D|[D|[D|D]]]]]; congruence.
Qed.
Print Assumptions C50_succeeds_iff.

(** ** Whole histories *)
Lemma firstn_exact (l : list (option fd)) r : firstn (length l) (l ++ r) = l.
Proof. rewrite firstn_app, Nat.sub_diag, firstn_all. cbn. apply app_nil_r. Qed.

Lemma make_pair_cases s ok a b s1 es : step s (LMakePair ok a b) = Some (s1, es) ->
  (ok = true /\ a = true /\ b = true /\
   s1 = mk (socks s ++ [Some (fresh s); Some (S (fresh s))]) (S (S (fresh s))) /\
   es = [ECreate (fresh s); ECreate (S (fresh s)); EOk]) \/
  (socks s1 = socks s /\ ((fresh s1 = fresh s /\ es = [EErr]) \/
    (fresh s1 = S (S (fresh s)) /\
     es = [ECreate (fresh s); ECreate (S (fresh s)); EClose (fresh s); EClose (S (fresh s)); EErr]))).
Proof.
  intro H. cbn [step] in H. set (n := length (socks s)) in *.
  assert (I : inr (mk (socks s ++ [None; None]) (fresh s)) n = true).
  { apply Nat.ltb_lt. cbn [socks]. rewrite app_length. cbn. unfold n. lia. }
  assert (J : inr (mk (socks s ++ [None; None]) (fresh s)) (S n) = true).
  { apply Nat.ltb_lt. cbn [socks]. rewrite app_length. cbn. unfold n. lia. }
  assert (D : forall f', drop_last2 (mk (socks s ++ [None; None]) f') = []).
  { intros f'. unfold drop_last2. cbn [socks]. rewrite app_length. cbn [length].
    replace (length (socks s) + 2 - 1) with (length (socks s) + 1) by lia.
    replace (length (socks s) + 2 - 2) with (length (socks s) + 0) by lia.
    rewrite !app_nth2_plus. reflexivity. }
  destruct (connect_pair (mk (socks s ++ [None; None]) (fresh s)) n (S n) ok a b) as [s2 e2] eqn:E.
  destruct (connect_pair_cases _ _ _ _ _ _ _ _ I J E) as [(-> & -> & -> & _ & _ & _ & -> & ->)|(_ & ES & [(EF & ->)|(EF & ->)])].
  - left. injection H as <- <-. cbn [socks fresh]. repeat split. f_equal.
    unfold n. clear. induction (socks s) as [|x l IH]; [reflexivity|]. cbn. f_equal. exact IH.
  - right. cbn [existsb] in H. injection H as <- <-. cbn [socks fresh] in *. split; [|left].
    + rewrite ES. apply firstn_exact.
    + split; [exact EF|]. destruct s2 as [l2 f2]. cbn in ES. subst l2. rewrite D. reflexivity.
  - right. cbn [existsb] in H. injection H as <- <-. cbn [socks fresh] in *. split; [|right].
    + rewrite ES. apply firstn_exact.
    + split; [exact EF|]. destruct s2 as [l2 f2]. cbn in ES. subst l2. rewrite D. reflexivity.
Qed.

Ltac cnt := unfold created, closed, given_in, given_out; cbn [filter length].
Ltac eqb d := repeat match goal with |- context [d =? ?x] => destruct (Nat.eqb_spec d x) end; cbn [length]; try lia.

Lemma pair_balance d f es : es = [EErr] \/ es = [ECreate f; ECreate (S f); EClose f; EClose (S f); EErr] \/
  es = [ECreate f; ECreate (S f); EClose f; EClose (S f); EThrow] \/ es = [EThrow] ->
  created d es = closed d es /\ given_in d es = 0 /\ given_out d es = 0.
Proof. intros [->|[->|[->| ->]]]; cnt; eqb d; auto. Qed.

(** what happens balances *)
Lemma balance s l s1 e d : step s l = Some (s1, e) ->
  created d e + given_in d e + owners d s = closed d e + given_out d e + owners d s1.
Proof.
  change (owners d s) with (own d (socks s)). change (owners d s1) with (own d (socks s1)).
  intro H. destruct l as [|i ok|i|i x ok|i|i|i j ok a b|ok a b|ok a b].
  - injection H as <- <-. cbn [socks]. rewrite own_app. cbn. lia.
  - cbn [step] in H. destruct (inr s i) eqn:I; [|discriminate]. apply Nat.ltb_lt in I. injection H as H.
    pose proof (own_upd d (socks s) i (Some (fresh s)) I) as K. unfold get in H.
    destruct (nth i (socks s) None) as [y|]; [injection H as <- <-; cnt; lia|].
    destruct ok; injection H as <- <-; cnt; [|lia]. unfold one in K. cbn [owns] in K. cbn [socks]. eqb d.
  - cbn [step] in H. destruct (inr s i) eqn:I; [|discriminate]. apply Nat.ltb_lt in I. injection H as H.
    pose proof (own_upd d (socks s) i None I) as K. unfold close, get in H.
    destruct (nth i (socks s) None) as [y|]; injection H as <- <-; cnt; [|lia].
    unfold one in K. cbn [owns] in K. cbn [socks put]. eqb d.
  - cbn [step] in H. destruct (inr s i) eqn:I; [|discriminate]. apply Nat.ltb_lt in I.
    pose proof (own_upd d (socks s) i (Some x) I) as K. unfold assign, get in H.
    destruct (nth i (socks s) None) as [y|]; [injection H as <- <-; cnt; lia|].
    destruct ok; injection H as <- <-; cnt; [|lia]. unfold one in K. cbn [owns] in K. cbn [socks put]. eqb d.
  - cbn [step] in H. destruct (inr s i) eqn:I; [|discriminate]. apply Nat.ltb_lt in I. injection H as H.
    pose proof (own_upd d (socks s) i None I) as K. unfold get in H.
    destruct (nth i (socks s) None) as [y|]; injection H as <- <-; cnt; [|lia].
    unfold one in K. cbn [owns] in K. cbn [socks put]. eqb d.
  - cbn [step] in H. destruct (inr s i) eqn:I; [|discriminate]. apply Nat.ltb_lt in I. injection H as <- <-.
    pose proof (own_upd d (socks s) i None I) as K. cbn [socks]. rewrite own_app. unfold get.
    assert (own d [nth i (socks s) None] = one d (nth i (socks s) None)) by (unfold own, one; cbn; destruct (owns d (nth i (socks s) None)); reflexivity).
    cnt. assert (one d None = 0) by reflexivity. lia.
  - cbn [step] in H. destruct (inr s i && inr s j) eqn:R; [|discriminate]. apply andb_true_iff in R as [I J]. injection H as H.
    destruct (connect_pair_cases _ _ _ _ _ _ _ _ I J H) as [(_ & _ & _ & N & Gi & Gj & -> & ->)|(_ & -> & E)].
    + apply Nat.ltb_lt in I, J. cbn [socks].
      pose proof (own_upd d (socks s) i (Some (fresh s)) I) as K1.
      assert (J' : j < length (upd (socks s) i (Some (fresh s)))) by (rewrite upd_length; exact J).
      pose proof (own_upd d _ j (Some (S (fresh s))) J') as K2. rewrite nth_upd_other in K2 by auto.
      unfold get in Gi, Gj. rewrite Gi in K1. rewrite Gj in K2. unfold one in *. cbn [owns] in *. cnt. eqb d.
    + destruct (pair_balance d (fresh s) e) as (-> & -> & ->); [tauto|]. lia.
  - destruct (make_pair_cases _ _ _ _ _ _ H) as [(_ & _ & _ & -> & ->)|(-> & E)].
    + cbn [socks]. rewrite own_app. unfold own at 3. cbn [filter owns]. cnt. eqb d.
    + destruct (pair_balance d (fresh s) e) as (-> & -> & ->); [tauto|]. lia.
  - cbn [step] in H. destruct (ok && a && b).
    + injection H as <- <-. cbn [socks]. rewrite own_app. unfold own at 3. cbn [filter owns]. cnt. eqb d.
    + destruct (pair_balance d (fresh s) e) as (-> & -> & ->).
      * destruct ok; injection H as <- <-; auto.
      * destruct ok; injection H as <- <-; cbn [socks]; lia.
Qed.

Lemma freshness s l s1 e d : step s l = Some (s1, e) ->
  fresh s <= fresh s1 /\ created d e = (if (fresh s <=? d) && (d <? fresh s1) then 1 else 0).
Proof.
  assert (Z : forall n, (if (n <=? d) && (d <? n) then 1 else 0) = 0).
  { intro n. destruct (Nat.leb_spec n d), (Nat.ltb_spec d n); cbn; lia. }
  assert (T : forall n, (if (n <=? d) && (d <? S (S n)) then 1 else 0) = (if d =? n then 1 else 0) + (if d =? S n then 1 else 0)).
  { intro n. destruct (Nat.leb_spec n d), (Nat.ltb_spec d (S (S n))); cbn [andb]; eqb d. }
  assert (O : forall n, (if (n <=? d) && (d <? S n) then 1 else 0) = (if d =? n then 1 else 0)).
  { intro n. destruct (Nat.leb_spec n d), (Nat.ltb_spec d (S n)); cbn [andb]; eqb d. }
  assert (C2 : forall f r, created d (ECreate f :: ECreate (S f) :: r) = (if d =? f then 1 else 0) + (if d =? S f then 1 else 0) + created d r).
  { intros. cnt. eqb d. }
  intro H. destruct l as [|i ok|i|i x ok|i|i|i j ok a b|ok a b|ok a b].
  - injection H as <- <-. cbn [fresh]. rewrite Z. auto.
  - cbn [step] in H. destruct (inr s i); [|discriminate]. injection H as H.
    destruct (get s i); [injection H as <- <-; rewrite Z; auto|].
    destruct ok; injection H as <- <-; cbn [fresh]; rewrite ?Z, ?O; cnt; [|auto]. split; [lia|]. eqb d.
  - cbn [step] in H. destruct (inr s i); [|discriminate]. injection H as H. unfold close in H.
    destruct (get s i); injection H as <- <-; cbn [fresh put]; rewrite Z; auto.
  - cbn [step] in H. destruct (inr s i); [|discriminate]. unfold assign in H.
    destruct (get s i); [injection H as <- <-; rewrite Z; auto|].
    destruct ok; injection H as <- <-; cbn [fresh put]; rewrite Z; auto.
  - cbn [step] in H. destruct (inr s i); [|discriminate]. injection H as H.
    destruct (get s i); injection H as <- <-; cbn [fresh put]; rewrite Z; auto.
  - cbn [step] in H. destruct (inr s i); [|discriminate]. injection H as <- <-. cbn [fresh]. rewrite Z. auto.
  - cbn [step] in H. destruct (inr s i && inr s j) eqn:R; [|discriminate]. apply andb_true_iff in R as [I J]. injection H as H.
    destruct (connect_pair_cases _ _ _ _ _ _ _ _ I J H) as [(_ & _ & _ & _ & _ & _ & -> & ->)|(_ & _ & [(-> & ->)|(-> & ->)])];
      cbn [fresh]; rewrite ?Z, ?T, ?C2; (split; [lia|]); cnt; try lia; reflexivity.
  - destruct (make_pair_cases _ _ _ _ _ _ H) as [(_ & _ & _ & -> & ->)|(_ & [(-> & ->)|(-> & ->)])];
      cbn [fresh]; rewrite ?Z, ?T, ?C2; (split; [lia|]); cnt; try lia; reflexivity.
  - cbn [step] in H. destruct (ok && a && b); [|destruct ok]; injection H as <- <-;
      cbn [fresh]; rewrite ?Z, ?T, ?C2; (split; [lia|]); cnt; try lia; reflexivity.
Qed.

(** Every descriptor that exists is owned by exactly one object, or was closed, or is the
    caller's: for every history *)
Theorem C50_accounted : forall ls s es d, run init ls = Some (s, es) ->
  created d es + given_in d es = closed d es + given_out d es + owners d s.
Proof.
  assert (G : forall ls s0 s es d, run s0 ls = Some (s, es) ->
    created d es + given_in d es + owners d s0 = closed d es + given_out d es + owners d s).
  { induction ls as [|l r IH]; intros s0 s es d H; cbn [run] in H.
    - injection H as <- <-. cnt. lia.
    - destruct (step s0 l) as [[s1 e1]|] eqn:E; [|discriminate].
      destruct (run s1 r) as [[s2 e2]|] eqn:E2; [|discriminate]. injection H as <- <-.
      apply (balance _ _ _ _ d) in E. apply (IH _ _ _ d) in E2.
      rewrite created_app, closed_app, in_app, out_app. lia. }
  intros ls s es d H. apply (G _ _ _ _ d) in H. cbn in H. lia.
Qed.
Print Assumptions C50_accounted.

Lemma created_once : forall ls s0 s es d, run s0 ls = Some (s, es) ->
  fresh s0 <= fresh s /\ created d es = (if (fresh s0 <=? d) && (d <? fresh s) then 1 else 0).
Proof.
  induction ls as [|l r IH]; intros s0 s es d H; cbn [run] in H.
  - injection H as <- <-. split; [lia|]. cnt. destruct (Nat.leb_spec (fresh s0) d), (Nat.ltb_spec d (fresh s0)); cbn; lia.
  - destruct (step s0 l) as [[s1 e1]|] eqn:E; [|discriminate].
    destruct (run s1 r) as [[s2 e2]|] eqn:E2; [|discriminate]. injection H as <- <-.
    apply (freshness _ _ _ _ d) in E as [L1 C1]. apply (IH _ _ _ d) in E2 as [L2 C2]. split; [lia|].
    rewrite created_app, C1, C2.
    destruct (Nat.leb_spec (fresh s0) d), (Nat.ltb_spec d (fresh s1)), (Nat.leb_spec (fresh s1) d), (Nat.ltb_spec d (fresh s2)); cbn; lia.
Qed.

(** With a caller that makes up no descriptors, each descriptor is closed at most once, is owned by
    at most one object, and not at all once it is closed *)
Theorem C50_closed_once : forall ls s es d, honest [] init ls -> run init ls = Some (s, es) ->
  closed d es + owners d s <= 1.
Proof.
  intros ls s es d HN H. pose proof (C50_accounted _ _ _ d H) as B.
  destruct (created_once _ _ _ _ d H) as [_ C].
  assert (I : given_in d es <= given_out d es).
  { assert (G : forall ls es0 s0 s es, honest es0 s0 ls -> run s0 ls = Some (s, es) ->
        given_in d es0 <= given_out d es0 -> given_in d (es0 ++ es) <= given_out d (es0 ++ es)).
    { clear. induction ls as [|l r IH]; intros es0 s0 s es HN H L; cbn [run honest] in *.
      - injection H as <- <-. rewrite app_nil_r. exact L.
      - destruct HN as [HN1 HN2]. destruct (step s0 l) as [[s1 e1]|] eqn:E; [|discriminate].
        destruct (run s1 r) as [[s2 e2]|] eqn:E2; [|discriminate]. injection H as <- <-.
        rewrite app_assoc. apply (IH _ _ _ _ HN2 E2). rewrite in_app, out_app.
        destruct l as [|i ok|i|i x ok|i|i|i j ok a b|ok a b|ok a b].
        + injection E as <- <-. unfold given_in, given_out in *; cbn [filter length]; lia.
        + cbn [step] in E. destruct (inr s0 i); [|discriminate]. injection E as E.
          destruct (get s0 i); [|destruct ok]; injection E as <- <-; unfold given_in, given_out in *; cbn [filter length]; lia.
        + cbn [step] in E. destruct (inr s0 i); [|discriminate]. injection E as E. unfold close in E.
          destruct (get s0 i); injection E as <- <-; unfold given_in, given_out in *; cbn [filter length]; lia.
        + cbn [step] in E. destruct (inr s0 i); [|discriminate]. unfold assign in E.
          destruct (get s0 i); [|destruct ok]; injection E as <- <-; unfold given_in, given_out in *; cbn [filter length]; try lia.
          destruct (Nat.eqb_spec d x) as [->|N]; cbn [length]; lia.
        + cbn [step] in E. destruct (inr s0 i); [|discriminate]. injection E as E.
          destruct (get s0 i); injection E as <- <-; unfold given_in, given_out in *; cbn [filter length]; try lia; eqb d.
        + cbn [step] in E. destruct (inr s0 i); [|discriminate]. injection E as <- <-. unfold given_in, given_out in *; cbn [filter length]; lia.
        + cbn [step] in E. destruct (inr s0 i && inr s0 j) eqn:R; [|discriminate]. apply andb_true_iff in R as [I J]. injection E as E.
          destruct (connect_pair_cases _ _ _ _ _ _ _ _ I J E) as [(_ & _ & _ & _ & _ & _ & _ & ->)|(_ & _ & [(_ & ->)|(_ & ->)])]; unfold given_in, given_out in *; cbn [filter length]; lia.
        + destruct (make_pair_cases _ _ _ _ _ _ E) as [(_ & _ & _ & _ & ->)|(_ & [(_ & ->)|(_ & ->)])]; unfold given_in, given_out in *; cbn [filter length]; lia.
        + cbn [step] in E. destruct (ok && a && b); [|destruct ok]; injection E as <- <-; unfold given_in, given_out in *; cbn [filter length]; lia. }
    exact (G ls [] init s es HN H ltac:(cbn; lia)). }
  destruct (_ && _); lia.
Qed.
Print Assumptions C50_closed_once.

(** make_pair: the same, with two new sockets *)
(** open gives a closed socket a new descriptor, or an error and changes nothing; close leaves nothing open *)
Theorem C50_open : forall s i ok s1 es, step s (LOpen i ok) = Some (s1, es) ->
  (ok = true /\ get s i = None /\ get s1 i = Some (fresh s) /\ es = [ECreate (fresh s); EOk] /\
     forall k, k <> i -> get s1 k = get s k) \/
  ((ok = false \/ get s i <> None) /\ s1 = s /\ es = [EErr]).
Proof.
  intros s i ok s1 es H. unfold step in H. destruct (inr s i) eqn:I; [|discriminate]. apply Nat.ltb_lt in I.
  destruct (get s i) as [x|] eqn:G.
  - injection H as <- <-. right. split; [right; discriminate|auto].
  - destruct ok; injection H as <- <-; [left|right; auto]. unfold get. cbn [socks].
    repeat split; auto.
    + apply nth_upd_same. exact I.
    + intros k K. apply nth_upd_other. exact K.
Qed.
Print Assumptions C50_open.

(** assign takes a descriptor over into a closed socket, or gives an error and changes nothing; release gives
    it up, or an error if there is none; close closes what was open *)
Theorem C50_assign : forall s i d ok s1 es, step s (LAssign i d ok) = Some (s1, es) ->
  (ok = true /\ get s i = None /\ get s1 i = Some d /\ es = [EIn d; EOk] /\ forall k, k <> i -> get s1 k = get s k) \/
  ((ok = false \/ get s i <> None) /\ s1 = s /\ es = [EErr]).
Proof.
  intros s i d ok s1 es H. unfold step in H. destruct (inr s i) eqn:I; [|discriminate]. apply Nat.ltb_lt in I.
  unfold assign in H. destruct (get s i) as [x|] eqn:G.
  - injection H as <- <-. right. split; [right; discriminate|auto].
  - destruct ok; injection H as <- <-; [left|right; auto]. unfold get, put. cbn [socks].
    repeat split; auto.
    + apply nth_upd_same. exact I.
    + intros k K. apply nth_upd_other. exact K.
Qed.
Print Assumptions C50_assign.

Theorem C50_release_close : forall s i s1 es d, get s i = Some d ->
  (step s (LRelease i) = Some (s1, es) -> es = [EOut d; EOk] /\ get s1 i = None /\ forall k, k <> i -> get s1 k = get s k) /\
  (step s (LClose i) = Some (s1, es) -> es = [EClose d] /\ get s1 i = None /\ forall k, k <> i -> get s1 k = get s k).
Proof.
  intros s i s1 es d G. split; intro H; unfold step, close in H; destruct (inr s i) eqn:I; try discriminate; apply Nat.ltb_lt in I;
    rewrite G in H; injection H as <- <-; unfold get, put; cbn [socks]; repeat split; auto;
    try (apply nth_upd_same; exact I); intros k K; apply nth_upd_other; exact K.
Qed.
Print Assumptions C50_release_close.

(** Every function that can fail says whether it did, once; only pipe() throws. *)
Theorem C50_reports : forall s l s1 es, step s l = Some (s1, es) ->
  match l with
  | LNew | LClose _ | LMove _ => ~ In EOk es /\ ~ In EErr es /\ ~ In EThrow es
  | LPipe _ _ _ => ~ In EErr es /\ (In EThrow es <-> ~ In EOk es)
  | _ => ~ In EThrow es /\ (In EErr es <-> ~ In EOk es)
  end.
Proof.
  assert (CP : forall s i j ok a b s1 es, inr s i = true -> inr s j = true -> connect_pair s i j ok a b = (s1, es) ->
     ~ In EThrow es /\ (In EErr es <-> ~ In EOk es)).
  { intros s i j ok a b s1 es I J H. destruct (connect_pair_cases _ _ _ _ _ _ _ _ I J H)
      as [(_ & _ & _ & _ & _ & _ & _ & ->)|(_ & _ & [[_ ->]|[_ ->]])]; cbn; intuition discriminate. }
  intros s l s1 es H. destruct l as [|i ok|i|i d ok|i|i|i j ok a b|ok a b|ok a b].
  - injection H as <- <-. cbn. tauto.
  - unfold step in H. destruct (inr s i); [|discriminate]. destruct (get s i), ok; injection H as <- <-; cbn; intuition discriminate.
  - unfold step in H. unfold close in H. destruct (inr s i); [|discriminate]. destruct (get s i); injection H as <- <-; cbn; intuition discriminate.
  - unfold step in H. destruct (inr s i); [|discriminate]. unfold assign in H.
    destruct (get s i), ok; injection H as <- <-; cbn; intuition discriminate.
  - unfold step in H. destruct (inr s i); [|discriminate]. destruct (get s i); injection H as <- <-; cbn; intuition discriminate.
  - unfold step in H. destruct (inr s i); [|discriminate]. injection H as <- <-. cbn. tauto.
  - unfold step in H. destruct (inr s i) eqn:I; [|discriminate]. destruct (inr s j) eqn:J; [|discriminate]. unfold step in H. injection H as H.
    exact (CP _ _ _ _ _ _ _ _ I J H).
  - unfold step in H. destruct (connect_pair _ _ _ ok a b) as [s2 e2] eqn:E2. injection H as H.
    apply CP in E2; [|apply Nat.ltb_lt; cbn [socks]; rewrite app_length; cbn [length]; lia ..].
    destruct (existsb _ e2) eqn:X; injection H as <- <-; [exact E2|]. clear X.
    unfold drop_last2. rewrite !in_app_iff.
    destruct (nth _ _ None), (nth _ _ None); cbn; intuition discriminate.
  - unfold step in H. destruct ok, a, b; cbn in H; injection H as <- <-; cbn; intuition discriminate.
Qed.
Print Assumptions C50_reports.

Theorem C50_make_pair : forall s ok a b s1 es, step s (LMakePair ok a b) = Some (s1, es) ->
  (In EOk es /\ exists d e, d <> e /\ es = [ECreate d; ECreate e; EOk] /\ socks s1 = socks s ++ [Some d; Some e]) \/
  (In EErr es /\ socks s1 = socks s /\ forall d, closed d es = created d es /\ created d es <= 1).
Proof.
  intros s ok a b s1 es H. destruct (make_pair_cases _ _ _ _ _ _ H) as [(_ & _ & _ & -> & ->)|(E & [(_ & ->)|(_ & ->)])].
  - left. split; [cbn; auto|]. exists (fresh s), (S (fresh s)). split; [lia|]. auto.
  - right. split; [left; reflexivity|]. split; [exact E|]. intro d. cnt. lia.
  - right. split; [cbn; auto 10|]. split; [exact E|]. intro d. cnt. eqb d.
Qed.
Print Assumptions C50_make_pair.

(** A history with a failing and a working pair, a pair of one socket with itself, and a move *)
Example C50_nonvacuous : exists s es,
  let ls := [LNew; LNew; LPair 0 0 true true true; LPair 0 1 true true false; LPair 0 1 true true true; LRelease 1; LAssign 1 5 true;
             LMove 0; LMakePair true false true; LClose 1] in
  honest [] init ls /\ run init ls = Some (s, es) /\ socks s = [None; None; Some 4] /\
  filter (fun e => match e with EClose _ => true | _ => false end) es = [EClose 0; EClose 1; EClose 2; EClose 3; EClose 6; EClose 7; EClose 5].
Proof. do 2 eexists. split; [vm_compute; repeat split; auto|]. split; [reflexivity|]. split; reflexivity. Qed.

(** ** C60: io::pipe *)
(** The two ends are owned by the two objects, or nothing is left open *)
Theorem C60_pipe : forall s ok a b s1 es, step s (LPipe ok a b) = Some (s1, es) ->
  (In EOk es /\ exists d e, d <> e /\ socks s1 = socks s ++ [Some d; Some e]) \/
  (~ In EOk es /\ socks s1 = socks s /\ forall d, closed d es = created d es).
Proof.
  intros s ok a b s1 es H. cbn [step] in H. destruct (ok && a && b); [left|right].
  - injection H as <- <-. split; [cbn; auto|]. exists (fresh s), (S (fresh s)). split; [lia|reflexivity].
  - destruct ok; injection H as <- <-; (split; [cbn; intuition discriminate|]); (split; [reflexivity|]); intro d; cnt; eqb d.
Qed.
Print Assumptions C60_pipe.
(** but a failure is never returned in the result: it is always thrown *)
Theorem C60_error_refuted : forall s ok a b s1 es, step s (LPipe ok a b) = Some (s1, es) ->
  ~ In EErr es /\ (In EOk es \/ In EThrow es).
Proof.
  intros s ok a b s1 es H. cbn [step] in H. destruct (ok && a && b); [|destruct ok]; injection H as <- <-;
    (split; [cbn; intuition discriminate|cbn; auto 10]).
Qed.
Print Assumptions C60_error_refuted.
Example C60_nonvacuous : step init (LPipe false true true) = Some (init, [EThrow]) /\
  step init (LPipe true true true) = Some (mk [Some 0; Some 1] 2, [ECreate 0; ECreate 1; EOk]).
Proof. split; reflexivity. Qed.

(** ** C61: connect completes the endpoint's protocol *)
(** What the caller specified is kept, what they left open becomes the socket's own; other families are
    left alone *)
Theorem C61_adopt : forall k p,
  fam (adopt k p) = fam p /\
  ty (adopt k p) = (if (ty p =? 0) && negb (match fam p with AF_OTHER => true | _ => false end) then own_type k else ty p) /\
  pr (adopt k p) = (if (pr p =? 0) && match fam p with AF_INET | AF_INET6 => true | _ => false end then own_protocol k else pr p).
Proof.
  intros k [f t q]. unfold adopt. cbn [fam ty pr].
  destruct f, k; cbn [fam ty pr negb andb]; destruct (Nat.eqb_spec q 0), (Nat.eqb_spec t 0); subst; cbn; auto;
    repeat split; try reflexivity; destruct t; try contradiction; reflexivity.
Qed.
Print Assumptions C61_adopt.
Example C61_nonvacuous : adopt Datagram (P AF_INET6 0 0) = P AF_INET6 2 17 /\ adopt Stream (P AF_UNIX 0 3) = P AF_UNIX 1 3 /\
  adopt SeqPacket (P AF_INET 1 6) = P AF_INET 1 6.
Proof. repeat split. Qed.
