(** * The invariant of the model of connect holds *)
From Coq Require Import List Bool Arith Lia.
From Verif Require Import Sock_Model Rsv_Model Dial_Model Dial_Spec Dial_Inv.
Import ListNotations.

Section good.
Variable k : kind.

Definition only (i : nat) (e : list event) : Prop :=
  forall v, In v e -> (about v = None \/ about v = Some i) /\ forall j b l, v <> EStart j b l.

Lemma other : forall i j e, only i e -> j <> i -> attempts j e = [] /\ outcomes j e = [] /\ results j e = [].
Proof.
  intros i j e O N. apply quiet_attempts. intros v V. destruct (O v V) as [[A|A] _]; rewrite A; congruence.
Qed.

Lemma only_other : forall i j e, only i e -> j <> i -> forall v, In v e -> about v <> Some j.
Proof. intros i j e O N v V. destruct (O v V) as [[A|A] _]; rewrite A; congruence. Qed.

Lemma in_l : forall (v : event) a b, In v a -> In v (a ++ b).
Proof. intros. apply in_or_app. auto. Qed.
Lemma in_r : forall (v : event) a b, In v b -> In v (a ++ b).
Proof. intros. apply in_or_app. auto. Qed.

Lemma ended_mono : forall j e es r, (forall v, In v e -> about v <> Some j) -> ended k es j r -> ended k (es ++ e) j r.
Proof.
  intros j e es r O (b & l & S & AN & H). destruct (quiet_attempts j e O) as (A & B & C).
  exists b, l. split; [now apply in_l|]. split; [rewrite att_app, A, app_nil_r; exact AN|]. cbn zeta in *. rewrite att_app, out_app, A, B, !app_nil_r.
  destruct r as [x|x]; [exact H|]. destruct H as [(F & [H|[H|(E & SI & H)]])|(E & SI & H)].
  - left. auto.
  - left. auto.
  - left. split; [auto|]. right; right. repeat split; auto. destruct H as [(c & H)|[H|(e' & y & H)]].
    + left. exists c. now apply in_l.
    + right; left. now apply in_l.
    + right; right. exists e', y. now apply in_l.
  - right. repeat split; auto. now apply in_l.
Qed.

Lemma good_keep : forall s es s' e o, good k s es -> op s = Some o -> count s' = count s -> only (o_id o) e ->
  (exists o', op s' = Some o' /\ o_id o' = o_id o /\ running k s' (es ++ e) o') \/
  (op s' = None /\ exists r, results (o_id o) e = [r] /\ ended k (es ++ e) (o_id o) r) -> good k s' (es ++ e).
Proof.
  intros s es s' e o G HO HC ON H. pose proof (g_op _ _ _ G o HO) as R.
  constructor.
  - intros v i V A. rewrite HC. apply in_app_or in V. destruct V as [V|V]; [exact (g_new _ _ _ G v i V A)|].
    destruct (ON v V) as [[B|B] _]; rewrite B in A; [discriminate|]. injection A as <-. apply (r_id _ _ _ _ R).
  - intros i b l b' l' A B. apply in_app_or in A. apply in_app_or in B.
    destruct A as [A|A]; [|destruct (ON _ A) as [_ X]; exfalso; exact (X _ _ _ eq_refl)].
    destruct B as [B|B]; [|destruct (ON _ B) as [_ X]; exfalso; exact (X _ _ _ eq_refl)].
    exact (g_start _ _ _ G _ _ _ _ _ A B).
  - intros i I. rewrite HC in I. destruct (g_begun _ _ _ G i I) as (b & l & K). exists b, l. now apply in_l.
  - intros o' O'. destruct H as [(o2 & A & B & C)|(A & _)]; [|congruence]. rewrite A in O'. injection O' as <-. exact C.
  - intro i. destruct (Nat.eq_dec i (o_id o)) as [->|N].
    + destruct H as [(o2 & A & B & C)|(A & r & B & C)]; [left; eauto|]. right; right. exists r. split; [|exact C].
      rewrite res_app, B, (r_got _ _ _ _ R). reflexivity.
    + destruct (g_res _ _ _ G i) as [(o2 & A & B)|[A|(r & A & B)]]; [congruence|right; left; lia|]. right; right. exists r.
      destruct (other _ i e ON N) as (_ & _ & C). rewrite res_app, A, C. split; [reflexivity|]. apply ended_mono; [eapply only_other; eauto|auto].
Qed.

Lemma good_idle : forall s es s' e, good k s es -> op s = None -> op s' = None -> count s' = count s -> (forall v, In v e -> about v = None) -> good k s' (es ++ e).
Proof.
  intros s es s' e G HO HO' HC N.
  assert (forall i, only i e) as ON.
  { intros i v V. split; [left; apply N; exact V|]. intros j b l ->. discriminate (N _ V). }
  constructor.
  - intros v i V A. rewrite HC. apply in_app_or in V. destruct V as [V|V]; [exact (g_new _ _ _ G v i V A)|]. rewrite N in A; [discriminate|auto].
  - intros i b l b' l' A B. apply in_app_or in A. apply in_app_or in B.
    destruct A as [A|A]; [|destruct (ON 0 _ A) as [_ X]; exfalso; exact (X _ _ _ eq_refl)].
    destruct B as [B|B]; [|destruct (ON 0 _ B) as [_ X]; exfalso; exact (X _ _ _ eq_refl)].
    exact (g_start _ _ _ G _ _ _ _ _ A B).
  - intros i I. rewrite HC in I. destruct (g_begun _ _ _ G i I) as (b & l & K). exists b, l. now apply in_l.
  - intros o' O'. congruence.
  - intro i. destruct (g_res _ _ _ G i) as [(o2 & A & B)|[A|(r & A & B)]]; [congruence|right; left; lia|]. right; right. exists r.
    destruct (other (S i) i e (ON (S i))) as (_ & _ & C); [lia|]. rewrite res_app, A, C. split; [reflexivity|]. apply ended_mono; [intros v V; rewrite (N v V); discriminate|auto].
Qed.

Lemma good_begin : forall s es s' e b l o, good k s es -> op s = None -> count s' = S (count s) -> only (count s) e ->
  op s' = Some o -> o_id o = count s -> running k s' (es ++ EStart (count s) b l :: e) o -> good k s' (es ++ EStart (count s) b l :: e).
Proof.
  intros s es s' e b l o G HO HC ON HO' HI R.
  assert (forall b' l', ~ In (EStart (count s) b' l') es) as FR.
  { intros b' l' K. pose proof (g_new _ _ _ G _ _ K eq_refl). lia. }
  constructor.
  - intros v i V A. rewrite HC. apply in_app_or in V. destruct V as [V|[<-|V]].
    + pose proof (g_new _ _ _ G v i V A). lia.
    + injection A as <-. lia.
    + destruct (ON v V) as [[B|B] _]; rewrite B in A; [discriminate|]. injection A as <-. lia.
  - intros i b1 l1 b2 l2 A B. apply in_app_or in A. apply in_app_or in B.
    destruct A as [A|[A|A]]; [| |destruct (ON _ A) as [_ X]; exfalso; exact (X _ _ _ eq_refl)];
    (destruct B as [B|[B|B]]; [| |destruct (ON _ B) as [_ X]; exfalso; exact (X _ _ _ eq_refl)]).
    + exact (g_start _ _ _ G _ _ _ _ _ A B).
    + injection B as <- <- <-. exfalso. exact (FR _ _ A).
    + injection A as <- <- <-. exfalso. exact (FR _ _ B).
    + injection A as <- <- <-. injection B as <- <-. auto.
  - intros i I. destruct (Nat.eq_dec i (count s)) as [->|N]; [exists b, l; apply in_r; now left|].
    destruct (g_begun _ _ _ G i) as (b' & l' & K); [lia|]. exists b', l'. now apply in_l.
  - intros o' O'. rewrite HO' in O'. injection O' as <-. exact R.
  - intro i. destruct (Nat.eq_dec i (count s)) as [->|N]; [left; eauto|].
    destruct (g_res _ _ _ G i) as [(o2 & A & B)|[A|(r & A & B)]]; [congruence|right; left; lia|]. right; right. exists r.
    assert (forall v, In v (EStart (count s) b l :: e) -> about v <> Some i) as Q.
    { intros v [<-|V]; [cbn; congruence|exact (only_other _ _ _ ON N v V)]. }
    destruct (quiet_attempts i _ Q) as (_ & _ & C). rewrite res_app, A, C. split; [reflexivity|]. apply ended_mono; auto.
Qed.

(** ** steps that leave the attempt alone *)
Definition silent (i : nat) (e : list event) : Prop := attempts i e = [] /\ outcomes i e = [] /\ results i e = [].

Lemma running_more : forall s es s' e o, running k s es o -> count s' = count s -> silent (o_id o) e ->
  (fd s' = None -> closed_during (o_id o) e \/ fd s = None) ->
  (forall d, fd s = Some d -> closed_during (o_id o) e \/ exists d', fd s' = Some d' /\ d_id d' = d_id d /\ d_proto d' = d_proto d) ->
  (closed_during (o_id o) e -> o_phase o <> Waiting) ->
  running k s' (es ++ e) o.
Proof.
  intros s es s' e o R HC (A & B & C) F1 F2 F3. destruct R as [R1 R2 R3 R4 R5 R6 R7].
  constructor.
  - destruct R1 as (l & P & Q). exists l. split; [now apply in_l|exact Q].
  - lia.
  - now rewrite res_app, R3, C.
  - intro S. destruct (R4 S) as (c & K). exists c. now apply in_l.
  - intros N NN. destruct (F1 N) as [K|K]; [left; now apply in_r|].
    destruct (R5 K NN) as [K'|(e' & x & K')]; [left; now apply in_l|right; exists e', x; now apply in_l].
  - rewrite att_app, out_app, A, B, !app_nil_r. destruct R6 as [K|(P & Q & K)]; [auto|]. right. split; [auto|]. split; [auto|].
    destruct (o_phase o) eqn:PH; [|exact K]. destruct K as (K1 & K2 & K3). split; [auto|]. split; [auto|].
    destruct (fd s) as [d|] eqn:D; [|congruence]. destruct (F2 d eq_refl) as [X|(d' & X & _)]; [exfalso; exact (F3 X eq_refl)|congruence].
  - intros PH NC. destruct (R7 PH) as (d & e' & P & Q & U & V); [intro X; apply NC; now apply in_l|].
    destruct (F2 d P) as [X|(d' & X1 & X2 & X3)]; [exfalso; apply NC; now apply in_r|].
    exists d', e'. rewrite X2, X3. repeat split; auto. now apply in_l.
Qed.

(** the attempt is aborted *)
Lemma running_abort : forall s es s' e o st o' ea, running k s es o -> count s' = count s -> silent (o_id o) e ->
  (fd s' = None -> closed_during (o_id o) e \/ fd s = None) ->
  (forall d, fd s = Some d -> closed_during (o_id o) e \/ exists d', fd s' = Some d' /\ d_id d' = d_id d /\ d_proto d' = d_proto d) ->
  (st = true -> o_stop o = true \/ stopped_during (o_id o) e) ->
  abort (mko (o_id o) (o_single o) (o_eps o) (o_idx o) st (o_phase o)) = (o', ea) ->
  running k s' (es ++ e ++ ea) o' /\ o_id o' = o_id o /\ only (o_id o) ea.
Proof.
  intros s es s' e o st o' ea R HC SI F1 F2 ST H. unfold abort in H. cbn in H.
  destruct (o_phase o) as [|r] eqn:PH; injection H as <- <-.
  - split; [|split; [reflexivity|intros v [<-|[]]; split; [auto|discriminate]]].
    destruct SI as (A & B & C). destruct R as [R1 R2 R3 R4 R5 R6 R7]. constructor; cbn.
    + destruct R1 as (l & P & Q). exists l. split; [now apply in_l|exact Q].
    + lia.
    + rewrite !res_app, R3, C. reflexivity.
    + intro S. destruct (ST S) as [K|(c & K)]; [destruct (R4 K) as (c & K')|]; exists c; [now apply in_l|apply in_r; now apply in_l].
    + intros N NN. destruct (F1 N) as [K|K]; [left; apply in_r; now apply in_l|].
      destruct (R5 K NN) as [K'|(e' & x & K')]; [left; now apply in_l|right; exists e', x; now apply in_l].
    + right. rewrite !att_app, !out_app, A, B. cbn. rewrite Nat.eqb_refl, !app_nil_r.
      destruct R6 as [(_ & K & _)|(P & Q & K)]; [congruence|]. rewrite PH in K. destruct K as (K1 & K2 & K3).
      split; [auto|]. split; [auto|]. exists (outcomes (o_id o) es). auto.
    + intros [X|X]; discriminate.
  - split; [|split; [reflexivity|intros v []]]. rewrite app_nil_r.
    assert (running k s' (es ++ e) o) as R'.
    { apply (running_more s); auto. intros _. rewrite PH. discriminate. }
    destruct R' as [R1 R2 R3 R4 R5 R6 R7]. rewrite PH in *. constructor; cbn; auto.
    intro S. destruct (ST S) as [K|(c & K)]; [apply R4; exact K|exists c; now apply in_r].
Qed.

(** a new attempt *)
Lemma running_attempt : forall s1 E o e ok s' e2, attempt s1 o e ok = (s', e2) ->
  (exists l, In (EStart (o_id o) (o_single o) l) E /\ o_eps o = map (adopted k) l /\ (o_single o = true -> length l = 1 /\ o_idx o = 0)) ->
  o_id o < count s1 -> results (o_id o) E = [] -> (o_stop o = true -> stopped_during (o_id o) E) ->
  nth_error (o_eps o) (o_idx o) = Some e -> attempts (o_id o) E = firstn (o_idx o) (o_eps o) ->
  length (outcomes (o_id o) E) = o_idx o -> Forall is_err (outcomes (o_id o) E) ->
  exists o', op s' = Some o' /\ o_id o' = o_id o /\ running k s' (E ++ e2) o' /\ only (o_id o) e2 /\ count s' = count s1.
Proof.
  intros s1 E o e ok s' e2 H R1 R2 R3 R4 NE AT OL OF.
  assert (o_idx o < length (o_eps o)) as LT by (apply nth_error_Some; congruence).
  assert (firstn (o_idx o) (o_eps o) ++ [e] = firstn (S (o_idx o)) (o_eps o)) as FN.
  { clear - NE. revert NE. generalize (o_idx o) as n. induction (o_eps o) as [|a l IH]; intros [|n] K; try discriminate.
    - injection K as ->. reflexivity.
    - cbn. f_equal. apply IH. exact K. }
  unfold attempt in H. destruct ok as [x|]; injection H as <- <-.
  - exists (mko (o_id o) (o_single o) (o_eps o) (o_idx o) (o_stop o) (Posted (Some (Sys x)))).
    split; [reflexivity|]. split; [reflexivity|]. split; [|split; [intros v [<-|[]]; split; [auto|discriminate]|reflexivity]].
    constructor; cbn; auto.
    + destruct R1 as (l & P & Q). exists l. split; [now apply in_l|exact Q].
    + rewrite res_app, R3. reflexivity.
    + intro S. destruct (R4 S) as (c & K). exists c. now apply in_l.
    + intros _ _. right. exists e, (Sys x). apply in_r. now left.
    + right. rewrite att_app, out_app. cbn. rewrite Nat.eqb_refl, AT. cbn. split; [auto|]. split; [exact FN|].
      exists (outcomes (o_id o) E). auto.
    + intros [X|X]; discriminate.
  - exists (mko (o_id o) (o_single o) (o_eps o) (o_idx o) (o_stop o) Waiting).
    split; [reflexivity|]. split; [reflexivity|]. split; [|split; [intros v [<-|[<-|[]]]; split; cbn; auto; discriminate|reflexivity]].
    constructor; cbn; auto.
    + destruct R1 as (l & P & Q). exists l. split; [now apply in_l|exact Q].
    + rewrite res_app, R3. reflexivity.
    + intro S. destruct (R4 S) as (c & K). exists c. now apply in_l.
    + discriminate.
    + right. rewrite att_app, out_app. cbn. rewrite Nat.eqb_refl, AT, !app_nil_r. cbn. split; [auto|]. split; [exact FN|].
      split; [auto|]. split; [auto|]. discriminate.
    + intros _ _. eexists _, e. split; [reflexivity|]. cbn. split; [auto|]. split; [apply in_r; right; now left|auto].
Qed.

Lemma silent_closing : forall i f, silent i (closing f).
Proof. intros i [d|]; repeat split. Qed.
Lemma only_closing : forall i f, only i (closing f).
Proof. intros i [d|]; intros v V; cbn in V; [destruct V as [<-|[]]; split; [auto|discriminate]|destruct V]. Qed.
Lemma only_app : forall i a b, only i a -> only i b -> only i (a ++ b).
Proof. intros i a b A B v V. apply in_app_or in V. destruct V; auto. Qed.
Lemma only_cons : forall i v e, about v = Some i -> (forall j b l, v <> EStart j b l) -> only i e -> only i (v :: e).
Proof. intros i v e A B C w [<-|W]; [auto|auto]. Qed.

Lemma finish_ended : forall s es o r s' e, good k s es -> op s = Some o -> finish s o r = (s', e) ->
  ended k es (o_id o) r -> good k s' (es ++ e).
Proof.
  intros s es o r s' e G HO H EN. injection H as <- <-.
  eapply good_keep; eauto.
  - intros v [<-|[]]. split; [auto|discriminate].
  - right. split; [reflexivity|]. exists r. split; [cbn; now rewrite Nat.eqb_refl|].
    destruct EN as (b & l & S & AN & EN). exists b, l. split; [now apply in_l|].
    split; [rewrite att_app; cbn; rewrite app_nil_r; exact AN|]. cbn zeta in *. rewrite att_app, out_app. cbn. rewrite !app_nil_r.
    destruct r as [x|x]; [exact EN|]. destruct EN as [(F & [H|[H|(E & SI & H)]])|(E & SI & H)].
    + left. auto.
    + left. auto.
    + left. split; [auto|]. right; right. repeat split; auto. destruct H as [(c & H)|[H|(e' & y & H)]].
      * left. exists c. now apply in_l.
      * right; left. now apply in_l.
      * right; right. exists e', y. now apply in_l.
    + right. repeat split; auto. now apply in_l.
Qed.

Lemma firstn_all_idx : forall A (l : list A) n, n < length l -> nth_error l (S n) = None -> firstn (S n) l = l.
Proof. intros A l n L N. apply nth_error_None in N. apply firstn_all2. lia. Qed.

Lemma last_snoc : forall A (l : list A) a d, last (l ++ [a]) d = a.
Proof. intros A l a d. induction l as [|b l IH]; [reflexivity|]. cbn. destruct (l ++ [a]) eqn:E; [destruct l; discriminate|exact IH]. Qed.

Lemma good_run1 : forall s es o r ok s' e, good k s es -> op s = Some o -> o_phase o = Posted r ->
  (if o_single o then single s o r else process s o r ok) = (s', e) -> good k s' (es ++ e).
Proof.
  intros s es o r ok s' e G HO PH H. pose proof (g_op _ _ _ G o HO) as R. pose proof R as [R1 R2 R3 R4 R5 R6 R7].
  destruct R1 as (l & P1 & P2 & P3).
  assert (exists n, attempts (o_id o) es = firstn n (map (adopted k) l)) as AN.
  { rewrite <- P2. destruct R6 as [(_ & _ & X & _)|(_ & X & _)]; [exists 0; exact X|exists (S (o_idx o)); exact X]. }
  destruct (o_single o) eqn:SI.
  - destruct (P3 eq_refl) as [LL IX]. destruct l as [|e0 [|? ?]]; try discriminate. cbn in P2.
    destruct R6 as [(K & _)|(K1 & K2 & K3)]; [rewrite K in P2; discriminate|]. rewrite IX, P2 in *. rewrite PH in K3.
    destruct K3 as (errs & Q1 & Q2 & Q3). destruct errs; [|discriminate]. cbn in Q1, K2.
    unfold single in H. rewrite P2 in H. cbn in H. destruct r as [x|].
    + eapply finish_ended; eauto. exists true, [e0]. split; [auto|]. split; [exact AN|]. left. cbn. rewrite Q1, K2. split; [repeat constructor; discriminate|].
      right; left. split; [discriminate|auto].
    + eapply finish_ended; eauto. exists true, [e0]. split; [auto|]. split; [exact AN|]. exists 0. cbn. split; [reflexivity|]. split; [exact K2|].
      exists []. auto.
  - unfold process in H. destruct R6 as [(K0 & K1 & K2 & K3)|(K1 & K2 & K3)].
    + rewrite K0 in H. assert (nth_error (@nil ep) (o_idx o) = None) as N by (destruct (o_idx o); reflexivity). rewrite N in H.
      rewrite K1 in PH. injection PH as <-. eapply finish_ended; eauto. exists false, l. split; [auto|]. split; [exact AN|]. cbn zeta. rewrite <- P2, K0, K2, K3.
      left. split; [constructor|]. left. auto.
    + rewrite PH in K3. destruct K3 as (errs & Q1 & Q2 & Q3).
      destruct (nth_error (o_eps o) (o_idx o)) as [e0|] eqn:NE; [|apply nth_error_None in NE; lia].
      assert (r <> None -> Forall is_err (outcomes (o_id o) es)) as FE.
      { intro RN. rewrite Q1. apply Forall_app. split; [auto|]. repeat constructor. exact RN. }
      destruct (fd s) as [d|] eqn:D.
      * destruct r as [x|].
        -- destruct (o_stop o) eqn:ST.
           ++ eapply finish_ended; eauto. exists false, l. split; [auto|]. split; [exact AN|]. left. split; [apply FE; discriminate|]. right; right. auto.
           ++ destruct (nth_error (o_eps o) (S (o_idx o))) as [e1|] eqn:NE1.
              ** unfold next in H. destruct (attempt s _ e1 ok) as [s2 e2] eqn:AT. injection H as <- <-.
                 pose proof (silent_closing (o_id o) (fd s)) as (S1 & S2 & S3).
                 destruct (running_attempt s (es ++ closing (fd s)) _ _ _ _ _ AT) as (o' & X1 & X2 & X3 & X4 & X5); cbn [o_id o_single o_eps o_idx o_stop o_phase].
                 { exists l. split; [rewrite SI; now apply in_l|]. split; [auto|]. rewrite SI. discriminate. }
                 { exact R2. }
                 { now rewrite res_app, R3, S3. }
                 { intro X; congruence. }
                 { exact NE1. }
                 { rewrite att_app, S1, app_nil_r. exact K2. }
                 { rewrite out_app, S2, app_nil_r, Q1, app_length. cbn. lia. }
                 { rewrite out_app, S2, app_nil_r. apply FE. discriminate. }
                 cbn in X2. eapply good_keep; eauto.
                 { apply only_app; [apply only_closing|exact X4]. }
                 left. exists o'. rewrite app_assoc. auto.
              ** eapply finish_ended; eauto. exists false, l. split; [auto|]. split; [exact AN|]. cbn zeta. rewrite <- P2. left. split; [apply FE; discriminate|].
                 right; left. split; [intro Z; rewrite Z in K1; cbn in K1; lia|]. split; [rewrite K2; apply firstn_all_idx; auto|].
                 rewrite Q1. apply last_snoc.
        -- eapply finish_ended; eauto. exists false, l. split; [auto|]. split; [exact AN|]. cbn zeta. rewrite <- P2. exists (o_idx o). split; [auto|]. split; [auto|].
           exists errs. auto.
      * eapply finish_ended; eauto. exists false, l. split; [auto|]. split; [exact AN|]. cbn zeta. destruct r as [x|].
        -- left. split; [apply FE; discriminate|]. right; right. split; [auto|]. split; [auto|]. right. apply (R5 eq_refl). intro Z. rewrite Z in K1. cbn in K1. lia.
        -- right. split; [auto|]. split; [auto|].
           destruct (in_dec (fun a b : nat => Nat.eq_dec a b) (o_id o) (flat_map (fun v => match v with EShut j => [j] | _ => [] end) es)) as [I|I].
           ++ apply in_flat_map in I. destruct I as (v & V1 & V2). destruct v; cbn in V2; try tauto. destruct V2 as [->|[]]. exact V1.
           ++ exfalso. destruct (R7 (or_intror PH)) as (d & _ & X & _); [|congruence].
              intro X. apply I. apply in_flat_map. exists (EShut (o_id o)). split; [exact X|now left].
Qed.

Theorem good_step : forall s es l s' e, good k s es -> exec k l s = Some (s', e) -> good k s' (es ++ e).
Proof.
  intros s es l s' e G H. destruct l; cbn [exec] in H.
  - (* open *)
    destruct (fd s) as [d|] eqn:D, ok; injection H as <- <-; rewrite ?app_nil_r; auto.
    destruct (op s) as [o|] eqn:O.
    + eapply good_keep; eauto; [intros v [<-|[]]; split; [auto|discriminate]|]. left. exists o. split; [auto|]. split; [auto|].
      apply (running_more s); [apply (g_op _ _ _ G o O)|reflexivity|repeat split|discriminate|intros d' E; congruence|intros [X|[]]; discriminate X].
    + eapply good_idle; eauto. intros v [<-|[]]. reflexivity.
  - (* option *)
    destruct (fd s) as [d|] eqn:D; [|discriminate]. injection H as <- <-.
    destruct (op s) as [o|] eqn:O.
    + eapply good_keep; eauto; [intros ? []|]. left. exists o. split; [auto|]. split; [auto|].
      apply (running_more s); [apply (g_op _ _ _ G o O)|reflexivity|repeat split|discriminate|intros d' E; right; exists (mkd (d_id d) (d_proto d) (v :: d_opts d)); rewrite D in E; injection E as <-; auto|intros []].
    + eapply good_idle; eauto. intros w [].
  - (* close *)
    destruct (op s) as [o|] eqn:O.
    + destruct (abort o) as [o' ea] eqn:A. injection H as <- <-.
      destruct (running_abort s es (mk None (fresh s) (count s) (Some o')) (EShut (o_id o) :: closing (fd s)) o (o_stop o) o' ea) as (X1 & X2 & X3); auto.
      * apply (g_op _ _ _ G o O).
      * destruct (fd s); repeat split.
      * intros _. left. now left.
      * intros d E. left. now left.
      * destruct o; exact A.
      * eapply good_keep; eauto.
        { apply only_cons; [reflexivity|discriminate|]. apply only_app; [apply only_closing|auto]. }
        left. exists o'. auto.
    + injection H as <- <-. eapply good_idle; eauto. intros v V. destruct (fd s); cbn in V; [destruct V as [<-|[]]; reflexivity|destruct V].
  - (* cancel *)
    destruct (op s) as [o|] eqn:O.
    + destruct (abort o) as [o' ea] eqn:A. injection H as <- <-.
      destruct (running_abort s es (mk (fd s) (fresh s) (count s) (Some o')) [ECancel (o_id o)] o (o_stop o) o' ea) as (X1 & X2 & X3); auto.
      * apply (g_op _ _ _ G o O).
      * repeat split.
      * intros d E. right. eauto.
      * destruct o; exact A.
      * eapply good_keep; eauto.
        { apply only_cons; [reflexivity|discriminate|auto]. }
        left. exists o'. auto.
    + injection H as <- <-. rewrite app_nil_r. exact G.
  - (* connect to one *)
    destruct (op s) as [o|] eqn:O; [discriminate|].
    assert (silent (count s) es) as (S1 & S2 & S3).
    { apply quiet_attempts. intros v V A. pose proof (g_new _ _ _ G v _ V A). lia. }
    destruct (fd s) as [d|] eqn:D.
    + injection H as <- <-.
      eapply good_begin; eauto; [intros v [<-|[]]; split; [auto|discriminate]|reflexivity|reflexivity|].
      constructor; cbn; auto.
      * exists [e0]. split; [apply in_r; now left|auto].
      * now rewrite res_app, S3.
      * discriminate.
      * discriminate.
      * right. split; [lia|]. rewrite att_app, out_app, S1, S2. cbn. rewrite Nat.eqb_refl. split; [reflexivity|]. split; [reflexivity|]. split; [constructor|discriminate].
      * intros _ _. exists d, (adopted k e0). repeat split; auto; [|discriminate]. apply in_r. right. now left.
    + destruct (attempt _ _ (adopted k e0) ok) as [s2 e2] eqn:AT. injection H as <- <-.
      destruct (running_attempt _ (es ++ [EStart (count s) true [e0]]) _ _ _ _ _ AT) as (o' & X1 & X2 & X3 & X4 & X5); cbn; auto.
      { exists [e0]. split; [apply in_r; now left|auto]. }
      { now rewrite res_app, S3. }
      { discriminate. }
      { now rewrite att_app, S1. }
      { now rewrite out_app, S2. }
      { rewrite out_app, S2. constructor. }
      cbn in X2, X5. rewrite <- app_assoc in X3. eapply good_begin; eauto.
  - (* connect to a sequence *)
    destruct (op s) as [o|] eqn:O; [discriminate|].
    assert (silent (count s) es) as (S1 & S2 & S3).
    { apply quiet_attempts. intros v V A. pose proof (g_new _ _ _ G v _ V A). lia. }
    destruct (map (adopted k) l) as [|e1 eps] eqn:M.
    + injection H as <- <-. eapply good_begin; eauto; [intros v []|reflexivity|reflexivity|].
      constructor; cbn; auto.
      * exists l. split; [apply in_r; now left|]. split; [auto|discriminate].
      * now rewrite res_app, S3.
      * discriminate.
      * intros _ X. congruence.
      * left. rewrite att_app, out_app, S1, S2. auto.
      * intros [X|X]; discriminate.
    + destruct (next _ _ e1 ok) as [s2 e2] eqn:NX. injection H as <- <-. unfold next in NX.
      destruct (attempt _ _ e1 ok) as [s3 e3] eqn:AT. injection NX as <- <-. cbn [fd].
      pose proof (silent_closing (count s) (fd s)) as (T1 & T2 & T3).
      destruct (running_attempt _ (es ++ EStart (count s) false l :: closing (fd s)) _ _ _ _ _ AT) as (o' & X1 & X2 & X3 & X4 & X5); cbn; auto.
      { exists l. split; [apply in_r; now left|]. split; [auto|discriminate]. }
      { rewrite res_app, S3. exact T3. }
      { discriminate. }
      { rewrite att_app, S1. exact T1. }
      { rewrite out_app, S2. change (length (outcomes (count s) (closing (fd s))) = 0). now rewrite T2. }
      { rewrite out_app, S2. change (Forall is_err (outcomes (count s) (closing (fd s)))). rewrite T2. constructor. }
      cbn in X2, X5. rewrite <- app_assoc in X3. eapply good_begin; eauto. apply only_app; [apply only_closing|exact X4].
  - (* signal *)
    destruct (op s) as [o|] eqn:O; [|discriminate]. destruct (passes o c) eqn:PS.
    + destruct (abort _) as [o' ea] eqn:A. injection H as <- <-.
      destruct (running_abort s es (mk (fd s) (fresh s) (count s) (Some o')) [EStop (o_id o) c] o true o' ea) as (X1 & X2 & X3); auto.
      * apply (g_op _ _ _ G o O).
      * repeat split.
      * intros d E. right. eauto.
      * intros _. right. exists c. now left.
      * eapply good_keep; eauto.
        { apply only_cons; [reflexivity|discriminate|auto]. }
        left. exists o'. auto.
    + injection H as <- <-. eapply good_keep; eauto; [intros v [<-|[]]; split; [auto|discriminate]|].
      left. exists o. split; [auto|]. split; [auto|].
      apply (running_more s); [apply (g_op _ _ _ G o O)|reflexivity|repeat split|auto|intros d E; right; eauto|intros [X|[]]; discriminate X].
  - (* the system answers *)
    destruct (op s) as [o|] eqn:O; [|discriminate]. destruct (o_phase o) as [|?] eqn:PH; [|discriminate]. injection H as <- <-.
    pose proof (g_op _ _ _ G o O) as [R1 R2 R3 R4 R5 R6 R7].
    eapply good_keep; eauto; [intros v [<-|[]]; split; [auto|discriminate]|].
    left. eexists. split; [reflexivity|]. split; [reflexivity|]. constructor; cbn; auto.
    + destruct R1 as (l & P & Q). exists l. split; [now apply in_l|exact Q].
    + now rewrite res_app, R3.
    + intro S. destruct (R4 S) as (c & K). exists c. now apply in_l.
    + intros N NN. destruct (R5 N NN) as [K|(e' & x & K)]; [left; now apply in_l|right; exists e', x; now apply in_l].
    + right. rewrite att_app, out_app. cbn. rewrite Nat.eqb_refl, app_nil_r.
      destruct R6 as [(_ & K & _)|(P & Q & K)]; [congruence|]. rewrite PH in K. destruct K as (K1 & K2 & K3).
      split; [auto|]. split; [auto|]. exists (outcomes (o_id o) es). auto.
    + intros _ NC. destruct (R7 (or_introl PH)) as (d & e' & P & Q & U & V); [intro X; apply NC; now apply in_l|].
      exists d, e'. repeat split; auto. now apply in_l.
  - (* the completion runs *)
    destruct (op s) as [o|] eqn:O; [|discriminate]. destruct (o_phase o) as [|r] eqn:PH; [discriminate|]. injection H as H.
    eapply good_run1; eauto.
Qed.

Lemma good_init : good k init [].
Proof.
  constructor; cbn; intros; try tauto; try lia; try discriminate.
Qed.

Theorem good_run : forall ls s es, run k ls init = Some (s, es) -> good k s es.
Proof. apply hist_ind; [exact good_init|]. intros. eapply good_step; eauto. Qed.

End good.
