(** Invariants for C89 *)
From Coq Require Import List Bool Arith Lia.
From Verif Require Import Rdy_Model Rdy_Spec.
Import ListNotations.

Definition cnt (d : nat) (l : list nat) : nat := count_occ Nat.eq_dec l d.
Lemma cnt_app : forall d a b, cnt d (a ++ b) = cnt d a + cnt d b.
Proof. intros. apply count_occ_app. Qed.
Lemma cnt_one : forall d e, cnt d [e] = if e =? d then 1 else 0.
Proof. intros. unfold cnt. cbn. destruct (Nat.eq_dec e d), (Nat.eqb_spec e d); congruence. Qed.
Lemma cnt_cons : forall d e l, cnt d (e :: l) = (if e =? d then 1 else 0) + cnt d l.
Proof. intros. unfold cnt. cbn. destruct (Nat.eq_dec e d), (Nat.eqb_spec e d); try congruence; reflexivity. Qed.
Lemma cnt_in : forall d l, In d l <-> cnt d l > 0.
Proof. intros. apply count_occ_In. Qed.
Lemma cnt_nodup : forall l, (forall d, cnt d l <= 1) -> NoDup l.
Proof. intros. now apply (NoDup_count_occ Nat.eq_dec). Qed.
Lemma cnt_nil : forall d, cnt d [] = 0. Proof. reflexivity. Qed.
Arguments cnt : simpl never.

Lemma arrived_app : forall a b, arrived (a ++ b) = arrived a ++ arrived b. Proof. intros. apply flat_map_app. Qed.
Lemma taken_app : forall a b, taken (a ++ b) = taken a ++ taken b. Proof. intros. apply flat_map_app. Qed.
Lemma takers_app : forall a b, takers (a ++ b) = takers a ++ takers b. Proof. intros. apply flat_map_app. Qed.
Lemma started_app : forall a b, started (a ++ b) = started a ++ started b. Proof. intros. apply flat_map_app. Qed.
Lemma ended_app : forall a b, ended (a ++ b) = ended a ++ ended b. Proof. intros. apply flat_map_app. Qed.

Lemma inc_app : forall a b, increasing (a ++ b) <-> increasing a /\ increasing b /\ (forall x y, In x a -> In y b -> x < y).
Proof.
  induction a as [|z a IH]; intro b; cbn; [intuition|]. rewrite IH. split.
  - intros (A & B & C & D). repeat split; auto; [intros y Y; apply A; apply in_or_app; auto|]. intros x y [<-|X] Y; [apply A; apply in_or_app; auto|auto].
  - intros ((A & B) & C & D). repeat split; auto. intros y Y. apply in_app_or in Y. destruct Y; auto.
Qed.
Lemma inc_filter : forall (f : nat * kind -> bool) l, increasing (map fst l) -> increasing (map fst (filter f l)).
Proof.
  intros f l. induction l as [|p l IH]; cbn; [auto|]. intros (A & B). destruct (f p); [|auto]. cbn. split; [|auto].
  intros y Y. apply A. apply in_map_iff in Y as (q & E & Q). apply filter_In in Q as [Q _]. apply in_map_iff. eauto.
Qed.

Lemma run_app : forall a b s, run (a ++ b) s = match run a s with Some (s1, e1) => match run b s1 with Some (s2, e2) => Some (s2, e1 ++ e2) | None => None end | None => None end.
Proof.
  induction a as [|l a IH]; intros b s; cbn.
  - destruct (run b s) as [[]|]; reflexivity.
  - destruct (step l s) as [[s1 e1]|]; [|reflexivity]. rewrite IH. destruct (run a s1) as [[s2 e2]|]; [|reflexivity].
    destruct (run b s2) as [[s3 e3]|]; [|reflexivity]. now rewrite app_assoc.
Qed.
Lemma hist_ind : forall (Q : state -> list event -> Prop), Q init [] ->
  (forall l s es s' e, Q s es -> step l s = Some (s', e) -> Q s' (es ++ e)) ->
  forall ls s es, run ls init = Some (s, es) -> Q s es.
Proof.
  intros Q B St ls. induction ls as [|l ls IH] using rev_ind; intros s es H; cbn in H.
  - injection H as <- <-. exact B.
  - rewrite run_app in H. destruct (run ls init) as [[s1 e1]|]; [|discriminate]. cbn in H.
    destruct (step l s1) as [[s2 e2]|] eqn:K; [|discriminate]. injection H as <- <-. rewrite app_nil_r. eapply St; eauto.
Qed.

Definition fits (k : kind) (r : res) : Prop :=
  match r with
  | Data bs => exists n, k = KRead n /\ length bs <= n /\ (bs = [] -> n = 0)
  | Eof => exists n, k = KRead n /\ n <> 0
  | Ready => k = KWait
  | _ => True
  end.

(** what operation [i] completes with *)
Definition result (s : state) (es : list event) (i : nat) (r : res) : Prop := In (EDone i r) es \/ In (i, r) (posted s).

Definition why (s : state) (es : list event) (i : nat) (r : res) : Prop :=
  match r with
  | Eof => In EEof es /\ avail s = []
  | Aborted => In (ESignal i) es \/ In ECancel es \/ In EClose es
  | Bad => In EClose es
  | _ => True
  end.

Record good (s : state) (es : list event) : Prop := mkg
  { g_bytes : arrived es = taken es ++ avail s;
    g_eof : eof s = true <-> In EEof es;
    g_open : isopen s = false <-> In EClose es;
    g_n : forall i n, In (i, KRead n) (queue s) -> n <> 0;
    g_inc : increasing (takers es ++ map fst (queue s));
    g_lt : forall i, In i (takers es) -> i < nops s;
    g_st : forall i k, In (i, k) (queue s) -> In (EStart i k) es;
    g_ops : forall i, cnt i (started es) = if i <? nops s then 1 else 0;
    g_end : forall i, cnt i (started es) = cnt i (ended es) + cnt i (map fst (queue s)) + cnt i (map fst (posted s));
    g_take : forall i bs, In (ETake i bs) es <-> (bs <> [] /\ result s es i (Data bs));
    g_fits : forall i r, result s es i r -> exists k, In (EStart i k) es /\ fits k r;
    g_why : forall i r, result s es i r -> why s es i r;
    g_shut : isopen s = false -> queue s = [] /\ ev s = false }.

Lemma good_init : good init [].
Proof.
  constructor; cbn; try reflexivity; try tauto; try (split; [discriminate|intros []]).
  - intros. unfold result. cbn. tauto.
  - intros i r [[]|[]].
  - intros i r [[]|[]].
Qed.

Lemma in_ext : forall (e : event) es a, In e (es ++ a) <-> In e es \/ In e a.
Proof. intros. apply in_app_iff. Qed.

Lemma why_mono : forall s s' es a i r, (avail s = [] -> In EEof es -> avail s' = []) -> why s es i r -> why s' (es ++ a) i r.
Proof.
  intros s s' es a i r E W. destruct r; cbn in *; auto; rewrite ?in_ext; intuition.
Qed.

Lemma queue_lt : forall s es i, good s es -> In i (map fst (queue s)) -> i < nops s.
Proof.
  intros s es i G K. apply cnt_in in K. pose proof (g_end _ _ G i). pose proof (g_ops _ _ G i). destruct (Nat.ltb_spec i (nops s)); lia.
Qed.

Ltac ev := cbn [arrived taken takers started ended flat_map app takes]; rewrite ?app_nil_r.
Ltac evs := rewrite ?arrived_app, ?taken_app, ?takers_app, ?started_app, ?ended_app; ev.
Ltac fields := cbn [avail eof isopen queue Rdy_Model.ev posted nops set next].
Ltac nope := cbn; intuition discriminate.

(** bytes or the end of the stream arrive *)
Lemma good_arrive : forall s es bs, good s es -> eof s = false -> isopen s = true -> 
  good (mk (avail s ++ bs) (eof s) (isopen s) (queue s) (ev s) (posted s) (nops s)) (es ++ [EArrive bs]).
Proof.
  intros s es bs G F O. destruct G. constructor; fields; evs; auto.
  - rewrite g_bytes0, app_assoc. reflexivity.
  - rewrite in_ext, g_eof0. nope.
  - rewrite in_ext, g_open0. nope.
  - intros i k K. rewrite in_ext. auto.
  - intros i bs'. rewrite in_ext, g_take0. unfold result. fields. rewrite in_ext. nope.
  - intros i r K. destruct (g_fits0 i r) as (k & A & B); [unfold result in *; fields; rewrite in_ext in K; cbn in K; intuition discriminate|]. exists k. rewrite in_ext. auto.
  - intros i r K. assert (result s es i r) as K' by (unfold result in *; cbn [posted] in K; rewrite in_ext in K; cbn in K; intuition discriminate).
    apply (why_mono s); [|auto]. intros _ Z. apply g_eof0 in Z. congruence.
Qed.

Lemma good_eof : forall s es, good s es -> good (mk (avail s) true (isopen s) (queue s) (ev s) (posted s) (nops s)) (es ++ [EEof]).
Proof.
  intros s es G. destruct G. constructor; fields; evs; auto.
  - rewrite in_ext. cbn. tauto.
  - rewrite in_ext, g_open0. nope.
  - intros i k K. rewrite in_ext. auto.
  - intros i bs'. rewrite in_ext, g_take0. unfold result. fields. rewrite in_ext. nope.
  - intros i r K. destruct (g_fits0 i r) as (k & A & B); [unfold result in *; fields; rewrite in_ext in K; cbn in K; intuition discriminate|]. exists k. rewrite in_ext. auto.
  - intros i r K. assert (result s es i r) as K' by (unfold result in *; cbn [posted] in K; rewrite in_ext in K; cbn in K; intuition discriminate).
    apply (why_mono s); auto.
Qed.

Lemma good_ev : forall s es b, good s es -> isopen s = true -> good (mk (avail s) (eof s) (isopen s) (queue s) b (posted s) (nops s)) es.
Proof. intros s es b G O. destruct G. constructor; auto. fields. congruence. Qed.

(** an operation begins and is queued *)
Lemma good_enqueue : forall s es k, good s es -> isopen s = true -> (forall n, k = KRead n -> n <> 0) ->
  good (set (avail s) (queue s ++ [(nops s, k)]) (posted s) (next s)) (es ++ [EStart (nops s) k]).
Proof.
  intros s es k G O N. pose proof (queue_lt s es) as QL. destruct G. constructor; fields; evs; auto.
  - rewrite in_ext, g_eof0. nope.
  - rewrite in_ext, g_open0. nope.
  - intros i n K. apply in_app_or in K. destruct K as [K|[K|[]]]; [eauto|injection K as _ K; eauto].
  - rewrite map_app. cbn. rewrite app_assoc. apply inc_app. split; [exact g_inc0|]. split; [cbn; tauto|].
    intros x y X [<-|[]]. apply in_app_or in X. destruct X as [X|X]; [auto|]. apply QL; [constructor; auto|exact X].
  - intros i K. apply Nat.lt_lt_succ_r. auto.
  - intros i k' K. rewrite in_ext. apply in_app_or in K. destruct K as [K|[K|[]]]; [auto|injection K as <- <-; right; now left].
  - intro i. rewrite cnt_app, cnt_one, g_ops0. destruct (Nat.ltb_spec i (nops s)), (Nat.ltb_spec i (S (nops s))), (Nat.eqb_spec (nops s) i); lia.
  - intro i. rewrite map_app, !cnt_app, g_end0. cbn [map fst]. lia.
  - intros i bs'. rewrite in_ext, g_take0. unfold result. fields. rewrite in_ext. nope.
  - intros i r K. destruct (g_fits0 i r) as (k' & A & B); [unfold result in *; cbn [posted set next] in *; rewrite in_ext in K; cbn in K; intuition discriminate|]. exists k'. rewrite in_ext. auto.
  - intros i r K. assert (result s es i r) as K' by (unfold result in *; cbn [posted set next] in K; rewrite in_ext in K; cbn in K; intuition discriminate).
    apply (why_mono s); auto.
  - congruence.
Qed.

(** an operation begins and is complete without the queue *)
Lemma good_instant : forall s es k r, good s es -> fits k r -> (forall bs, r = Data bs -> bs = []) -> why s es (nops s) r ->
  good (set (avail s) (queue s) (posted s ++ [(nops s, r)]) (next s)) (es ++ [EStart (nops s) k]).
Proof.
  intros s es k r G F D W. destruct G. constructor; fields; evs; auto.
  - rewrite in_ext, g_eof0. nope.
  - rewrite in_ext, g_open0. nope.
  - intros i K. apply Nat.lt_lt_succ_r. auto.
  - intros i k' K. rewrite in_ext. auto.
  - intro i. rewrite cnt_app, cnt_one, g_ops0. destruct (Nat.ltb_spec i (nops s)), (Nat.ltb_spec i (S (nops s))), (Nat.eqb_spec (nops s) i); lia.
  - intro i. rewrite map_app, !cnt_app, g_end0. cbn [map fst]. lia.
  - intros i bs. rewrite in_ext, g_take0. unfold result. fields. rewrite in_ext, in_app_iff. split.
    + intros [(A & [B|B])|[B|[]]]; [auto|auto|discriminate B].
    + intros (A & [[B|[B|[]]]|[B|[B|[]]]]); auto; [discriminate B|]. injection B as -> ->. contradiction (A (D bs eq_refl)).
  - intros i r' K. unfold result in K. cbn [posted set next] in K. rewrite in_ext, in_app_iff in K.
    destruct K as [[K|[K|[]]]|[K|[K|[]]]]; [|discriminate K| |].
    + destruct (g_fits0 i r' (or_introl K)) as (k' & A & B). exists k'. rewrite in_ext. auto.
    + destruct (g_fits0 i r' (or_intror K)) as (k' & A & B). exists k'. rewrite in_ext. auto.
    + injection K as <- <-. exists k. split; [apply in_ext; right; now left|exact F].
  - intros i r' K. unfold result in K. cbn [posted set next] in K. rewrite in_ext, in_app_iff in K. apply (why_mono s); [auto|].
    destruct K as [[K|[K|[]]]|[K|[K|[]]]]; [apply g_why0; now left|discriminate K|apply g_why0; now right|injection K as <- <-; exact W].
Qed.

(** a completion is delivered *)
Lemma good_deliver : forall s es a i r b, good s es -> posted s = a ++ (i, r) :: b -> good (set (avail s) (queue s) (a ++ b) s) (es ++ [EDone i r]).
Proof.
  intros s es a i r b G P. destruct G.
  assert (forall j r', result (set (avail s) (queue s) (a ++ b) s) (es ++ [EDone i r]) j r' <-> result s es j r') as RS.
  { intros j r'. unfold result. fields. rewrite P, in_ext, !in_app_iff. cbn. split; [intros [[K|[K|[]]]|[K|K]]|intros [K|[K|[K|K]]]]; auto; try (injection K as -> ->; auto). }
  constructor; fields; evs; auto.
  - rewrite in_ext, g_eof0. nope.
  - rewrite in_ext, g_open0. nope.
  - intros j k K. rewrite in_ext. auto.
  - intro j. rewrite g_end0, P, !map_app, !cnt_app. cbn [map fst]. rewrite (cnt_cons j i), cnt_one. lia.
  - intros j bs. rewrite RS, <- g_take0, in_ext. nope.
  - intros j r' K. apply RS in K. destruct (g_fits0 j r' K) as (k & A & B). exists k. rewrite in_ext. auto.
  - intros j r' K. apply RS in K. apply (why_mono s); auto.
Qed.

(** the first queued operation is performed *)
Lemma good_perform : forall s es i k q r a, good s es -> queue s = (i, k) :: q ->
  ((k = KWait /\ r = Ready /\ a = avail s) \/ exists n, k = KRead n /\ receive n s = Some (r, a)) ->
  good (set a q (posted s ++ [(i, r)]) s) (es ++ takes i r).
Proof.
  intros s es i k q r a G Q H.
  assert (In (EStart i k) es) as ST by (apply (g_st _ _ G); rewrite Q; now left).
  assert (forall n, k = KRead n -> n <> 0) as NZ by (intros n ->; apply (g_n _ _ G i n); rewrite Q; now left).
  assert (fits k r /\ avail s = taken (takes i r) ++ a /\ (forall bs, r = Data bs -> bs <> []) /\ (r = Eof -> eof s = true /\ a = []) /\ (avail s = [] -> a = []) /\ r <> Aborted /\ r <> Bad) as (F & AV & ND & FE & EM & NA & NB).
  { destruct H as [(-> & -> & ->)|(n & -> & R)]; [repeat split; auto; discriminate|]. specialize (NZ n eq_refl). unfold receive in R.
    destruct (avail s) as [|x l] eqn:A.
    - destruct (eof s) eqn:E; [|discriminate]. injection R as <- <-. repeat split; auto; try discriminate. exists n. auto.
    - injection R as <- <-. destruct n as [|n]; [contradiction|]. split; [|split; [|split; [|split; [|split; [|split]]]]]; try discriminate.
      + exists (S n). split; [reflexivity|]. split; [rewrite firstn_length; lia|discriminate].
      + ev. symmetry. apply firstn_skipn.
      + intros bs K. injection K as <-. discriminate. }
  assert (forall j r', result (set a q (posted s ++ [(i, r)]) s) (es ++ takes i r) j r' <-> (result s es j r' \/ (j = i /\ r' = r))) as RS.
  { intros j r'. unfold result. fields. rewrite in_ext, in_app_iff. assert (~ In (EDone j r') (takes i r)) by (destruct r; cbn; intuition discriminate). cbn.
    split; [intros [[K|K]|[K|[K|[]]]]; auto; [contradiction|injection K as <- <-; auto]|intros [[K|K]|[-> ->]]; auto]. }
  destruct G. constructor; fields; evs; auto.
  - assert (arrived (takes i r) = []) as -> by (destruct r; reflexivity). rewrite app_nil_r, g_bytes0, AV, app_assoc. reflexivity.
  - rewrite in_ext, g_eof0. destruct r; nope.
  - rewrite in_ext, g_open0. destruct r; nope.
  - intros j n K. apply (g_n0 j n). rewrite Q. now right.
  - rewrite Q in g_inc0. cbn [map fst] in g_inc0. apply inc_app in g_inc0 as (A & (B1 & B2) & C). destruct r; ev; try (apply inc_app; repeat split; auto; intros; apply C; auto; now right).
    rewrite <- app_assoc. apply inc_app. split; [exact A|]. split; [split; assumption|exact C].
  - intros j K. apply in_app_or in K. destruct K as [K|K]; [auto|]. assert (j = i) as -> by (destruct r; cbn in K; intuition).
    assert (cnt i (started es) > 0) as SI by (apply cnt_in; unfold started; apply in_flat_map; exists (EStart i k); split; [exact ST|now left]).
    rewrite g_ops0 in SI. destruct (Nat.ltb_spec i (nops s)); lia.
  - intros j k' K. rewrite in_ext. left. apply g_st0. rewrite Q. now right.
  - intro j. assert (started (takes i r) = []) as -> by (destruct r; reflexivity). rewrite app_nil_r. auto.
  - intro j. assert (started (takes i r) = []) as -> by (destruct r; reflexivity). assert (ended (takes i r) = []) as -> by (destruct r; reflexivity).
    rewrite !app_nil_r, g_end0, Q, map_app, cnt_app. cbn [map fst]. rewrite (cnt_cons j i), cnt_one. lia.
  - intros j bs. rewrite RS, in_ext, g_take0. split.
    + intros [(A & B)|K]; [auto|]. destruct r; cbn in K; try contradiction. destruct K as [K|[]]. injection K as -> ->. split; [now apply ND|auto].
    + intros (A & [B|(-> & <-)]); [auto|]. right. now left.
  - intros j r' K. apply RS in K as [K|(-> & ->)]; [|exists k; rewrite in_ext; auto]. destruct (g_fits0 j r' K) as (k' & A & B). exists k'. rewrite in_ext. auto.
  - intros j r' K. apply RS in K as [K|(-> & ->)]; [apply (why_mono s); auto|]. destruct r; cbn; auto; try contradiction. rewrite in_ext. destruct (FE eq_refl). split; [left; now apply g_eof0|auto].
  - intro O. destruct (g_shut0 O) as [A B]. rewrite Q in A. discriminate.
Qed.

(** queued operations are aborted *)
Lemma split_cnt : forall (f : nat -> bool) (l : list (nat * kind)) j,
  cnt j (map fst l) = cnt j (map fst (filter (fun p => negb (f (fst p))) l)) + cnt j (map (fun p => fst p) (filter (fun p => f (fst p)) l)).
Proof.
  intros f l j. induction l as [|p l IH]; [reflexivity|]. cbn [map filter]. rewrite cnt_cons, IH. destruct (f (fst p)); cbn [negb map fst]; rewrite (cnt_cons j (fst p)); lia.
Qed.

Lemma good_cut : forall f s es e o v, good s es ->
  (e = ECancel \/ (exists i, e = ESignal i /\ f = Nat.eqb i)) /\ o = isopen s /\ v = ev s \/ e = EClose /\ o = false /\ v = false /\ f = (fun _ => true) ->
  good (mk (avail (abort f s)) (eof (abort f s)) o (queue (abort f s)) v (posted (abort f s)) (nops (abort f s))) (es ++ [e]).
Proof.
  intros f s es e o v G H0. assert (e = ECancel \/ e = EClose \/ exists i, e = ESignal i /\ f = Nat.eqb i) as H by (destruct H0 as [([A|A] & _)|(A & _)]; auto).
  destruct G.
  assert (arrived [e] = [] /\ taken [e] = [] /\ takers [e] = [] /\ started [e] = [] /\ ended [e] = []) as (E1 & E2 & E3 & E4 & E5) by (destruct H as [->|[->|(i & -> & _)]]; repeat split; reflexivity).
  assert (forall j r', In (EDone j r') [e] -> False) as E6 by (intros j r'; destruct H as [->|[->|(i & -> & _)]]; cbn; intuition discriminate).
  assert (forall j r', In (ETake j r') [e] -> False) as E7 by (intros j r'; destruct H as [->|[->|(i & -> & _)]]; cbn; intuition discriminate).
  set (s1 := mk (avail (abort f s)) (eof (abort f s)) o (queue (abort f s)) v (posted (abort f s)) (nops (abort f s))).
  assert (forall j r', result s1 (es ++ [e]) j r' <-> (result s es j r' \/ (r' = Aborted /\ f j = true /\ exists k, In (j, k) (queue s)))) as RS.
  { intros j r'. unfold result, s1, abort. fields. rewrite in_ext, in_app_iff. split.
    - intros [[K|K]|[K|K]]; auto; [contradiction (E6 _ _ K)|]. right. apply in_map_iff in K as ([u w] & E & K). apply filter_In in K as [K B]. cbn in *. injection E as <- <-. eauto.
    - intros [[K|K]|(-> & B & k & K)]; auto. right. right. apply in_map_iff. exists (j, k). split; [reflexivity|]. apply filter_In. auto. }
  constructor; try (match goal with |- context [result _ _ _ _] => fail 1 | _ => unfold s1, abort; fields end); rewrite ?arrived_app, ?taken_app, ?takers_app, ?started_app, ?ended_app, ?E1, ?E2, ?E3, ?E4, ?E5, ?app_nil_r; auto.
  - rewrite in_ext, g_eof0. destruct H as [->|[->|(i & -> & _)]]; nope.
  - rewrite in_ext. destruct H0 as [([->|(i & -> & _)] & -> & _)|(-> & -> & _)]; rewrite ?g_open0; cbn; intuition discriminate.
  - intros j n K. apply filter_In in K as [K _]. eauto.
  - apply inc_app in g_inc0 as (A & B & C). apply inc_app. split; [exact A|]. split; [now apply inc_filter|].
    intros x y X Y. apply C; [exact X|]. apply in_map_iff in Y as (p & E & Y). apply filter_In in Y as [Y _]. apply in_map_iff. eauto.
  - intros j k K. apply filter_In in K as [K _]. rewrite in_ext. auto.
  - intro j. rewrite g_end0, map_app, cnt_app, map_map. cbn [fst]. rewrite (split_cnt f (queue s) j). lia.
  - intros j bs. rewrite RS, in_ext, g_take0. split; [intros [(A & B)|K]; [auto|contradiction (E7 _ _ K)]|]. intros (A & [B|(B & _)]); [auto|discriminate B].
  - intros j r' K. apply RS in K as [K|(-> & B & k & K)]; [|exists k; rewrite in_ext; split; [left; auto|exact I]]. destruct (g_fits0 j r' K) as (k' & A & B). exists k'. rewrite in_ext. auto.
  - intros j r' K. apply RS in K as [K|(-> & B & k & K)]; [apply (why_mono s); auto|]. cbn. rewrite !in_ext. destruct H as [->|[->|(i & -> & ->)]]; [cbn; auto..|]. apply Nat.eqb_eq in B as ->. cbn. auto.
  - intro O. destruct H0 as [(_ & -> & ->)|(_ & -> & -> & ->)].
    + destruct (g_shut0 O) as [A B]. rewrite A. auto.
    + split; [|reflexivity]. clear. induction (queue s); [reflexivity|exact IHl].
Qed.

Lemma good_serve : forall q s es s' e, good s es -> queue s = q -> serve q s = (s', e) -> good s' (es ++ e).
Proof.
  induction q as [|[i k] q IH]; intros s es s' e G Q H; cbn [serve] in H.
  - injection H as <- <-. rewrite app_nil_r. rewrite <- Q. destruct s; exact G.
  - destruct k as [n|].
    + destruct (receive n s) as [[r a]|] eqn:R.
      * destruct (serve q (set a q (posted s ++ [(i, r)]) s)) as [s1 e1] eqn:S1. injection H as <- <-. rewrite app_assoc. apply (IH (set a q (posted s ++ [(i, r)]) s)); [|reflexivity|exact S1].
        eapply good_perform; [exact G|exact Q|right; eauto].
      * injection H as <- <-. rewrite app_nil_r. rewrite <- Q. destruct s; exact G.
    + apply (IH (set (avail s) q (posted s ++ [(i, Ready)]) s)); [|reflexivity|exact H]. rewrite <- (app_nil_r es).
      apply (good_perform s es i KWait q Ready (avail s)); auto.
Qed.

Lemma good_complete : forall imm s es p i r s' e, good s es -> posted s = p ++ [(i, r)] -> complete imm i r (set (avail s) (queue s) p s) = (s', e) -> good s' (es ++ e).
Proof.
  intros imm s es p i r s' e G P H. unfold complete in H. destruct imm; injection H as <- <-.
  - replace p with (p ++ []) by apply app_nil_r. now apply good_deliver.
  - rewrite app_nil_r. fields. rewrite <- P. destruct s; exact G.
Qed.

Lemma good_step : forall l s es s' e, good s es -> step l s = Some (s', e) -> good s' (es ++ e).
Proof.
  intros l s es s' e G H. destruct l; cbn [step] in H.
  - destruct (eof s) eqn:E, (isopen s) eqn:O; try discriminate. injection H as <- <-. pose proof (good_arrive s es bs G E O) as K. rewrite O, E in K. exact K.
  - destruct (eof s) eqn:E, (isopen s) eqn:O; try discriminate. injection H as <- <-. pose proof (good_eof s es G) as K. rewrite O in K. exact K.
  - assert (forall r, fits (KRead n) r -> (forall bs, r = Data bs -> bs = []) -> why s es (nops s) r -> forall s1 e1, complete imm (nops s) r (next s) = (s1, e1) -> good s1 (es ++ EStart (nops s) (KRead n) :: e1)) as INST.
    { intros r F D W s1 e1 C. change (EStart (nops s) (KRead n) :: e1) with ([EStart (nops s) (KRead n)] ++ e1). rewrite app_assoc.
      eapply (good_complete imm _ _ (posted s) (nops s) r); [apply (good_instant s es (KRead n) r G F D W)|reflexivity|]. exact C. }
    destruct (Nat.eqb_spec n 0) as [->|NZ].
    { destruct (complete imm (nops s) (Data []) (next s)) as [s1 e1] eqn:C. injection H as <- <-. eapply INST; [| | |exact C]; [exists 0; auto|intros bs B; injection B as <-; reflexivity|exact I]. }
    destruct (isopen s) eqn:O; cbn [negb] in H.
    2: { destruct (complete imm (nops s) Bad (next s)) as [s1 e1] eqn:C. injection H as <- <-. eapply INST; [| | |exact C]; [exact I|discriminate|]. cbn. now apply (g_open _ _ G). }
    assert (good (set (avail s) (queue s ++ [(nops s, KRead n)]) (posted s) (next s)) (es ++ [EStart (nops s) (KRead n)])) as Q by (apply good_enqueue; [auto|auto|intros m E; injection E as <-; exact NZ]).
    destruct (queue s) as [|x q] eqn:QU; [|injection H as <- <-; exact Q]. destruct (receive n s) as [[r a]|] eqn:R; [|injection H as <- <-; exact Q].
    destruct (complete imm (nops s) r (set a [] (posted s) (next s))) as [s1 e1] eqn:C. injection H as <- <-.
    change (EStart (nops s) (KRead n) :: takes (nops s) r ++ e1) with ([EStart (nops s) (KRead n)] ++ takes (nops s) r ++ e1). rewrite !app_assoc.
    eapply (good_complete imm _ _ (posted s) (nops s) r).
    + eapply (good_perform _ _ (nops s) (KRead n) [] r a Q); [reflexivity|]. right. exists n. split; [reflexivity|exact R].
    + reflexivity.
    + exact C.
  - destruct (isopen s) eqn:O; cbn [negb] in H.
    + destruct (avail s) as [|x l] eqn:A; injection H as <- <-.
      * rewrite <- A. apply good_enqueue; auto. discriminate.
      * change [EStart (nops s) KWait; EDone (nops s) Ready] with ([EStart (nops s) KWait] ++ [EDone (nops s) Ready]). rewrite app_assoc.
        eapply (good_complete true _ _ (posted s) (nops s) Ready); [apply (good_instant s es KWait Ready G); [reflexivity|discriminate|exact I]|reflexivity|reflexivity].
    + injection H as <- <-. change [EStart (nops s) KWait; EDone (nops s) Bad] with ([EStart (nops s) KWait] ++ [EDone (nops s) Bad]). rewrite app_assoc.
      eapply (good_complete true _ _ (posted s) (nops s) Bad); [apply (good_instant s es KWait Bad G); [exact I|discriminate|now apply (g_open _ _ G)]|reflexivity|reflexivity].
  - destruct (queue s) as [|x q] eqn:Q; [discriminate|]. destruct (match avail s with [] => eof s | _ => true end); [|discriminate]. destruct (isopen s) eqn:O; [|discriminate].
    injection H as <- <-. rewrite app_nil_r. pose proof (good_ev s es true G O) as K. rewrite O, Q in K. exact K.
  - destruct (ev s) eqn:E; [|discriminate]. injection H as H. assert (isopen s = true) as O by (destruct (isopen s) eqn:O; [reflexivity|destruct (g_shut _ _ G O); congruence]).
    eapply (good_serve (queue s) (mk (avail s) (eof s) (isopen s) (queue s) false (posted s) (nops s))); [|reflexivity|exact H]. apply good_ev; auto.
  - destruct (posted s) as [|[i r] p] eqn:P; [discriminate|]. injection H as <- <-. apply (good_deliver s es [] i r p); auto.
  - injection H as <- <-. apply (good_cut (Nat.eqb i) s es (ESignal i) (isopen s) (ev s)); auto. left. repeat split; auto. right. eauto.
  - injection H as <- <-. apply (good_cut (fun _ => true) s es ECancel (isopen s) (ev s)); auto.
  - injection H as <- <-. apply (good_cut (fun _ => true) s es EClose false false); auto.
Qed.

Theorem good_run : forall ls s es, run ls init = Some (s, es) -> good s es.
Proof. apply hist_ind; [apply good_init|]. intros. eapply good_step; eauto. Qed.
