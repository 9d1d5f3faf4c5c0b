(** C90: several coroutines write to one stream *)
From Coq Require Import List Bool Arith Lia.
From Verif Require Import Wrt_Model Wrt_Spec Wrt_Inv.
Import ListNotations.

(** what a write puts into the stream is at all times the beginning of what it was given, whatever other writes do *)
Theorem C90_prefix : forall ls s es i, run ls init = Some (s, es) ->
  bytes i es = [] \/ exists d, starts i es = [d] /\ exists k, k <= length d /\ bytes i es = firstn k d.
Proof.
  intros ls s es i H. apply good_run in H as (G & _). specialize (G i). unfold igood in G. destruct (ws s i) as [w|]; [|left; tauto].
  right. destruct G as (_ & d & W). exists d. split; [apply (w_start _ _ _ _ W)|]. exists (m w + infl w). split; [apply (w_len _ _ _ _ W)|apply (w_bytes _ _ _ _ W)].
Qed.
Print Assumptions C90_prefix.

(** a write begins and ends once, and the count it gives is what it has put into the stream: all of it unless there is an error *)
Theorem C90_count : forall ls s es i, run ls init = Some (s, es) ->
  (starts i es = [] /\ results i es = [] /\ bytes i es = []) \/
  exists d, starts i es = [d] /\
    (results i es = [] \/ exists r n, results i es = [(r, n)] /\ n <= length d /\ bytes i es = firstn n d /\ (r = None -> n = length d)).
Proof.
  intros ls s es i H. apply good_run in H as (G & _). specialize (G i). unfold igood in G. destruct (ws s i) as [w|]; [|left; tauto].
  right. destruct G as (_ & d & [A B D E F P]). exists d. split; auto. unfold infl in *. destruct (ph w); [left; tauto|left; tauto|].
  destruct P as (r & P & Q & R). right. exists r, (m w). rewrite Nat.add_0_r in *. repeat (split; auto). intro K. now apply R.
Qed.
Print Assumptions C90_count.

(** errors have a reason *)
Theorem C90_errors : forall ls s es i n, run ls init = Some (s, es) ->
  (In (EDone i (Some EAborted) n) es -> In (ESignal i) es \/ In ECancel es) /\
  (In (EDone i (Some EOther) n) es -> In (EFail i) es) /\
  (In (EDone i None n) es -> ~ In (ESignal i) es).
Proof.
  intros ls s es i n H. apply good_run in H as (G & _). specialize (G i). unfold igood in G.
  assert (forall r, In (EDone i r n) es -> In (r, n) (results i es)) as IN
    by (intros r K; unfold results; apply in_flat_map; exists (EDone i r n); split; [exact K|]; rewrite Nat.eqb_refl; now left).
  destruct (ws s i) as [w|].
  - destruct G as (_ & d & [A B D E F P]). destruct (ph w) eqn:PW.
    1,2: destruct P as (P & _); rewrite P in IN; repeat split; intro K; destruct (IN _ K).
    destruct P as (r & P & Q & R). rewrite P in IN. split; [|split]; intro K; destruct (IN _ K) as [X|[]]; injection X as -> X; auto.
    destruct (R eq_refl) as (_ & CF). intro SG. apply F in SG. congruence.
  - destruct G as (_ & _ & _ & G & _). rewrite G in IN. repeat split; intro K; destruct (IN _ K).
Qed.
Print Assumptions C90_errors.

(** after a cancellation signal, and after its end, a write puts nothing more into the stream; before its beginning it has put nothing *)
Theorem C90_no_more : forall ls s es e1 e2 i bs, run ls init = Some (s, es) -> es = e1 ++ ESent i bs :: e2 ->
  ~ In (ESignal i) e1 /\ results i e1 = [] /\ starts i e1 <> [].
Proof. intros ls s es e1 e2 i bs H E. apply good_run in H as (_ & C). specialize (C _ _ _ E). cbn in C. tauto. Qed.
Print Assumptions C90_no_more.

Lemma in_starts : forall i d es, In (EStart i d) es -> starts i es <> [].
Proof. intros i d es H E. assert (In d (starts i es)) as K by (unfold starts; apply in_flat_map; exists (EStart i d); split; [exact H|]; rewrite Nat.eqb_refl; now left). rewrite E in K. destruct K. Qed.
Lemma bytes_none : forall i es, (forall bs, ~ In (ESent i bs) es) -> bytes i es = [].
Proof.
  induction es as [|x es IH]; intro H; [reflexivity|]. unfold bytes in *. cbn [flat_map]. rewrite IH by (intros bs K; apply (H bs); now right).
  destruct x; auto. destruct (Nat.eqb_spec i0 i) as [->|]; auto. destruct (H bs). now left.
Qed.
Lemma stream_only : forall i es, (forall j bs, In (ESent j bs) es -> j = i) -> stream es = bytes i es.
Proof.
  induction es as [|x es IH]; intro H; [reflexivity|]. unfold stream, bytes in *. cbn [flat_map]. rewrite IH by (intros j bs K; apply (H j bs); now right).
  destruct x; auto. rewrite (H i0 bs) by (now left). now rewrite Nat.eqb_refl.
Qed.

(** a write that is alone, from its beginning to its end, puts its bytes into the stream together *)
Theorem C90_together_partial : forall ls s es e1 e2 e3 i d r n, run ls init = Some (s, es) ->
  es = e1 ++ EStart i d :: e2 ++ EDone i r n :: e3 ->
  quiet e1 -> (forall j, starts j e2 = []) -> stream e2 = firstn n d /\ (r = None -> stream e2 = d).
Proof.
  intros ls s es e1 e2 e3 i d r n H E Q N. apply good_run in H as (G & C). specialize (G i). unfold igood in G.
  assert (In d (starts i es)) as SI by (unfold starts; apply in_flat_map; exists (EStart i d); split; [rewrite E; apply in_app_iff; right; now left|]; rewrite Nat.eqb_refl; now left).
  assert (In (r, n) (results i es)) as RI.
  { unfold results. apply in_flat_map. exists (EDone i r n). split; [|rewrite Nat.eqb_refl; now left].
    rewrite E. apply in_app_iff. right. right. apply in_app_iff. right. now left. }
  destruct (ws s i) as [w|]; [|destruct G as (_ & G & _); rewrite G in SI; destruct SI]. destruct G as (_ & d' & [A B D EE F P]). rewrite A in SI. destruct SI as [->|[]].
  unfold infl in *. destruct (ph w); try (destruct P as (P & _); rewrite P in RI; destruct RI; fail).
  destruct P as (r' & P & _ & R). rewrite P in RI. destruct RI as [X|[]]. injection X as -> X. rewrite X, Nat.add_0_r in *.
  assert (starts i e1 = []) as S1.
  { rewrite E in A. rewrite starts_app in A. change (EStart i d :: e2 ++ EDone i r n :: e3) with ([EStart i d] ++ e2 ++ EDone i r n :: e3) in A. rewrite starts_app in A.
    assert (starts i [EStart i d] = [d]) as O by (unfold starts; cbn; now rewrite Nat.eqb_refl). rewrite O in A. destruct (starts i e1) as [|y q]; [reflexivity|]. injection A as _ A. destruct q; discriminate. }
  assert (stream e2 = firstn n d) as ST.
  { rewrite <- EE. rewrite (stream_only i).
    - rewrite E. rewrite bytes_app. change (EStart i d :: e2 ++ EDone i r n :: e3) with ([EStart i d] ++ e2 ++ [EDone i r n] ++ e3). rewrite !bytes_app.
      assert (bytes i e1 = []) as -> .
      { apply bytes_none. intros bs K. apply in_split in K as (a & b & K). destruct (C a (ESent i bs) (b ++ EStart i d :: e2 ++ EDone i r n :: e3)) as (Y & _).
        { rewrite E, K, <- app_assoc. reflexivity. } apply Y. rewrite K, starts_app in S1. now apply app_eq_nil in S1. }
      assert (bytes i e3 = []) as -> .
      { apply bytes_none. intros bs K. apply in_split in K as (a & b & K). destruct (C (e1 ++ EStart i d :: e2 ++ EDone i r n :: a) (ESent i bs) b) as (_ & Y & _).
        { rewrite E, K. rewrite <- app_assoc. cbn. rewrite <- app_assoc. reflexivity. }
        assert (In (r, n) (results i (e1 ++ EStart i d :: e2 ++ EDone i r n :: a))) as Z.
        { unfold results. apply in_flat_map. exists (EDone i r n). split; [|rewrite Nat.eqb_refl; now left]. apply in_app_iff. right. right. apply in_app_iff. right. now left. }
        rewrite Y in Z. destruct Z. }
      cbn. now rewrite app_nil_r.
    - intros j bs K. destruct (Nat.eq_dec j i) as [|NE]; [assumption|exfalso]. apply in_split in K as (a & b & K).
      destruct (C (e1 ++ EStart i d :: a) (ESent j bs) (b ++ EDone i r n :: e3)) as (Y & Z & _).
      { rewrite E, K. rewrite <- !app_assoc. cbn. rewrite <- ?app_assoc. reflexivity. }
      assert (starts j a = []) as SA by (pose proof (N j) as NJ; rewrite K, starts_app in NJ; now apply app_eq_nil in NJ).
      change (EStart i d :: a) with ([EStart i d] ++ a) in Y, Z. rewrite !starts_app, SA, app_nil_r in Y. rewrite results_app in Z. apply app_eq_nil in Z as (Z & _).
      apply (Q j); [|exact Z]. intro SJ. apply Y. rewrite SJ. unfold starts. cbn. destruct (Nat.eqb_spec i j); [congruence|reflexivity]. }
  split; [exact ST|]. intro RN. rewrite ST. destruct (R RN) as (L & _). rewrite L. apply firstn_all.
Qed.
Print Assumptions C90_together_partial.

(** two writes at the same time may be mixed *)
Theorem C90_together_refuted : ~ (forall ls s es i d n, run ls init = Some (s, es) -> In (EStart i d) es -> In (EDone i None n) es ->
  exists a b, stream es = a ++ d ++ b).
Proof.
  intro H. destruct (run [LWrite [1;2]; LWrite [3]; LSend 0 1; LDeliver 0; LSend 1 1; LDeliver 1; LSend 0 1; LDeliver 0] init) as [[s es]|] eqn:R; [|discriminate].
  pose proof R as R0. cbn in R. injection R as <- <-. destruct (H _ _ _ 0 [1;2] 2 R0) as (a & b & E); [cbn; tauto|cbn; tauto|].
  cbn in E. destruct a as [|x [|y [|z a]]]; cbn in E; try discriminate. injection E as _ _ _ E. destruct a; discriminate.
Qed.
Print Assumptions C90_together_refuted.

(** a write whose coroutine is cancelled ends with its next completion *)
Theorem C90_stop : forall ls s es i, run ls init = Some (s, es) -> starts i es <> [] -> results i es = [] -> ~ In (ESignal i) es ->
  exists s' es' n r, run [LSignal i; LDeliver i] s = Some (s', es') /\ results i es' = [(Some r, n)] /\ bytes i es' = [].
Proof.
  intros ls s es i H S R NS. apply good_run in H as (G & _). specialize (G i). unfold igood in G. destruct (ws s i) as [[rr mm c p]|] eqn:W; [|tauto].
  destruct G as (_ & d & [A B D E F P]). cbn [rest m canc ph] in *. destruct p as [|x n|].
  - cbn [run step]. rewrite W. cbn. rewrite Nat.eqb_refl. do 4 eexists. split; [reflexivity|]. cbn. rewrite Nat.eqb_refl. split; reflexivity.
  - cbn [run step]. rewrite W. cbn. rewrite Nat.eqb_refl. cbn. destruct x as [x|]; cbn.
    + do 4 eexists. split; [reflexivity|]. cbn. rewrite Nat.eqb_refl. split; reflexivity.
    + unfold loop. rewrite andb_false_r. do 4 eexists. split; [reflexivity|]. cbn. rewrite Nat.eqb_refl. split; reflexivity.
  - destruct P as (r & P & _). congruence.
Qed.
Print Assumptions C90_stop.

(** cancel() ends a write that has no completion on its way, with the count of what it has written *)
Theorem C90_cancel_partial : forall ls s es i, run ls init = Some (s, es) -> starts i es <> [] -> results i es = [] -> step (LDeliver i) s = None ->
  exists s' es', run [LCancel; LDeliver i] s = Some (s', es') /\ results i es' = [(Some EAborted, length (bytes i es))] /\ bytes i es' = [].
Proof.
  intros ls s es i H S R ND. apply good_run in H as (G & _). specialize (G i). unfold igood in G. destruct (ws s i) as [[rr mm c p]|] eqn:W; [|tauto].
  destruct G as (_ & d & [A B D E F P]). unfold infl in *. cbn [rest m canc ph] in *. destruct p as [|x n|].
  - cbn [run step ws]. rewrite W. cbn. do 2 eexists. split; [reflexivity|]. cbn. rewrite Nat.eqb_refl, E, firstn_length. split; [|reflexivity].
    now replace (min (mm + 0) (length d)) with (mm + 0) by lia.
  - cbn [step] in ND. rewrite W in ND. cbn [ph] in ND. destruct (resume _ _ _ _); discriminate.
  - destruct P as (r & P & _). congruence.
Qed.
Print Assumptions C90_cancel_partial.

(** cancel() ends a write only if its write_some is waiting: it may go on and put all of its bytes into the stream *)
Theorem C90_cancel_refuted : ~ (forall ls s es e1 e2 i bs, run ls init = Some (s, es) -> es = e1 ++ ECancel :: e2 -> starts i e1 <> [] -> ~ In (ESent i bs) e2).
Proof.
  intro H. destruct (run [LWrite [1;2]; LSend 0 1; LCancel; LDeliver 0; LSend 0 1; LDeliver 0] init) as [[s es]|] eqn:R; [|discriminate].
  pose proof R as R0. cbn in R. injection R as <- <-.
  apply (H _ _ _ [EStart 0 [1;2]; ESent 0 [1]] [ESent 0 [2]; EDone 0 None 2] 0 [2] R0); [reflexivity|discriminate|now left].
Qed.
Print Assumptions C90_cancel_refuted.

(** a write may report operation_aborted although all was written *)
Theorem C90_aborted_refuted : ~ (forall ls s es i d n, run ls init = Some (s, es) -> In (EStart i d) es -> In (EDone i (Some EAborted) n) es -> n < length d).
Proof.
  intro H. destruct (run [LWrite [1;2]; LSend 0 2; LSignal 0; LDeliver 0] init) as [[s es]|] eqn:R; [|discriminate].
  pose proof R as R0. cbn in R. injection R as <- <-. assert (2 < length [1;2]) by (apply (H _ _ _ 0 _ _ R0); cbn; tauto). cbn in *. lia.
Qed.
Print Assumptions C90_aborted_refuted.

Lemma run_app : forall a b s s1 s2 e1 e2, run a s = Some (s1, e1) -> run b s1 = Some (s2, e2) -> run (a ++ b) s = Some (s2, e1 ++ e2).
Proof.
  induction a as [|l a IH]; intros b s s1 s2 e1 e2 A B; cbn [run app] in *.
  - injection A as <- <-. exact B.
  - destruct (step l s) as [[s' e']|]; [|discriminate]. destruct (run a s') as [[s'' e'']|] eqn:R; [|discriminate]. injection A as <- <-.
    rewrite (IH b s' s'' s2 e'' e2 R B). now rewrite app_assoc.
Qed.
Lemma goes : forall k s i r mm, length r <= k -> 0 < length r -> ws s i = Some (mkw r mm false Waiting) ->
  forall f : nat -> nat, (forall x, 0 < f x) ->
  exists ls s' es, run ls s = Some (s', es) /\ (forall l, In l ls -> l = LDeliver i \/ exists x, l = LSend i (f x)) /\ results i es = [(None, mm + length r)].
Proof.
  induction k as [|k IH]; intros s i r mm L P W f FP; [lia|].
  set (n := min (f mm) (length r)). pose proof (FP mm) as FM.
  assert (exists s1 e1, run [LSend i (f mm); LDeliver i] s = Some (s1, e1) /\
    ((length (skipn n r) = 0 /\ results i e1 = [(None, mm + n)]) \/ (0 < length (skipn n r) /\ results i e1 = [] /\ ws s1 i = Some (mkw (skipn n r) (mm + n) false Waiting)))) as (s1 & e1 & R1 & D).
  { cbn [run step]. rewrite W. destruct (Nat.eqb_spec (f mm) 0); [lia|]. cbn [ws put]. rewrite Nat.eqb_refl. cbn [ph resume rest m canc]. fold n. unfold loop.
    destruct (Nat.eqb_spec (length (skipn n r)) 0) as [Z|Z]; cbn [negb andb]; do 2 eexists; (split; [reflexivity|]).
    - left. split; [exact Z|]. cbn. now rewrite Nat.eqb_refl.
    - right. split; [lia|]. split; [reflexivity|]. cbn. now rewrite Nat.eqb_refl. }
  rewrite skipn_length in D. assert (0 < n <= length r) as NB by (unfold n; lia).
  destruct D as [(Z & D)|(Z & D & W1)].
  - exists [LSend i (f mm); LDeliver i], s1, e1. split; [exact R1|]. split.
    + intros l [<-|[<-|[]]]; eauto.
    + rewrite D. repeat f_equal. lia.
  - destruct (IH s1 i (skipn n r) (mm + n)) with (f := f) as (ls & s' & es & R2 & LS & RS); auto; try (rewrite skipn_length; lia).
    exists ([LSend i (f mm); LDeliver i] ++ ls), s', (e1 ++ es). split; [eapply run_app; eauto|]. split.
    + intros l I. apply in_app_iff in I as [[<-|[<-|[]]]|I]; eauto.
    + rewrite results_app, D, RS, skipn_length. cbn. replace (mm + n + (length r - n)) with (mm + length r) by lia. reflexivity.
Qed.

(** if the system goes on taking bytes, however few at a time ([f]), a write that nobody disturbed ends without error and has written everything *)
Theorem C90_completes : forall ls s es i d (f : nat -> nat), run ls init = Some (s, es) -> starts i es = [d] -> results i es = [] ->
  ~ In (ESignal i) es -> ~ In ECancel es -> ~ In (EFail i) es -> (forall x, 0 < f x) ->
  exists ls' s' es', run ls' s = Some (s', es') /\ (forall l, In l ls' -> l = LDeliver i \/ exists x, l = LSend i (f x)) /\
    results i es' = [(None, length d)] /\ bytes i es ++ bytes i es' = d.
Proof.
  intros ls s es i d f H S R NS NC NF FP. pose proof (good_run _ _ _ H) as G. pose proof (proj1 G i) as GI. unfold igood in GI.
  destruct (ws s i) as [[rr mm c p]|] eqn:W; [|destruct GI as (_ & GI & _); congruence].
  destruct GI as (_ & d' & [A B D E F P]). cbn [rest m canc ph] in *. assert (d' = d) by congruence. subst d'.
  assert (c = false) by (destruct c; [exfalso; apply NS; now apply F|reflexivity]). subst c.
  assert (exists ls' s' es', run ls' s = Some (s', es') /\ (forall l, In l ls' -> l = LDeliver i \/ exists x, l = LSend i (f x)) /\ results i es' = [(None, length d)]) as (ls' & s' & es' & R1 & R2 & R3).
  { destruct p as [|x n|].
    - destruct P as (_ & P & _). specialize (B ltac:(discriminate)). subst rr.
      destruct (goes (length (skipn mm d)) s i (skipn mm d) mm) with (f := f) as (l1 & s1 & e1 & X & Y & Z); auto; [rewrite skipn_length; lia|].
      exists l1, s1, e1. split; auto. split; auto. rewrite Z, skipn_length. repeat f_equal. unfold infl in D; cbn in D. lia.
    - destruct P as (_ & P & _ & PN). destruct x as [[|]|]; cbn [why] in P; try tauto. specialize (B ltac:(discriminate)). subst rr. unfold infl in D; cbn in D.
      assert (step (LDeliver i) s = let '(w', e) := loop i (skipn n (skipn mm d)) (mm + n) false in Some (put i w' s, e)) as ST by (cbn [step]; rewrite W; reflexivity).
      rewrite skipn_skipn' in ST. unfold loop in ST. rewrite skipn_length in ST. destruct (Nat.eqb_spec (length d - (mm + n)) 0) as [Z|Z]; cbn [negb andb] in ST.
      + exists [LDeliver i]. cbn [run]. rewrite ST. do 2 eexists. split; [reflexivity|]. split; [intros l [<-|[]]; auto|]. cbn. rewrite Nat.eqb_refl. replace (mm + n) with (length d) by lia. reflexivity.
      + destruct (goes (length (skipn (mm + n) d)) (put i (mkw (skipn (mm + n) d) (mm + n) false Waiting) s) i (skipn (mm + n) d) (mm + n)) with (f := f) as (l1 & s1 & e1 & X & Y & V);
          auto; [rewrite skipn_length; lia|cbn; now rewrite Nat.eqb_refl|].
        exists (LDeliver i :: l1), s1, e1. split; [cbn [run]; rewrite ST, X; reflexivity|]. split; [intros l [<-|I]; auto|]. rewrite V, skipn_length. replace (mm + n + (length d - (mm + n))) with (length d) by lia. reflexivity.
    - destruct P as (r & P & _). congruence. }
  exists ls', s', es'. split; auto. split; auto. split; auto.
  rewrite <- bytes_app. pose proof (run_app _ _ _ _ _ _ _ H R1) as RA. destruct (C90_count _ _ _ i RA) as [(Q & _)|(d2 & Q & [T|(r & n & T & _ & T1 & T2)])].
  - rewrite starts_app, S in Q. discriminate.
  - rewrite results_app, R, R3 in T. discriminate.
  - rewrite starts_app, S in Q. injection Q as -> _. rewrite results_app, R, R3 in T. injection T as <- <-. now rewrite T1, firstn_all.
Qed.
Print Assumptions C90_completes.

(** a history with two writes at a time, short transfers, a signal, cancel() and an error *)
Example C90_nonvacuous : exists s es, run [LWrite [1;2;3]; LSend 0 2; LDeliver 0; LSend 0 5; LDeliver 0; LWrite [4;5]; LWrite [6;7]; LWrite []; LSend 1 1; LSend 2 1;
    LSignal 1; LDeliver 2; LDeliver 1; LFail 2; LDeliver 2; LWrite [8]; LCancel; LDeliver 4] init = Some (s, es) /\
    stream es = [1;2;3;4;6] /\ results 0 es = [(None, 3)] /\ results 1 es = [(Some EAborted, 1)] /\ results 2 es = [(Some EOther, 1)] /\
    results 3 es = [(None, 0)] /\ results 4 es = [(Some EAborted, 0)] /\ quiet [] /\
    exists e3, es = [] ++ EStart 0 [1;2;3] :: [ESent 0 [1;2]; ESent 0 [3]] ++ EDone 0 None 3 :: e3.
Proof. do 2 eexists. split; [reflexivity|]. repeat split; [intros j K; exfalso; now apply K|eexists; reflexivity]. Qed.
