(** Invariants of writing to a stream *)
From Coq Require Import List Bool Arith Lia.
From Verif Require Import Wrt_Model Wrt_Spec.
Import ListNotations.

Lemma stream_app : forall a b, stream (a ++ b) = stream a ++ stream b. Proof. intros. apply flat_map_app. Qed.
Lemma bytes_app : forall i a b, bytes i (a ++ b) = bytes i a ++ bytes i b. Proof. intros. apply flat_map_app. Qed.
Lemma starts_app : forall i a b, starts i (a ++ b) = starts i a ++ starts i b. Proof. intros. apply flat_map_app. Qed.
Lemma results_app : forall i a b, results i (a ++ b) = results i a ++ results i b. Proof. intros. apply flat_map_app. Qed.

Definition infl (w : writer) : nat := match ph w with Performed _ n => n | _ => 0 end.

(** the reasons for a result *)
Definition why (i : nat) (e : option err) (es : list event) : Prop :=
  match e with
  | None => True
  | Some EAborted => In (ESignal i) es \/ In ECancel es
  | Some EOther => In (EFail i) es
  end.

Record wgood (i : nat) (d : list nat) (w : writer) (es : list event) : Prop := {
  w_start : starts i es = [d];
  w_rest : ph w <> Fin -> rest w = skipn (m w) d;
  w_len : m w + infl w <= length d;
  w_bytes : bytes i es = firstn (m w + infl w) d;
  w_canc : canc w = true <-> In (ESignal i) es;
  w_ph : match ph w with
         | Waiting => results i es = [] /\ m w < length d /\ canc w = false
         | Performed e n => results i es = [] /\ why i e es /\ (e <> None -> n = 0) /\ (e = None -> 0 < n)
         | Fin => exists r, results i es = [(r, m w)] /\ why i r es /\ (r = None -> m w = length d /\ canc w = false)
         end }.

Definition igood (s : state) (es : list event) (i : nat) : Prop :=
  match ws s i with
  | None => nops s <= i /\ starts i es = [] /\ bytes i es = [] /\ results i es = [] /\ ~ In (ESignal i) es
  | Some w => i < nops s /\ exists d, wgood i d w es
  end.

(** what holds when [x] comes after [es] *)
Definition okx (es : list event) (x : event) : Prop :=
  match x with
  | ESent i _ => starts i es <> [] /\ results i es = [] /\ ~ In (ESignal i) es
  | _ => True
  end.
Definition chrono (es : list event) : Prop := forall e1 x e2, es = e1 ++ x :: e2 -> okx e1 x.

Definition good (s : state) (es : list event) : Prop := (forall i, igood s es i) /\ chrono es.

Lemma chrono_snoc : forall es x, chrono es -> okx es x -> chrono (es ++ [x]).
Proof.
  intros es x C O e1 y e2 H. destruct (exists_last (l := y :: e2)) as (l & z & L); [discriminate|]. rewrite L in H. rewrite app_assoc in H.
  apply app_inj_tail in H as [H ->]. destruct l as [|y' l]; cbn in L; injection L as -> ->.
  - rewrite app_nil_r in H. now subst es.
  - now apply (C e1 y' l).
Qed.

Lemma good_init : good init [].
Proof. split; [intro i; cbn; repeat split; auto; lia|]. intros e1 x e2 H. destruct e1; discriminate. Qed.

Lemma why_app : forall i e es es', why i e es -> why i e (es ++ es').
Proof. intros i e es es'. destruct e as [[]|]; cbn; auto; intros; rewrite !in_app_iff; tauto. Qed.

(** events of others *)
Definition other (i : nat) (e : event) : Prop :=
  match e with EStart j _ | ESent j _ | EFail j | EDone j _ _ | ESignal j => j <> i | ECancel => True end.

Lemma other_same : forall i e, Forall (other i) e -> starts i e = [] /\ bytes i e = [] /\ results i e = [] /\ ~ In (ESignal i) e.
Proof.
  induction 1 as [|x e O F IH]; [cbn; tauto|]. destruct IH as (A & B & C & D).
  unfold starts, bytes, results in *. cbn [flat_map]. rewrite A, B, C.
  destruct x; cbn in O; try (apply Nat.eqb_neq in O as O'; rewrite ?O'); cbn; repeat split; auto; intros [K|K]; try discriminate; auto; congruence.
Qed.

Lemma wgood_other : forall i d w es e, Forall (other i) e -> wgood i d w es -> wgood i d w (es ++ e).
Proof.
  intros i d w es e F G. apply other_same in F as (A & B & C & D). destruct G. constructor; auto.
  - now rewrite starts_app, A, app_nil_r.
  - now rewrite bytes_app, B, app_nil_r.
  - rewrite in_app_iff. tauto.
  - rewrite results_app, C, app_nil_r. destruct (ph w); auto.
    + destruct w_ph0 as (P & Q & R). split; auto. split; auto. now apply why_app.
    + destruct w_ph0 as (r & P & Q & R). exists r. split; auto. split; auto. now apply why_app.
Qed.

(** only writer [i] changes *)
Lemma good_put : forall s es i w e d, good s es -> i < nops s -> Forall (fun x => forall j, j <> i -> other j x) e ->
  wgood i d w (es ++ e) -> chrono (es ++ e) -> good (put i w s) (es ++ e).
Proof.
  intros s es i w e d (G & _) L F W C. split; [|exact C]. intro j. unfold igood, put. cbn [ws nops]. destruct (Nat.eqb_spec j i) as [->|N].
  - split; auto. now exists d.
  - assert (Forall (other j) e) as O by (eapply Forall_impl; [|exact F]; cbn; auto). specialize (G j). unfold igood in G. destruct (ws s j).
    + destruct G as (A & d' & B). split; auto. exists d'. now apply wgood_other.
    + destruct (other_same j e O) as (P & Q & R & T). rewrite starts_app, bytes_app, results_app, in_app_iff, P, Q, R, !app_nil_r. tauto.
Qed.

Lemma skipn_skipn' : forall (a b : nat) (l : list nat), skipn a (skipn b l) = skipn (b + a) l.
Proof. intros a b. induction b as [|b IH]; intro l; [reflexivity|]. destruct l; [now rewrite !skipn_nil|]. cbn. apply IH. Qed.
Lemma firstn_more : forall (a b : nat) (l : list nat), firstn a l ++ firstn b (skipn a l) = firstn (a + b) l.
Proof. induction a as [|a IH]; intros b l; [reflexivity|]. destruct l; [now rewrite skipn_nil, !firstn_nil|]. cbn. now rewrite IH. Qed.

Ltac ev := unfold starts, bytes, results in *; cbn [flat_map app]; rewrite ?Nat.eqb_refl, ?app_nil_r.

(** the head of the loop, with everything before it done *)
Lemma good_loop : forall i d r mm c es w e, loop i r mm c = (w, e) ->
  starts i es = [d] -> r = skipn mm d -> mm <= length d -> bytes i es = firstn mm d -> (c = true <-> In (ESignal i) es) -> results i es = [] ->
  wgood i d w (es ++ e) /\ (e = [] \/ exists x n, e = [EDone i x n]).
Proof.
  intros i d r mm c es w e H S R L B C D. unfold loop in H.
  destruct (Nat.eqb_spec (length r) 0) as [Z|Z]; cbn [negb andb] in H; [|destruct c; cbn [negb] in H]; injection H as <- <-; split; eauto.
  - assert (mm = length d) as Q by (rewrite R, skipn_length in Z; lia). constructor; cbn [rest m canc ph infl].
    + rewrite starts_app, S. reflexivity.
    + intro K. contradiction.
    + unfold infl; cbn; lia.
    + rewrite bytes_app, B. unfold infl; cbn. now rewrite Nat.add_0_r, app_nil_r.
    + rewrite in_app_iff. cbn. rewrite C. split; [tauto|]. intros [K|[K|[]]]; [auto|discriminate].
    + exists (if c then Some EAborted else None). rewrite results_app, D. ev. split; [reflexivity|]. split; [destruct c; cbn; auto; left; apply in_app_iff; left; now apply C|].
      destruct c; [discriminate|auto].
  - constructor; cbn [rest m canc ph infl].
    + rewrite starts_app, S. reflexivity.
    + intro K. contradiction.
    + unfold infl; cbn; lia.
    + rewrite bytes_app, B. unfold infl; cbn. now rewrite Nat.add_0_r, app_nil_r.
    + rewrite in_app_iff. cbn. rewrite C. split; [tauto|]. intros [K|[K|[]]]; [auto|discriminate].
    + exists (Some EAborted). rewrite results_app, D. ev. split; [reflexivity|]. split; [|discriminate]. cbn. left. apply in_app_iff. left. now apply C.
  - rewrite app_nil_r. constructor; cbn [rest m canc ph infl]; auto.
    + unfold infl; cbn; lia.
    + unfold infl; cbn. now rewrite Nat.add_0_r.
    + repeat split; auto. rewrite R, skipn_length in Z. lia.
Qed.

Lemma good_step : forall l s s' es e, good s es -> step l s = Some (s', e) -> good s' (es ++ e).
Proof.
  intros l s s' es e (G & C) H. destruct l; cbn [step] in H.
  - (* LWrite *)
    destruct (loop (nops s) bs 0 false) as [w e1] eqn:LO. injection H as <- <-.
    pose proof (G (nops s)) as N. unfold igood in N. destruct (ws s (nops s)) eqn:W; [lia|]. destruct N as (_ & A & B & D & E).
    assert (wgood (nops s) bs w ((es ++ [EStart (nops s) bs]) ++ e1) /\ (e1 = [] \/ exists x n, e1 = [EDone (nops s) x n])) as (WG & SH).
    { apply (good_loop _ bs bs 0 false); auto; try lia.
      - rewrite starts_app, A. ev. reflexivity.
      - rewrite bytes_app, B. reflexivity.
      - rewrite in_app_iff. cbn. split; [discriminate|]. intros [K|[K|[]]]; [tauto|discriminate].
      - rewrite results_app, D. reflexivity. }
    rewrite <- app_assoc in WG. cbn [app] in WG. split.
    + intro j. unfold igood. cbn [ws nops put]. destruct (Nat.eqb_spec j (nops s)) as [->|NE]; [split; [lia|now exists bs]|].
      assert (Forall (other j) (EStart (nops s) bs :: e1)) as O by (constructor; [cbn; auto|]; destruct SH as [->|(x & n & ->)]; repeat constructor; cbn; auto).
      specialize (G j). unfold igood in G. destruct (ws s j).
      * destruct G as (P & d & Q). split; [lia|]. exists d. now apply wgood_other.
      * destruct (other_same _ _ O) as (P & Q & R & T). rewrite starts_app, bytes_app, results_app, in_app_iff, P, Q, R, !app_nil_r. intuition lia.
    + change (EStart (nops s) bs :: e1) with ([EStart (nops s) bs] ++ e1). rewrite app_assoc.
      assert (chrono (es ++ [EStart (nops s) bs])) by (apply chrono_snoc; cbn; auto). destruct SH as [->|(x & n & ->)]; [now rewrite app_nil_r|]. apply chrono_snoc; cbn; auto.
  - (* LSend *)
    pose proof (G i) as GI. unfold igood in GI. destruct (ws s i) as [[r mm c p]|] eqn:W; [|discriminate]. destruct p; try discriminate.
    destruct (Nat.eqb_spec k 0) as [|K]; [discriminate|]. injection H as <- <-. destruct GI as (L & d & [A B D E F P]). cbn [rest m canc ph infl] in *.
    unfold infl in D, E; cbn in D, E. rewrite Nat.add_0_r in D, E. destruct P as (P & Q & R). specialize (B ltac:(discriminate)). subst r.
    apply (good_put s es i _ _ d); [split; assumption|assumption|repeat constructor; cbn; auto| |].
    + constructor; cbn [rest m canc ph].
      * rewrite starts_app, A. reflexivity.
      * auto.
      * unfold infl; cbn. rewrite skipn_length. lia.
      * rewrite bytes_app, E. ev. unfold infl; cbn [ph]. rewrite <- firstn_more. f_equal.
        rewrite <- (firstn_firstn (skipn mm d) k (length (skipn mm d))). now rewrite firstn_all.
      * rewrite in_app_iff. cbn. rewrite F. split; [tauto|]. intros [X|[X|[]]]; [auto|discriminate].
      * rewrite results_app, P. cbn. repeat split; auto; [congruence|]. intros _. rewrite skipn_length. lia.
    + apply chrono_snoc; auto. cbn. rewrite A. repeat split; auto; [discriminate|]. intro X. apply F in X. congruence.
  - (* LFail *)
    pose proof (G i) as GI. unfold igood in GI. destruct (ws s i) as [[r mm c p]|] eqn:W; [|discriminate]. destruct p; try discriminate.
    injection H as <- <-. destruct GI as (L & d & [A B D E F P]). cbn [rest m canc ph infl] in *. destruct P as (P & Q & R).
    apply (good_put s es i _ _ d); [split; assumption|assumption|repeat constructor; cbn; auto| |apply chrono_snoc; cbn; auto].
    constructor; cbn [rest m canc ph]; auto.
    + rewrite starts_app, A. reflexivity.
    + intros _. apply B. discriminate.
    + rewrite bytes_app, E. now rewrite app_nil_r.
    + rewrite in_app_iff. cbn. rewrite F. split; [tauto|]. intros [X|[X|[]]]; [auto|discriminate].
    + rewrite results_app, P. cbn. repeat split; auto; [|discriminate]. apply in_app_iff. right. now left.
  - (* LDeliver *)
    pose proof (G i) as GI. unfold igood in GI. destruct (ws s i) as [[r mm c p]|] eqn:W; [|discriminate]. cbn [ph] in H. destruct p as [|x n|]; try discriminate.
    destruct GI as (L & d & [A B D E F P]). cbn [rest m canc ph] in *. unfold infl in D, E; cbn in D, E. destruct P as (P & Q & R & T). specialize (B ltac:(discriminate)). subst r.
    destruct (resume i _ x n) as [w' e1] eqn:RE. injection H as <- <-. unfold resume in RE. cbn [rest m canc] in RE. destruct x as [x|].
    + injection RE as <- <-. assert (n = 0) by (apply R; discriminate). subst n. rewrite Nat.add_0_r in *.
      apply (good_put s es i _ _ d); [split; assumption|assumption|repeat constructor; cbn; auto| |apply chrono_snoc; cbn; auto].
      constructor; cbn [rest m canc ph]; auto.
      * rewrite starts_app, A. reflexivity.
      * unfold infl; cbn. lia.
      * rewrite bytes_app, E. unfold infl; cbn. now rewrite app_nil_r, Nat.add_0_r.
      * rewrite in_app_iff. cbn. rewrite F. split; [tauto|]. intros [X|[X|[]]]; [auto|discriminate].
      * exists (Some x). rewrite results_app, P. ev. split; [reflexivity|]. split; [now apply why_app|discriminate].
    + destruct (good_loop i d _ _ _ es _ _ RE A) as (WG & SH); auto; [apply skipn_skipn'|].
      apply (good_put s es i _ _ d); auto; [split; assumption| |].
      * destruct SH as [->|(x & y & ->)]; repeat constructor; cbn; auto.
      * destruct SH as [->|(x & y & ->)]; [now rewrite app_nil_r|]. apply chrono_snoc; cbn; auto.
  - (* LSignal *)
    pose proof (G i) as GI. unfold igood in GI. destruct (ws s i) as [w|] eqn:W; [|discriminate].
    destruct GI as (L & d & [A B D E F P]).
    assert (ph w <> Fin /\ (s', e) = (put i (mkw (rest (abort w)) (m (abort w)) true (ph (abort w))) s, [ESignal i])) as (NF & EQ)
      by (destruct (ph w); try discriminate; split; congruence).
    injection EQ as -> ->. clear H. specialize (B NF).
    apply (good_put s es i _ _ d); [split; assumption|assumption|repeat constructor; cbn; auto| |apply chrono_snoc; cbn; auto].
    destruct w as [r mm c p]. unfold abort in *. cbn [rest m canc ph] in *. destruct p as [|x n|]; [| |congruence]; cbn [rest m canc ph] in *.
    + destruct P as (P & _ & _). constructor; cbn [rest m canc ph]; auto.
      * rewrite starts_app, A. reflexivity.
      * rewrite bytes_app, E. now rewrite app_nil_r.
      * rewrite in_app_iff. cbn. tauto.
      * rewrite results_app, P. cbn. repeat split; auto; [|discriminate]. left. apply in_app_iff. right. now left.
    + destruct P as (P & Q & R). constructor; cbn [rest m canc ph]; auto.
      * rewrite starts_app, A. reflexivity.
      * rewrite bytes_app, E. now rewrite app_nil_r.
      * rewrite in_app_iff. cbn. tauto.
      * rewrite results_app, P. cbn. split; auto. split; auto. now apply why_app.
  - (* LCancel *)
    injection H as <- <-. split; [|apply chrono_snoc; cbn; auto]. intro i. specialize (G i). unfold igood in *. cbn [ws nops].
    assert (Forall (other i) [ECancel]) as O by (repeat constructor).
    destruct (ws s i) as [w|]; cbn [option_map].
    + destruct G as (L & d & WG). split; auto. exists d. apply (wgood_other _ _ _ _ _ O) in WG. unfold abort. destruct (ph w) eqn:PW; auto.
      destruct WG as [A B D E F P]. rewrite PW in *. unfold infl in *. rewrite PW in *. destruct P as (P & _ & _). constructor; cbn [rest m canc ph]; auto.
      * intros _. apply B. discriminate.
      * cbn. repeat split; auto; [|discriminate]. right. apply in_app_iff. right. now left.
    + destruct (other_same _ _ O) as (P & Q & R & T). rewrite starts_app, bytes_app, results_app, in_app_iff, P, Q, R, !app_nil_r. tauto.
Qed.

Lemma good_run' : forall ls s s' es es', good s es -> run ls s = Some (s', es') -> good s' (es ++ es').
Proof.
  induction ls as [|l ls IH]; intros s s' es es' G H; cbn [run] in H.
  - injection H as <- <-. now rewrite app_nil_r.
  - destruct (step l s) as [[s1 e1]|] eqn:ST; [|discriminate]. destruct (run ls s1) as [[s2 e2]|] eqn:RU; [|discriminate]. injection H as <- <-.
    rewrite app_assoc. eapply IH; [|exact RU]. eapply good_step; eauto.
Qed.
Lemma good_run : forall ls s es, run ls init = Some (s, es) -> good s es.
Proof. intros ls s es H. apply (good_run' ls init s [] es good_init H). Qed.
