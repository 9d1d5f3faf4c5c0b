(** * Property theorems: awaiting from a stackful coroutine (C77) *)
From Coq Require Import List Bool Arith Lia.
From Verif Require Import Yld_Model Yld_Spec.
Import ListNotations.

Local Arguments Nat.ltb : simpl never.
Local Arguments Nat.eqb : simpl never.

Section Proofs.
Context {V : Type}.
Notation label := (label V).
Notation event := (event V).

Lemma upd_same : forall A (f : nat -> A) k x, upd f k x k = x.
Proof. intros. unfold upd. now rewrite Nat.eqb_refl. Qed.
Lemma upd_other : forall A (f : nat -> A) k x i, i <> k -> upd f k x i = f i.
Proof. intros. unfold upd. apply Nat.eqb_neq in H. now rewrite H. Qed.

Lemma times_app : forall f (a b : list event), times f (a ++ b) = times f a + times f b.
Proof. intros. unfold times. now rewrite filter_app, app_length. Qed.

(** Exactly one party is responsible for the coroutine. *)
Definition Inv (s : state) : Prop :=
  (forall k, k >= next s -> held s k = false /\ life s k = false) /\
  match pl s with
  | Runs => owned s = true /\ posted s = 0 /\ forall k, held s k = false /\ life s k = false
  | Waits n fr =>
      owned s = false /\ n < next s /\
      ((held s n = true /\ life s n = true /\ posted s = 0) \/ (held s n = false /\ life s n = false /\ posted s = 1)) /\
      forall k, k <> n -> held s k = false /\ life s k = false
  | Returned => False
  | Gone => owned s = false /\ posted s = 0 /\ forall k, held s k = false /\ life s k = false
  end.

Definition pending (s : state) (k : nat) : bool := match pl s with Waits n _ => Nat.eqb n k | _ => false end.
Definition gone (s : state) : bool := match pl s with Gone => true | _ => false end.

Record Good (s : state) (tr : list event) : Prop := {
  g_inv : Inv s;
  g_bad : times is_bad tr = 0;
  g_start : forall k, times (starts k) tr = if k <? next s then 1 else 0;
  g_end : forall k, times (ends k) tr = if (k <? next s) && negb (pending s k) then 1 else 0;
  g_destroy : times is_destroy tr = if gone s then 1 else 0;
  g_return : times is_return tr <= times is_destroy tr;
  g_why : times is_return tr + times is_drop tr = times is_destroy tr + posted s }.

Lemma good_init : Good init [].
Proof.
  constructor; cbn; auto; intros; repeat split; auto.
Qed.

Lemma ltb_S : forall k n, (k <? S n) = (k <? n) || (k =? n).
Proof.
  intros. destruct (k <? S n) eqn:A, (k <? n) eqn:B, (k =? n) eqn:C; auto;
    rewrite ?Nat.ltb_lt, ?Nat.ltb_ge, ?Nat.eqb_eq, ?Nat.eqb_neq in *; lia.
Qed.

Ltac solve_upd :=
  repeat match goal with
  | |- context[upd _ ?k _ ?i] => unfold upd; destruct (Nat.eqb_spec i k); subst
  end.

Lemma good_step : forall s tr l s' es, Good s tr -> step s l = Some (s', es) -> patient l -> Forall unbroken es -> Good s' (tr ++ es).
Proof.
  intros s tr l s' es [[Fr I] B St En De Re Wy] E P U.
  assert (NS : forall m, times (starts m) tr = if m <? next s then 1 else 0) by exact St.
  destruct s as [p ow hd lf po ca nx]. unfold pending, gone in *. cbn in *.
  destruct l as [h| |n v|n| | |b]; cbn in E.
  - (* await *)
    destruct p; try discriminate. destruct I as (-> & -> & I).
    destruct h as [v| |v|v|]; cbn in P; try contradiction; unfold await in E; cbn in E.
    + injection E as <- <-.
      constructor; cbn; rewrite ?times_app; cbn; auto; try lia.
      * split; cbn; auto.
      * intros k. rewrite times_app, St. unfold times. cbn. rewrite Nat.eqb_sym, ltb_S.
        destruct (Nat.eqb_spec k nx); subst; cbn; [rewrite Nat.ltb_irrefl; auto | destruct (k <? nx); auto].
      * intros k. rewrite times_app, En. unfold times. cbn. rewrite Nat.eqb_sym, ltb_S.
        destruct (Nat.eqb_spec k nx); subst; cbn; [rewrite Nat.ltb_irrefl; auto | destruct (k <? nx); auto].
    + destruct ca; injection E as <- <-.
      { inversion U; subst. inversion H2; subst. contradiction. }
      constructor; cbn; rewrite ?times_app; auto; try (unfold times in *; cbn; lia).
      * split; cbn.
        { intros k K. solve_upd; try lia. apply Fr. lia. }
        repeat split; auto.
        { left. now rewrite !upd_same. }
        { intros; rewrite upd_other; auto; apply I. } { intros; rewrite upd_other; auto; apply I. }
      * intros k. rewrite times_app, St. unfold times. cbn. rewrite Nat.eqb_sym, ltb_S.
        destruct (Nat.eqb_spec k nx); subst; cbn; [rewrite Nat.ltb_irrefl; auto | destruct (k <? nx); auto].
      * intros k. rewrite times_app, En. unfold times, pending. cbn. rewrite ltb_S, (Nat.eqb_sym nx).
        destruct (Nat.eqb_spec k nx); subst; cbn; [rewrite Nat.ltb_irrefl; auto | destruct (k <? nx); auto].
    + destruct ca; injection E as <- <-.
      { inversion U; subst. inversion H2; subst. contradiction. }
      constructor; cbn; rewrite ?times_app; auto; try (unfold times in *; cbn; lia).
      * split; cbn.
        { intros k K. solve_upd; try lia; auto; apply Fr; lia. }
        rewrite !upd_same. repeat split; auto; solve_upd; auto; apply I.
      * intros k. rewrite times_app, St. unfold times. cbn. rewrite Nat.eqb_sym, ltb_S.
        destruct (Nat.eqb_spec k nx); subst; cbn; [rewrite Nat.ltb_irrefl; auto | destruct (k <? nx); auto].
      * intros k. rewrite times_app, En. unfold times, pending. cbn. rewrite Nat.eqb_sym, ltb_S.
        destruct (Nat.eqb_spec k nx); subst; cbn; [rewrite Nat.ltb_irrefl; auto | destruct (k <? nx); auto].
      * rewrite upd_same. unfold times in *; cbn; lia.
  - (* yield *)
    destruct p; try discriminate. destruct I as (-> & -> & I). unfold yield_op in E. cbn in E.
    destruct ca; injection E as <- <-.
    + constructor; cbn; rewrite ?times_app; auto; try (unfold times in *; cbn; lia).
      * split; cbn; auto.
      * intros k. rewrite times_app, St. unfold times. cbn. rewrite Nat.eqb_sym, ltb_S.
        destruct (Nat.eqb_spec k nx); subst; cbn; [rewrite Nat.ltb_irrefl; auto | destruct (k <? nx); auto].
      * intros k. rewrite times_app, En. unfold times. cbn. rewrite Nat.eqb_sym, ltb_S.
        destruct (Nat.eqb_spec k nx); subst; cbn; [rewrite Nat.ltb_irrefl; auto | destruct (k <? nx); auto].
    + constructor; cbn; rewrite ?times_app; auto; try (unfold times in *; cbn; lia).
      * split; cbn.
        { intros k K. solve_upd; try lia. apply Fr. lia. }
        repeat split; auto.
        { left. now rewrite !upd_same. }
        { intros; rewrite upd_other; auto; apply I. } { intros; rewrite upd_other; auto; apply I. }
      * intros k. rewrite times_app, St. unfold times. cbn. rewrite Nat.eqb_sym, ltb_S.
        destruct (Nat.eqb_spec k nx); subst; cbn; [rewrite Nat.ltb_irrefl; auto | destruct (k <? nx); auto].
      * intros k. rewrite times_app, En. unfold times, pending. cbn. rewrite ltb_S, (Nat.eqb_sym nx).
        destruct (Nat.eqb_spec k nx); subst; cbn; [rewrite Nat.ltb_irrefl; auto | destruct (k <? nx); auto].
  - (* resume *)
    destruct (hd n) eqn:Hn; try discriminate. destruct p as [|m fr| |].
    1: { destruct I as (_ & _ & I). destruct (I n); congruence. }
    2: contradiction.
    2: { destruct I as (_ & _ & I). destruct (I n); congruence. }
    destruct I as (-> & Lm & C & O). destruct (Nat.eqb_spec m n).
    2: { destruct (O n); congruence. }
    subst m. injection E as <- <-. destruct C as [(_ & Ln & ->)|(Hx & _)]; [|congruence].
    constructor; cbn; rewrite ?times_app; auto; try (unfold times in *; cbn; lia).
    + split; cbn.
      * intros k K. solve_upd; auto; apply Fr; lia.
      * repeat split; auto; solve_upd; auto; apply O; auto.
    + intros k. rewrite times_app, St. unfold times. cbn. lia.
    + intros k. rewrite times_app, En. unfold times, pending. cbn.
      destruct (Nat.eqb_spec n k); subst; cbn; rewrite ?andb_true_r, ?andb_false_r; cbn; auto.
      apply Nat.ltb_lt in Lm. rewrite Lm. auto.
  - (* drop *)
    destruct (hd n) eqn:Hn; try discriminate. destruct p as [|m fr| |].
    1: { destruct I as (_ & _ & I). destruct (I n); congruence. }
    2: contradiction.
    2: { destruct I as (_ & _ & I). destruct (I n); congruence. }
    destruct I as (-> & Lm & C & O). destruct (Nat.eqb_spec m n).
    2: { destruct (O n); congruence. }
    subst m. injection E as <- <-. destruct C as [(_ & Ln & ->)|(Hx & _)]; [|congruence].
    constructor; cbn; rewrite ?Ln, ?times_app; auto; try (unfold times in *; cbn; lia).
    2,3: intros k; rewrite times_app, ?St, ?En; unfold times; cbn; lia.
    split; cbn.
    * intros k K. solve_upd; auto; apply Fr; lia.
    * repeat split; auto.
      { right. now rewrite !upd_same, Ln. }
      { rewrite upd_other; auto; apply O; auto. } { rewrite upd_other; auto; apply O; auto. }
  - (* return *)
    destruct p; try discriminate. destruct I as (-> & -> & I). injection E as <- <-.
    constructor; cbn; rewrite ?times_app; auto; try (unfold times in *; cbn; lia).
    + split; cbn; auto.
    + intros k. rewrite times_app, St. unfold times. cbn. lia.
    + intros k. rewrite times_app, En. unfold times, pending. cbn. lia.
  - (* posted *)
    destruct p as [|m fr| |]; try discriminate; try contradiction.
    2: { destruct I as (_ & -> & _). discriminate. }
    destruct I as (-> & Lm & C & O).
    destruct C as [(_ & _ & ->)|(Hm & Lf & ->)]; try discriminate.
    injection E as E. unfold destroy in E. cbn in E.
    destruct fr; injection E as <- <-; cbn.
    + constructor; cbn; rewrite ?times_app; rewrite ?Lf; auto; try (unfold times in *; cbn; lia).
      * split; cbn.
        { intros k K. solve_upd; auto; apply Fr; lia. }
        split; auto. split; [now rewrite ?Lf|]. intros k. split.
        { destruct (Nat.eq_dec k m); subst; auto. apply O; auto. }
        solve_upd; auto. apply O; auto.
      * intros k. rewrite times_app, St. unfold times. cbn. lia.
      * intros k. rewrite times_app, En. unfold times, pending. cbn.
        destruct (Nat.eqb_spec m k); subst; cbn; rewrite ?andb_true_r, ?andb_false_r; cbn; auto.
        apply Nat.ltb_lt in Lm. rewrite Lm. auto.
    + constructor; cbn; rewrite ?times_app; rewrite ?Lf; auto; try (unfold times in *; cbn; lia).
      * split; cbn; auto. split; auto. split; auto. intros k. destruct (Nat.eq_dec k m); subst; auto; apply O; auto.
      * intros k. rewrite times_app, St. unfold times. cbn. lia.
      * intros k. rewrite times_app, En. unfold times, pending. cbn.
        destruct (Nat.eqb_spec m k); subst; cbn; rewrite ?andb_true_r, ?andb_false_r; cbn; auto.
        apply Nat.ltb_lt in Lm. rewrite Lm. auto.
  - injection E as <- <-. rewrite app_nil_r. constructor; auto. split; auto.
Qed.

Lemma good_run : forall ls s tr s' es, Good s tr -> run s ls = Some (s', es) -> orderly ls es -> Good s' (tr ++ es).
Proof.
  induction ls as [|l t IH]; intros s tr s' es G E [P U]; cbn in E.
  - injection E as <- <-. now rewrite app_nil_r.
  - destruct (step s l) as [[s1 e1]|] eqn:E1; try discriminate.
    destruct (run s1 t) as [[s2 e2]|] eqn:E2; try discriminate. injection E as <- <-.
    apply Forall_app in U as [U1 U2]. inversion P; subst.
    rewrite app_assoc. eapply IH; eauto; [|split; auto]. eapply good_step; eauto.
Qed.

Lemma run_good : forall ls s tr, run init ls = Some (s, tr) -> orderly ls tr -> Good s tr.
Proof. intros ls s tr E O. apply (good_run ls init [] s tr good_init E O). Qed.

Lemma none : forall f (tr : list event), times f tr = 0 -> forall e, In e tr -> f e = false.
Proof.
  intros f tr T e I. destruct (f e) eqn:F; auto. exfalso.
  assert (In e (filter f tr)) by (apply filter_In; auto). unfold times in T.
  destruct (filter f tr); [contradiction|discriminate].
Qed.
Lemma some : forall f (tr : list event) e, In e tr -> f e = true -> times f tr >= 1.
Proof.
  intros f tr e I F. assert (In e (filter f tr)) by (apply filter_In; auto). unfold times.
  destruct (filter f tr); [contradiction|cbn; lia].
Qed.
Lemma one : forall f (tr : list event), times f tr >= 1 -> exists e, In e tr /\ f e = true.
Proof.
  intros f tr T. unfold times in T. destruct (filter f tr) as [|e r] eqn:F; cbn in T; [lia|].
  exists e. apply filter_In. rewrite F. now left.
Qed.

(** After an await that was refused or broken off: a posted function is responsible. *)
Definition Late (s : state) : Prop :=
  (forall k, held s k = false) /\ (forall k, life s k = false) /\ owned s = false /\
  match pl s with Runs | Returned => posted s = 1 | Gone => posted s = 0 | Waits _ _ => False end.

Lemma late_run : forall ls s s' (es : list event), Late s -> run s ls = Some (s', es) -> Forall no_more_waits ls ->
  Late s' /\ times is_bad es = 0 /\ times is_destroy es = (if gone s' then 1 else 0) - (if gone s then 1 else 0)
  /\ (gone s = true -> gone s' = true).
Proof.
  induction ls as [|l t IH]; intros s s' es L E N; cbn in E.
  - injection E as <- <-. split; [auto|]. unfold times. cbn. split; [auto|]. split; [lia|auto].
  - destruct (step s l) as [[s1 e1]|] eqn:E1; try discriminate.
    destruct (run s1 t) as [[s2 e2]|] eqn:E2; try discriminate. injection E as <- <-.
    inversion N; subst.
    assert (X : Late s1 /\ times is_bad e1 = 0 /\ times is_destroy e1 = (if gone s1 then 1 else 0) - (if gone s then 1 else 0)
                /\ (gone s = true -> gone s1 = true)).
    { destruct L as (Lh & Ll & Lo & Lp). destruct s as [p ow hd lf po ca nx]; cbn in *.
      destruct l as [[v| |v|v|]| |n v|n| | |b]; cbn in H1; try contradiction; cbn in E1; subst ow.
      - destruct p; try discriminate. injection E1 as <- <-. unfold Late, gone, times; cbn. repeat split; auto.
      - destruct p; try discriminate. injection E1 as <- <-. unfold Late, gone, times; cbn. repeat split; auto.
      - destruct p; try discriminate; try contradiction; subst po; try discriminate.
        injection E1 as <- <-. unfold Late, gone, times; cbn. repeat split; auto.
      - injection E1 as <- <-. unfold Late, gone, times; cbn. repeat split; auto. destruct p; auto. }
    destruct X as (L1 & B1 & D1 & M1).
    destruct (IH _ _ _ L1 E2 H2) as (L2 & B2 & D2 & M2).
    split; auto. rewrite !times_app, B1, B2, D1, D2. repeat split; auto.
    destruct (gone s), (gone s1), (gone s2); try lia; intuition congruence.
Qed.

(** A refused or broken await of a coroutine that is in order. *)
Lemma refuse_late : forall s tr (h : how V) s1 (e1 : list event), Good s tr -> step s (LAwait h) = Some (s1, e1) ->
  (exists v, h = Refuses v) \/ ~ Forall unbroken e1 -> Late s1 /\ times is_bad e1 = 0 /\ times is_destroy e1 = 0 /\ gone s = false /\ gone s1 = false.
Proof.
  intros s tr h s1 e1 [[Fr I] _ _ _ _ _ _] E C. cbn in E.
  destruct s as [p ow hd lf po ca nx]; cbn in *. destruct p; try discriminate. destruct I as (-> & -> & I).
  unfold await in E. cbn in E.
  assert (B : forall (ca : bool) (pl0 : place), Late (leave nx (enter nx (mk Runs true hd lf 0 ca nx))) /\ gone (mk Runs true hd lf 0 ca nx) = false) by
    (intros; unfold Late, gone; cbn; rewrite upd_same; repeat split; auto; [apply I|intros; solve_upd; auto; apply I]).
  unfold times.
  destruct h as [v| |v|v|], ca; cbn in E; injection E as <- <-;
    try (destruct C as [[? C]|C]; [discriminate C|exfalso; apply C; repeat constructor; fail]);
    cbn; repeat split; auto; try apply (B true Runs); try apply (B false Runs).
Qed.
End Proofs.

(** ** C77: a stackful coroutine that awaits goes on once per await and is destroyed once *)

(** Nobody resumes or destroys a coroutine that is gone.  What is missing: awaitables whose
    await_suspend returns false or throws, and cancelled coroutines (refuted below). *)
Theorem C77_safe_partial : forall V (ls : list (label V)) s tr,
  run init ls = Some (s, tr) -> orderly ls tr -> forall b, ~ In (EBad b) tr.
Proof.
  intros V ls s tr E O b I. pose proof (g_bad _ _ (run_good _ _ _ E O)) as B.
  apply (none _ _ B) in I. discriminate.
Qed.
Print Assumptions C77_safe_partial.

(** Every await starts once and ends once, but for the one the coroutine is waiting in. *)
Theorem C77_each_await_once_partial : forall V (ls : list (label V)) s tr n,
  run init ls = Some (s, tr) -> orderly ls tr ->
  times (starts n) tr <= 1 /\
  (times (ends n) tr = times (starts n) tr \/
   times (starts n) tr = 1 /\ times (ends n) tr = 0 /\ exists framed, pl s = Waits n framed).
Proof.
  intros V ls s tr n E O. destruct (run_good _ _ _ E O) as [I _ St En _ _ _].
  rewrite St, En. unfold pending. split. { destruct (n <? next s); auto. }
  destruct (n <? next s) eqn:L; cbn; auto.
  destruct (pl s) as [|m fr| |]; auto. destruct (Nat.eqb_spec m n); subst; cbn; auto.
  right. eauto.
Qed.
Print Assumptions C77_each_await_once_partial.

(** It is destroyed at most once; because it returned (then at once), or because a handle of it was
    destroyed; and when everything has come to an end, it has been destroyed. *)
Theorem C77_destroyed_once_partial : forall V (ls : list (label V)) s tr,
  run init ls = Some (s, tr) -> orderly ls tr ->
  times is_destroy tr <= 1 /\
  (In EReturn tr -> In EDestroy tr) /\
  (In EDestroy tr -> In EReturn tr \/ exists n, In (EDrop n) tr) /\
  (over s -> In EDestroy tr).
Proof.
  intros V ls s tr E O. destruct (run_good _ _ _ E O) as [[_ I] _ _ _ De Re Wy].
  assert (D : times is_destroy tr >= 1 -> In EDestroy tr).
  { intros T. apply one in T as (e & In1 & F). destruct e; try discriminate. auto. }
  split. { rewrite De. destruct (gone s); auto. }
  split. { intros R. apply D. apply (some is_return) in R; auto. lia. }
  split.
  { intros In1. apply (some is_destroy) in In1; auto.
    assert (T : times is_return tr >= 1 \/ times is_drop tr >= 1) by lia.
    destruct T as [T|T]; apply one in T as (e & In2 & F); destruct e; try discriminate; eauto. }
  intros (NR & H & P0). apply D. rewrite De. unfold gone.
  destruct (pl s) as [|n fr| |]; auto; try contradiction.
  destruct I as (_ & _ & [(H1 & _)|(_ & _ & P1)] & _); [rewrite H in H1; discriminate | lia].
Qed.
Print Assumptions C77_destroyed_once_partial.

(** An await gives what the awaitable has, or what its handle was resumed for. *)
Theorem C77_outcome : forall V (ls : list (label V)) s tr n v,
  run init ls = Some (s, tr) -> In (EGot n v) tr -> exists l, In l ls /\ says n v l.
Proof.
  intros V ls s tr n v. generalize (@init). intros s0. revert s0 s tr.
  induction ls as [|l t IH]; intros s0 s tr E I; cbn in E.
  - injection E as <- <-. destruct I.
  - destruct (step s0 l) as [[s1 e1]|] eqn:E1; try discriminate.
    destruct (run s1 t) as [[s2 e2]|] eqn:E2; try discriminate. injection E as <- <-.
    apply in_app_or in I as [I|I].
    2: { destruct (IH _ _ _ E2 I) as (x & ? & ?). exists x. split; auto. now right. }
    exists l. split. { now left. }
    destruct l as [h| |m w|m| | |b]; cbn in E1.
    + destruct (pl s0); try discriminate. unfold await in E1.
      destruct h, (cancelled s0); injection E1 as <- <-; cbn in I;
        repeat destruct I as [I|I]; try discriminate I; try injection I as <- <-; try contradiction; cbn; auto.
    + destruct (pl s0); try discriminate. unfold yield_op in E1.
      destruct (cancelled s0); injection E1 as <- <-; cbn in I;
        repeat destruct I as [I|I]; try discriminate I; try contradiction.
    + destruct (held s0 m); try discriminate.
      destruct (pl s0) as [|k fr| |]; [|destruct (k =? m)| |]; injection E1 as <- <-; cbn in I;
        repeat destruct I as [I|I]; try discriminate I; try injection I as <- <-; try contradiction; cbn; auto.
    + destruct (held s0 m); try discriminate.
      destruct (pl s0); injection E1 as <- <-; cbn in I; repeat destruct I as [I|I]; try discriminate I; try contradiction.
    + destruct (pl s0); try discriminate. destruct (owned s0); injection E1 as <- <-; cbn in I;
        repeat destruct I as [I|I]; try discriminate I; try contradiction.
    + destruct s0 as [p ow hd lf po ca nx]. cbn in E1. destruct p as [|k [|]| |], po; try discriminate;
        injection E1 as <- <-; cbn in I; repeat destruct I as [I|I]; try discriminate I; try contradiction.
    + injection E1 as <- <-. destruct I.
Qed.
Print Assumptions C77_outcome.

(** One await whose await_suspend returns false, or that a cancelled coroutine makes, is harmless
    if the coroutine never waits again (this is what the tests exercise). *)
Theorem C77_last_refusal_partial : forall V (ls1 ls2 : list (label V)) h s1 tr1 s2 tr2 s3 tr3,
  run init ls1 = Some (s1, tr1) -> orderly ls1 tr1 ->
  step s1 (LAwait h) = Some (s2, tr2) -> (exists v, h = Refuses v) \/ ~ Forall unbroken tr2 ->
  run s2 ls2 = Some (s3, tr3) -> Forall no_more_waits ls2 ->
  (forall b, ~ In (EBad b) (tr1 ++ tr2 ++ tr3)) /\
  times is_destroy (tr1 ++ tr2 ++ tr3) <= 1 /\
  (over s3 -> In EDestroy (tr1 ++ tr2 ++ tr3)).
Proof.
  intros V ls1 ls2 h s1 tr1 s2 tr2 s3 tr3 E1 O E2 C E3 N.
  pose proof (run_good _ _ _ E1 O) as Gd.
  destruct (refuse_late _ _ _ _ _ Gd E2 C) as (L & B2 & D2 & G1 & G2).
  destruct (late_run _ _ _ _ L E3 N) as (L3 & B3 & D3 & _).
  pose proof (g_bad _ _ Gd) as B1. pose proof (g_destroy _ _ Gd) as D1. rewrite G1 in D1. rewrite G2 in D3.
  assert (B : times is_bad (tr1 ++ tr2 ++ tr3) = 0) by (rewrite !times_app; lia).
  assert (D : times is_destroy (tr1 ++ tr2 ++ tr3) = if gone s3 then 1 else 0) by (rewrite !times_app; lia).
  split. { intros b I. apply (none _ _ B) in I. discriminate. }
  split. { rewrite D. destruct (gone s3); auto. }
  intros (NR & _ & P0). destruct L3 as (_ & _ & _ & P).
  assert (T : times is_destroy (tr1 ++ tr2 ++ tr3) >= 1).
  { rewrite D. unfold gone. destruct (pl s3); auto; try contradiction; lia. }
  apply one in T as (e & I & F). destruct e; try discriminate. auto.
Qed.
Print Assumptions C77_last_refusal_partial.

(** The hypotheses are met: an await that is ready, one that hands back the handle, one that waits,
    an operation of asio, and the end. *)
Definition sample : list (label nat) :=
  [LAwait (Ready 1); LAwait (Hands 2); LAwait Keeps; LCancel true; LResume 2 3; LYield; LCancel false; LYield; LResume 4 5; LReturn].
Example C77_nonvacuous : exists s,
  run init sample = Some (s, [EAwait 0; EGot 0 1; EAwait 1; ETake 1; EGot 1 2; EAwait 2; ETake 2; EGot 2 3;
     EAwait 3; EAbort 3 false; EAwait 4; ETake 4; EGot 4 5; EReturn; EDestroy])
  /\ orderly sample [EAwait 0; EGot 0 1; EAwait 1; ETake 1; EGot 1 2; EAwait 2; ETake 2; EGot 2 3;
     EAwait 3; EAbort 3 false; EAwait 4; ETake 4; EGot 4 5; EReturn; EDestroy] /\ pl s = Gone.
Proof. eexists. split; [vm_compute; reflexivity|]. split; [split; repeat constructor|reflexivity]. Qed.
Example C77_drop_nonvacuous : exists s,
  run init [LAwait Keeps; LDrop 0; LPosted] = Some (s, [EAwait 0; ETake 0; EDrop 0; EUnwound 0; @EDestroy nat]) /\ pl s = Gone.
Proof. eexists. split; [vm_compute; reflexivity|reflexivity]. Qed.
Example C77_last_refusal_nonvacuous : exists s,
  run init [LAwait (Refuses 1); LReturn; LPosted] = Some (s, [EAwait 0; ETake 0; EGot 0 1; EReturn; EDestroy]) /\ pl s = Gone.
Proof. eexists. split; [vm_compute; reflexivity|reflexivity]. Qed.

(** Refuted: after an awaitable whose await_suspend returned false (a promise or an operation
    that is done by then: detail/promise.hpp:190, op.hpp:60) the coroutine is destroyed in its
    next await, although it has not returned and nobody destroyed a handle; what it waits for then
    resumes a coroutine that is gone. *)
Theorem C77_refused_then_waits_refuted : exists (ls : list (label nat)) s tr,
  run init ls = Some (s, tr) /\ Forall unbroken tr
  /\ ls = [LAwait (Refuses 1); LYield; LPosted; LResume 1 2]
  /\ In EDestroy tr /\ ~ In EReturn tr /\ (forall n, ~ In (EDrop n) tr) /\ In (EBad ResumedGone) tr /\ posted s = 0.
Proof.
  do 3 eexists. split; [|split; [|split; [reflexivity|]]]; [vm_compute; reflexivity|repeat constructor|].
  cbn. intuition (try discriminate).
Qed.
Print Assumptions C77_refused_then_waits_refuted.

(** Refuted: the same if the operation is abandoned: it destroys a coroutine that is gone. *)
Theorem C77_refused_then_dropped_refuted : exists (ls : list (label nat)) s tr,
  run init ls = Some (s, tr) /\ ls = [LAwait (Refuses 1); LYield; LPosted; LDrop 1]
  /\ ~ In EReturn tr /\ In (EBad DestroyedGone) tr.
Proof. do 3 eexists. split; [|split; [reflexivity|]]; [vm_compute; reflexivity|cbn; intuition discriminate]. Qed.
Print Assumptions C77_refused_then_dropped_refuted.

(** Refuted: two such awaits destroy it twice. *)
Theorem C77_refused_twice_refuted : exists (ls : list (label nat)) s tr,
  run init ls = Some (s, tr) /\ ls = [LAwait (Refuses 1); LAwait (Refuses 2); LReturn; LPosted; LPosted]
  /\ In (EBad DestroyedGone) tr.
Proof. do 3 eexists. split; [|split; [reflexivity|]]; [vm_compute; reflexivity|cbn; auto 12]. Qed.
Print Assumptions C77_refused_twice_refuted.

(** Refuted: so does catching operation_aborted and going on; unwinding the frame of the second
    await posts a further destruction. *)
Theorem C77_cancelled_refuted : exists (ls : list (label nat)) s tr,
  run init ls = Some (s, tr) /\ Forall patient ls
  /\ ls = [LCancel true; LAwait Keeps; LCancel false; LAwait Keeps; LPosted; LPosted; LResume 1 2]
  /\ In EDestroy tr /\ ~ In EReturn tr /\ In (EBad DestroyedGone) tr /\ In (EBad ResumedGone) tr.
Proof.
  do 3 eexists. split; [|split; [|split; [reflexivity|]]]; [vm_compute; reflexivity|repeat constructor|].
  cbn. intuition discriminate.
Qed.
Print Assumptions C77_cancelled_refuted.

(** Refuted: if await_suspend throws, the coroutine waits for ever and is never destroyed. *)
Theorem C77_throws_refuted : exists (ls : list (label nat)) s tr,
  run init ls = Some (s, tr) /\ ls = [LAwait Throws] /\ over s /\ tr = [EAwait 0; ETake 0; EEscape 0]
  /\ forall ls' : list (label nat), Forall (fun l => match l with LCancel _ => False | _ => True end) ls' -> ls' <> [] -> run s ls' = None.
Proof.
  do 3 eexists. split; [|split; [reflexivity|]]; [vm_compute; reflexivity|].
  split. { repeat split; cbn; congruence. }
  split. { reflexivity. }
  intros [|l t] F N; [congruence|]. inversion F; subst.
  destruct l; cbn; auto; contradiction.
Qed.
Print Assumptions C77_throws_refuted.
