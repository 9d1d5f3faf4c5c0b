(** * Invariants of the resolver model *)
From Coq Require Import List Bool Arith Lia Permutation.
From Verif Require Import Sock_Model Rsv_Model Rsv_Spec.
Import ListNotations.

Section inv.
Variable W : nat.

Lemma run_app : forall l1 l2 s, run W (l1 ++ l2) s =
  match run W l1 s with
  | Some (s1, e1) => match run W l2 s1 with Some (s2, e2) => Some (s2, e1 ++ e2) | None => None end
  | None => None
  end.
Proof.
  induction l1 as [|l l1 IH]; intros l2 s; simpl.
  - destruct (run W l2 s) as [[? ?]|]; reflexivity.
  - destruct (exec W l s) as [[s1 e1]|]; [|reflexivity]. rewrite IH.
    destruct (run W l1 s1) as [[s2 e2]|]; [|reflexivity].
    destruct (run W l2 s2) as [[s3 e3]|]; [|reflexivity]. now rewrite app_assoc.
Qed.

(** induction over histories, adding a step at the end *)
Lemma hist_ind : forall (Q : list label -> state -> list event -> Prop),
  Q [] init [] ->
  (forall ls s es l s' e, run W ls init = Some (s, es) -> Q ls s es -> exec W l s = Some (s', e) -> Q (ls ++ [l]) s' (es ++ e)) ->
  forall ls s es, run W ls init = Some (s, es) -> Q ls s es.
Proof.
  intros Q H0 HS ls. induction ls as [|l ls IH] using rev_ind; intros s es H.
  - simpl in H. injection H as <- <-. exact H0.
  - rewrite run_app in H. destruct (run W ls init) as [[s1 e1]|] eqn:E; [|discriminate].
    simpl in H. destruct (exec W l s1) as [[s2 e2]|] eqn:X; [|discriminate].
    injection H as <- <-. rewrite app_nil_r. eapply HS; eauto.
Qed.

Definition pipe (s : state) : list nat := map fst (done s) ++ map j_id (active s) ++ map j_id (queue s).

Ltac inv :=
  repeat match goal with
  | H : Some _ = Some _ |- _ => injection H as <- <-
  | H : None = Some _ |- _ => discriminate H
  | H : (if ?b then _ else _) = Some _ |- _ => destruct b eqn:?
  | H : match ?x with _ => _ end = Some _ |- _ => destruct x eqn:?
  end.

Lemma split_nth : forall A (l : list A) k a, nth_error l k = Some a -> l = firstn k l ++ a :: skipn (S k) l.
Proof.
  induction l as [|b l IH]; intros [|k] a H; try discriminate.
  - injection H as ->. reflexivity.
  - change (b :: l = b :: firstn k l ++ a :: skipn (S k) l). f_equal. apply IH. exact H.
Qed.

Lemma flat_gone : forall l, ended_in (map EGone l) = l.
Proof. induction l; simpl; [auto|f_equal; auto]. Qed.
Lemma begun_gone : forall l, begun_in (map EGone l) = [].
Proof. induction l; simpl; auto. Qed.
Lemma ended_app : forall a b, ended_in (a ++ b) = ended_in a ++ ended_in b.
Proof. intros. unfold ended_in. apply flat_map_app. Qed.
Lemma begun_app : forall a b, begun_in (a ++ b) = begun_in a ++ begun_in b.
Proof. intros. unfold begun_in. apply flat_map_app. Qed.

(** ** the pipeline of queries *)
Lemma exec_pipe : forall l s s' e, exec W l s = Some (s', e) ->
  Permutation (pipe s ++ begun_in e) (ended_in e ++ pipe s').
Proof.
  intros l s s' e H. unfold exec in H. destruct (up s) eqn:U; [|discriminate]. cbn [negb] in H.
  destruct l; inv; unfold pipe; cbn -[skipn]; rewrite ?app_nil_r; auto.
  - destruct (o_own o0); cbn; auto.
  - rewrite map_app. cbn. rewrite <- !app_assoc. apply Permutation_refl.
  - rewrite Heql, map_app. cbn.
    rewrite <- !app_assoc. cbn. apply Permutation_app_head. apply Permutation_sym. apply Permutation_middle.
  - rewrite Heql, map_app. cbn. rewrite <- !app_assoc. apply Permutation_refl.
  - rewrite (split_nth _ _ _ _ Heqo) at 1. rewrite !map_app. cbn -[skipn].
    rewrite <- !app_assoc. cbn -[skipn]. apply Permutation_app_head. apply Permutation_sym. apply Permutation_middle.
  - rewrite Heql. apply Permutation_refl.
  - rewrite Heql. apply Permutation_refl.
  - rewrite Heql, ended_app, !flat_gone, begun_app, !begun_gone. cbn. rewrite !app_nil_r. apply Permutation_refl.
Qed.

(** the order with a single worker *)
Lemma exec_order : W = 1 -> forall l s s' e, length (active s) <= 1 -> exec W l s = Some (s', e) ->
  length (active s') <= 1 /\ pipe s ++ begun_in e = ended_in e ++ pipe s'.
Proof.
  intros HW l s s' e HL H. unfold exec in H. destruct (up s) eqn:U; [|discriminate]. cbn [negb] in H.
  destruct l; inv; unfold pipe; cbn -[skipn]; rewrite ?app_nil_r; auto.
  - destruct (o_own o0); cbn; auto.
  - split; [auto|]. rewrite map_app. cbn. now rewrite <- !app_assoc.
  - split; [auto|]. apply Nat.ltb_lt in Heqb. assert (active s = []) as A by (destruct (active s); [auto|cbn in Heqb; lia]).
    rewrite Heql, A, map_app. cbn. now rewrite <- !app_assoc.
  - apply Nat.ltb_lt in Heqb. assert (active s = []) as A by (destruct (active s); [auto|cbn in Heqb; lia]).
    rewrite Heql, A. cbn. auto.
  - destruct (active s) as [|j' [|? ?]] eqn:A; [destruct k; discriminate| |cbn in HL; lia].
    destruct k as [|k]; [|destruct k; discriminate]. injection Heqo as ->.
    cbn. split; [lia|]. rewrite map_app. cbn. now rewrite <- !app_assoc.
  - rewrite Heql. auto.
  - rewrite Heql. auto.
  - split; [lia|]. rewrite Heql, ended_app, !flat_gone, begun_app, !begun_gone. cbn. now rewrite !app_nil_r.
Qed.

(** ** what holds after every history *)
Definition told (es : list event) (i : nat) (r : outcome) : Prop :=
  exists x n v, In (EBegun i x n v) es /\
    (r = RAborted \/ exists a, In (EAsk i n v) es /\ In (EReply i a) es /\ r = transform a).

Definition stopped (ls : list label) (i x : nat) : Prop :=
  exists l1 l l2 o, ls = l1 ++ l :: l2 /\ In (LAwait i o) l1 /\ stops x l1 l.

Definition named (ls : list label) (i x n v : nat) : Prop :=
  exists l1 o l2 h w b, ls = l1 ++ LAwait i o :: l2 /\ oper_after o l1 None = Some (x, h, w, b) /\
    text_after h l1 None = Some n /\ text_after w l1 None = Some v.

Record good (ls : list label) (s : state) (es : list event) : Prop := mkgood
  { g_text : forall k, text s k = text_after k ls None;
    g_ops : forall o, option_map (fun p => (o_res p, o_host p, o_serv p, o_own p)) (ops s o) = oper_after o ls None;
    g_perm : Permutation (begun_in es) (ended_in es ++ pipe s);
    g_flag : forall i, In i (begun_in es) -> begun s i = true;
    g_nodup : NoDup (begun_in es);
    g_work : work s = length (pipe s);
    g_queue : forall j, In j (queue s) -> In (EBegun (j_id j) (j_res j) (j_host j) (j_serv j)) es /\ exists o, In (LAwait (j_id j) o) ls;
    g_active : forall j, In j (active s) -> In (EBegun (j_id j) (j_res j) (j_host j) (j_serv j)) es /\ In (EAsk (j_id j) (j_host j) (j_serv j)) es;
    g_done : forall i r, In (i, r) (done s) -> told es i r;
    g_got : forall i r, In (EGot i r) es -> told es i r;
    g_named : forall i x n v, In (EBegun i x n v) es -> named ls i x n v;
    g_stop : forall j, In j (queue s) -> expired s j = true -> stopped ls (j_id j) (j_res j);
    g_aborted : forall i, In (i, RAborted) (done s) \/ In (EGot i RAborted) es ->
                exists x n v, In (EBegun i x n v) es /\ stopped ls i x;
    g_used : forall x, live s x = true -> used s x = true;
    g_job : forall j, In j (queue s) -> used s (j_res j) = true /\ j_tok j <= tok s (j_res j) }.

Lemma text_snoc : forall k ls l t, text_after k (ls ++ [l]) t = text_after k [l] (text_after k ls t).
Proof. intros k ls; induction ls as [|a ls IH]; intros l t; [reflexivity|]. destruct a; cbn [text_after app]; apply IH. Qed.
Lemma oper_snoc : forall k ls l t, oper_after k (ls ++ [l]) t = oper_after k [l] (oper_after k ls t).
Proof. intros k ls; induction ls as [|a ls IH]; intros l t; [reflexivity|]. destruct a; cbn [oper_after app]; apply IH. Qed.

Lemma told_mono : forall es e i r, told es i r -> told (es ++ e) i r.
Proof.
  intros es e i r (x & n & v & H & K). exists x, n, v. split; [apply in_or_app; auto|].
  destruct K as [K|(a & A & B & C)]; [auto|]. right. exists a. repeat split; auto; apply in_or_app; auto.
Qed.
Lemma stopped_mono : forall ls l i x, stopped ls i x -> stopped (ls ++ [l]) i x.
Proof.
  intros ls l i x (l1 & k & l2 & o & -> & A & B). exists l1, k, (l2 ++ [l]), o. rewrite <- app_assoc. auto.
Qed.
Lemma named_mono : forall ls l i x n v, named ls i x n v -> named (ls ++ [l]) i x n v.
Proof.
  intros ls l i x n v (l1 & o & l2 & h & w & b & -> & A & B & C). exists l1, o, (l2 ++ [l]), h, w, b. rewrite <- app_assoc. auto.
Qed.

Lemma exec_text : forall l s s' e, exec W l s = Some (s', e) -> forall k, text s' k = text_after k [l] (text s k).
Proof.
  intros l s s' e H k. unfold exec in H. destruct (up s) eqn:U; [|discriminate]. cbn [negb] in H.
  destruct l; inv; cbn; auto; unfold upd; try (rewrite Nat.eqb_sym; reflexivity).
  all: try (destruct (o_own _); reflexivity); try (now rewrite (Nat.eqb_sym k)).
Qed.

Lemma exec_ops : forall l s s' e, exec W l s = Some (s', e) -> forall o,
  option_map (fun p => (o_res p, o_host p, o_serv p, o_own p)) (ops s' o) =
  oper_after o [l] (option_map (fun p => (o_res p, o_host p, o_serv p, o_own p)) (ops s o)).
Proof.
  intros l s s' e H k. unfold exec in H. destruct (up s) eqn:U; [|discriminate]. cbn [negb] in H.
  destruct l; inv; cbn; auto; unfold upd; rewrite (Nat.eqb_sym k); destruct (_ =? _); reflexivity.
Qed.

Lemma exec_begun : forall l s s' e, exec W l s = Some (s', e) ->
  (forall i, begun s i = true -> begun s' i = true) /\
  (forall i, In i (begun_in e) -> begun s i = false /\ begun s' i = true) /\ NoDup (begun_in e).
Proof.
  intros l s s' e H. unfold exec in H. destruct (up s) eqn:U; [|discriminate]. cbn [negb] in H.
  destruct l; inv; cbn; rewrite ?begun_app, ?begun_gone; cbn; repeat split; intros; auto; try tauto; try constructor; auto; try constructor.
  all: unfold upd; try (destruct (_ =? _); auto; fail).
  all: try (destruct H as [<-|[]]; auto; rewrite Nat.eqb_refl; auto).
  all: destruct (o_own _); cbn; auto.
Qed.

Lemma exec_work : forall l s s' e, exec W l s = Some (s', e) -> work s = length (pipe s) -> work s' = length (pipe s').
Proof.
  intros l s s' e H K. pose proof (Permutation_length (exec_pipe _ _ _ _ H)) as L. rewrite !app_length in L.
  unfold exec in H. destruct (up s) eqn:U; [|discriminate]. cbn [negb] in H.
  destruct l; inv; cbn -[skipn pipe] in *; try lia.
  - destruct (o_own o0); cbn -[pipe] in *; lia.
  - reflexivity.
Qed.

(** where the elements of the pipeline come from *)
Lemma exec_queue : forall l s s' e, exec W l s = Some (s', e) -> forall j, In j (queue s') ->
  In j (queue s) \/
  (exists o h w, l = LAwait (j_id j) o /\ e = [EBegun (j_id j) (j_res j) (j_host j) (j_serv j)] /\ live s (j_res j) = true /\
     j_tok j = tok s (j_res j) /\ ops s o = Some (mko (j_res j) h w (match ops s o with Some p => o_own p | None => false end)) /\
     text s h = Some (j_host j) /\ text s w = Some (j_serv j)).
Proof.
  intros l s s' e H j J. unfold exec in H. destruct (up s) eqn:U; [|discriminate]. cbn [negb] in H.
  destruct l; inv; cbn in J; auto.
  - left. destruct (o_own o0); auto.
  - apply in_app_or in J. destruct J as [J|[<-|[]]]; [auto|]. right.
    exists o, (o_host o0), (o_serv o0). cbn. rewrite Heqo0. destruct o0; cbn in *. repeat split; auto.
  - left. now right.
  - left. now right.
  - destruct J.
Qed.

Lemma exec_active : forall l s s' e, exec W l s = Some (s', e) -> forall j, In j (active s') ->
  In j (active s) \/ (In j (queue s) /\ e = [EAsk (j_id j) (j_host j) (j_serv j)] /\ expired s j = false).
Proof.
  intros l s s' e H j J. unfold exec in H. destruct (up s) eqn:U; [|discriminate]. cbn [negb] in H.
  destruct l; inv; cbn -[skipn] in J; auto.
  - left. destruct (o_own o0); auto.
  - apply in_app_or in J. destruct J as [J|[<-|[]]]; [auto|]. right. try rewrite Heql. cbn. auto.
  - left. rewrite (split_nth _ _ _ _ Heqo). apply in_app_or in J. apply in_or_app. destruct J; [auto|right; right; auto].
  all: destruct J.
Qed.

Lemma exec_done : forall l s s' e, exec W l s = Some (s', e) -> forall i r, In (i, r) (done s') ->
  In (i, r) (done s) \/
  (exists j, In j (queue s) /\ j_id j = i /\ r = RAborted /\ expired s j = true) \/
  (exists j a, In j (active s) /\ j_id j = i /\ e = [EReply i a] /\ r = transform a).
Proof.
  intros l s s' e H i r J. unfold exec in H. destruct (up s) eqn:U; [|discriminate]. cbn [negb] in H.
  destruct l; inv; cbn -[skipn] in J; auto.
  - left. destruct (o_own o0); auto.
  - apply in_app_or in J. destruct J as [J|[J|[]]]; [auto|]. injection J as <- <-. right; left. exists j. try rewrite Heql. cbn. auto.
  - apply in_app_or in J. destruct J as [J|[J|[]]]; [auto|]. injection J as <- <-. right; right.
    exists j, a. split; [apply (nth_error_In _ _ Heqo)|auto].
  - left. try rewrite Heql. now right.
  - left. try rewrite Heql. now right.
  - destruct J.
Qed.

Lemma in_gone : forall (P : nat -> event) l k, (forall i, P i <> k) -> ~ In k (map P l).
Proof. intros P l k H K. apply in_map_iff in K. destruct K as (i & K & _). exact (H i K). Qed.

Lemma exec_got : forall l s s' e, exec W l s = Some (s', e) -> forall i r, In (EGot i r) e -> In (i, r) (done s).
Proof.
  intros l s s' e H i r J. unfold exec in H. destruct (up s) eqn:U; [|discriminate]. cbn [negb] in H.
  destruct l; inv; cbn in J; try tauto; try (destruct J as [J|J]; [try discriminate J|try tauto]).
  - destruct J as [J|[]]. discriminate J.
  - injection J as <- <-. try rewrite Heql. now left.
  - apply in_app_or in J. exfalso. destruct J as [J|J]; revert J; apply in_gone; discriminate.
Qed.

Lemma exec_ebegun : forall l s s' e, exec W l s = Some (s', e) -> forall i x n v, In (EBegun i x n v) e ->
  exists o h w ow, l = LAwait i o /\ ops s o = Some (mko x h w ow) /\ text s h = Some n /\ text s w = Some v.
Proof.
  intros l s s' e H i x n v J. unfold exec in H. destruct (up s) eqn:U; [|discriminate]. cbn [negb] in H.
  destruct l; inv; cbn in J; try tauto; try (destruct J as [J|J]; [try discriminate J|try tauto]).
  - injection J as <- <- <- <-. exists o, (o_host o0), (o_serv o0), (o_own o0). destruct o0; auto.
  - destruct J as [J|[]]. discriminate J.
  - apply in_app_or in J. exfalso. destruct J as [J|J]; revert J; apply in_gone; discriminate.
Qed.

(** when a query that waits becomes invalid *)
Lemma exec_expired : forall l s s' e, exec W l s = Some (s', e) -> forall j,
  used s (j_res j) = true -> expired s' j = true -> expired s j = true \/
    (l = LCancel (j_res j) \/ l = LDestroy (j_res j) \/ exists o p, l = LDrop o /\ ops s o = Some p /\ o_res p = j_res j /\ o_own p = true).
Proof.
  intros l s s' e H j Hu J. unfold exec in H. destruct (up s) eqn:U; [|discriminate]. cbn [negb] in H.
  destruct l; inv; auto.
  - left. revert J. unfold expired, make; cbn. unfold upd. destruct (j_res j =? x); cbn; [intros ->; apply orb_true_r|auto].
  - destruct (Nat.eq_dec x (j_res j)) as [->|N]; [auto|]. left. revert J. unfold expired, cancel; cbn. unfold upd.
    replace (j_res j =? x) with false by (symmetry; apply Nat.eqb_neq; auto). auto.
  - destruct (Nat.eq_dec x (j_res j)) as [->|N]; [auto|]. left. revert J. unfold expired, kill; cbn. unfold upd.
    replace (j_res j =? x) with false by (symmetry; apply Nat.eqb_neq; auto). auto.
  - left. revert J. unfold expired, make; cbn. unfold upd. destruct (j_res j =? x); cbn; [intros ->; apply orb_true_r|auto].
  - destruct (Nat.eq_dec (o_res o0) (j_res j)) as [E|N]; [destruct (o_own o0) eqn:?; [right; right; right; eauto 6|auto]|]. left. revert J.
    destruct (o_own o0); [|auto]. unfold expired, kill; cbn. unfold upd.
    replace (j_res j =? o_res o0) with false by (symmetry; apply Nat.eqb_neq; auto). auto.
Qed.

(** tokens *)
Lemma exec_tok : forall l s s' e, exec W l s = Some (s', e) ->
  (forall x, used s x = true -> used s' x = true) /\ (forall x, tok s x <= tok s' x) /\
  ((forall x, live s x = true -> used s x = true) -> forall x, live s' x = true -> used s' x = true) /\
  (forall x, used s x = true -> live s x = false -> live s' x = false).
Proof.
  intros l s s' e H. unfold exec in H. destruct (up s) eqn:U; [|discriminate]. cbn [negb] in H.
  assert (forall A (f : nat -> A) k v x, upd f k v x = if x =? k then v else f x) as UE by reflexivity.
  destruct l; inv; cbn; repeat split; intros; auto; rewrite ?UE in *; try lia.
  all: try (destruct (x0 =? x) eqn:?; [apply Nat.eqb_eq in Heqb0; subst|]; auto; try lia; congruence).
  all: destruct (o_own o0); cbn in *; rewrite ?UE in *; auto.
  all: destruct (x =? o_res o0); auto; discriminate.
Qed.
End inv.
