(** * C84: what a user of io::signal_set can rely on *)
From Coq Require Import List Bool Arith Lia.
From Verif Require Import Sig_Model Sig_Spec Sig_Inv Sig_Count.
Import ListNotations.

Section history.
Variable bad : nat -> bool.

Lemma run_app l1 l2 s : run bad (l1 ++ l2) s =
  match run bad l1 s with
  | Some (t, e) => match run bad l2 t with Some (u, e') => Some (u, e ++ e') | None => None end
  | None => None
  end.
Proof.
  revert s. induction l1 as [|l l1 IH]; intros s; cbn.
  - now destruct (run bad l2 s) as [[u e']|].
  - destruct (exec bad l s) as [[t e]|]; [|easy]. rewrite IH. destruct (run bad l1 t) as [[u e']|]; [|easy].
    destruct (run bad l2 u) as [[v e'']|]; [|easy]. now rewrite app_assoc.
Qed.
Lemma run_one l s : run bad [l] s = match exec bad l s with Some (t, e) => Some (t, e) | None => None end.
Proof. cbn. destruct (exec bad l s) as [[t e]|]; [|easy]. now rewrite app_nil_r. Qed.

(** an occurrence of [n] in the history while [n] was registered in [x] *)
Definition occurred (x n : nat) (ls : list label) : Prop :=
  exists l1 l2 t et, ls = l1 ++ LRaise n :: l2 /\ run bad l1 init = Some (t, et) /\ registered x n t.
Lemma occurred_app x n ls l : occurred x n ls -> occurred x n (ls ++ l).
Proof. intros (l1 & l2 & t & et & -> & R & G). exists l1, (l2 ++ l), t, et. now rewrite <- app_assoc. Qed.

(** a reason for [i], an operation of [x], to be aborted *)
Definition aborts (i x : nat) (ls : list label) : Prop :=
  In (LCancel x) ls \/ In (LDestroy x) ls \/ In (LStop i) ls \/ In (LLose i) ls.

Definition cause (i x : nat) (r : outcome) (ls : list label) : Prop :=
  match r with OSig n => occurred x n ls | OAborted => aborts i x ls end.
Lemma cause_app i x r ls l : cause i x r ls -> cause i x r (ls ++ l).
Proof. destruct r; cbn; [apply occurred_app|]. unfold aborts. rewrite !in_app_iff. tauto. Qed.

Record H (ls : list label) (s : state) (es : list event) : Prop := mkH
  { h_pend : forall x p, In p (regs (sets s x)) -> snd p <> 0 -> occurred x (fst p) ls;
    h_post : forall i r x, In (i, r) (posted s) -> begun s i = Some x -> cause i x r ls;
    h_got : forall i x r, In (EGot i x r) es \/ In (ELost i x r) es -> cause i x r ls;
    h_lose : forall i, loser s i = true -> In (LLose i) ls }.

Lemma H_stop ls s es i k : H ls s es -> J s es -> (k = LStop i \/ k = LLose i) -> H (ls ++ [k]) (stop s i) es.
Proof.
  intros [A B C D] Q KK.
  assert (HH : H (ls ++ [k]) s es).
  { constructor.
    - intros x p P N. apply occurred_app. eauto.
    - intros j r x P N. apply cause_app. eauto.
    - intros j x r P. apply cause_app. auto.
    - intros j L. apply in_app_iff. auto. }
  unfold stop. destruct (begun s i) as [x|] eqn:BI; auto. destruct (existsb _ _); auto. destruct HH as [A' B' C' D']. constructor; cbn; auto.
  - intros y p. unfold upd. destruct (Nat.eqb_spec y x) as [->|]; cbn; auto.
  - intros j r y P. rewrite in_app_iff in P. destruct P as [P|[P|[]]]; [now apply B'|]. injection P as <- <-. intros _. cbn. unfold aborts.
    rewrite !in_app_iff. cbn. destruct KK as [-> | ->]; tauto.
Qed.

Lemma H_exec ls l s s' es e : J s es -> run bad ls init = Some (s, es) -> H ls s es -> exec bad l s = Some (s', e) ->
  H (ls ++ [l]) s' (es ++ e).
Proof.
  intros Q RI HH X.
  assert (HS : H (ls ++ [l]) s es).
  { destruct HH as [A B C D]. constructor.
    - intros x p P N. apply occurred_app. eauto.
    - intros i r x P N. apply cause_app. eauto.
    - intros i x r P. apply cause_app. auto.
    - intros i L. apply in_app_iff. auto. }
  assert (Z : forall t e, flat_map ends e = [] -> H (ls ++ [l]) t es -> H (ls ++ [l]) t (es ++ e)).
  { intros t e0 N [A B C D]. constructor; auto. intros i x r. rewrite !in_app_iff.
    assert (forall v, In v e0 -> ends v = []) as M.
    { intros v V. destruct (ends v) as [|a m] eqn:EV; auto. exfalso. assert (In a (flat_map ends e0)) as W; [|now rewrite N in W].
      apply in_flat_map. exists v. split; auto. rewrite EV. now left. }
    intros [[P|P]|[P|P]]; try (apply C; tauto); apply M in P; discriminate. }
  pose proof HS as [A B C D].
  destruct l as [|ns|x n|x n|x|x|x|i x|i|i|n|k]; cbn -[cancel stop make] in X.
  - injection X as <- <-. apply Z; auto. constructor; cbn; auto. intros y p. unfold upd. destruct (y =? count s); cbn; [easy|auto].
  - destruct (adds bad ns []) as [l|] eqn:AD; injection X as <- <-; apply Z; auto. constructor; cbn; auto.
    intros y p. unfold upd. destruct (y =? count s); cbn; [|auto]. intros P N. exfalso.
    assert (M : forall ns l0 l, adds bad ns l0 = Some l -> (forall q, In q l0 -> snd q = 0) -> forall q, In q l -> snd q = 0).
    { clear. induction ns as [|n ns IH]; cbn; intros l0 l AD Z; [injection AD as <-; auto|]. destruct (bad n); [discriminate|].
      eapply IH; eauto. intros q I. apply in_insert in I as [->|I]; auto. }
    apply N. eapply M; eauto. easy.
  - destruct (alive (sets s x)); [|discriminate]. destruct (bad n); injection X as <- <-; apply Z; auto. constructor; cbn; auto.
    intros y p. unfold upd. destruct (Nat.eqb_spec y x) as [->|]; cbn; auto. intros P N. apply in_insert in P as [->|P]; [easy|auto].
  - destruct (alive (sets s x)); [|discriminate]. injection X as <- <-. apply Z; auto. constructor; cbn; auto.
    intros y p. unfold upd. destruct (Nat.eqb_spec y x) as [->|]; cbn; auto. intros P N. apply filter_In in P as [P _]. auto.
  - destruct (alive (sets s x)); [|discriminate]. injection X as <- <-. apply Z; auto. constructor; cbn; auto.
    intros y p. unfold upd. destruct (Nat.eqb_spec y x) as [->|]; cbn; [easy|auto].
  - destruct (alive (sets s x)); [|discriminate]. injection X as <- <-. apply Z; auto. constructor; cbn; auto.
    + intros y p. unfold upd. destruct (Nat.eqb_spec y x) as [->|]; cbn; auto.
    + intros i r y P BI. rewrite in_app_iff in P. destruct P as [P|P]; [now apply B|]. apply in_map_iff in P as (j & E & P). injection E as -> <-.
      apply (j_wait _ _ Q) in P. rewrite P in BI. injection BI as ->. cbn. left. apply in_app_iff. right. now left.
  - destruct (alive (sets s x)); [|discriminate]. injection X as <- <-. apply Z; auto. constructor; cbn; auto.
    + intros y p. unfold upd. destruct (Nat.eqb_spec y x) as [->|]; cbn; [easy|auto].
    + intros i r y P BI. rewrite in_app_iff in P. destruct P as [P|P]; [now apply B|]. apply in_map_iff in P as (j & E & P). injection E as -> <-.
      apply (j_wait _ _ Q) in P. rewrite P in BI. injection BI as ->. cbn. right. left. apply in_app_iff. right. now left.
  - destruct (alive (sets s x)); [|discriminate]. destruct (begun s i) as [?|] eqn:BI; [discriminate|].
    assert (NP : forall r, ~ In (i, r) (posted s)).
    { intros r P. apply (in_map fst) in P. apply (j_post _ _ Q) in P as (y & Y & _). cbn in Y. congruence. }
    destruct (take (regs (sets s x))) as [[n l]|] eqn:TK; injection X as <- <-; apply Z; auto; constructor; cbn; auto.
    + intros y p. unfold upd. destruct (Nat.eqb_spec y x) as [->|]; cbn; auto. intros P N.
      assert (M : forall (l l' : list (nat * nat)) p, take l = Some (n, l') -> In p l' -> snd p <> 0 -> exists q, In q l /\ snd q <> 0 /\ fst q = fst p).
      { clear - n. induction l as [|[m c] l IH]; cbn; intros l' p T P N; [discriminate|]. destruct c as [|c].
        - destruct (take l) as [[j u]|] eqn:T'; [|discriminate]. injection T as -> <-. destruct P as [<-|P]; [easy|].
          destruct (IH u p eq_refl P N) as (q & Q1 & Q2). exists q. auto.
        - injection T as -> <-. destruct P as [<-|P]; [exists (n, S c); cbn; intuition discriminate|]. exists p. auto. }
      destruct (M _ _ _ TK P N) as (q & Q1 & Q2 & <-). auto.
    + intros j r y P BJ. rewrite in_app_iff in P. destruct P as [P|[P|[]]].
      * rewrite upd_other in BJ; [now apply B|]. intros ->. now apply NP in P.
      * injection P as <- <-. rewrite upd_same in BJ. injection BJ as <-. cbn.
        assert (M : forall l l', take l = Some (n, l') -> exists q, In q l /\ snd q <> 0 /\ fst q = n).
        { clear - n. induction l as [|[m c] l IH]; cbn; intros l' T; [discriminate|]. destruct c as [|c].
          - destruct (take l) as [[j u]|] eqn:T'; [|discriminate]. injection T as -> <-. destruct (IH u eq_refl) as (q & ? & ?). exists q. auto.
          - injection T as -> <-. exists (n, S c). cbn. intuition discriminate. }
        destruct (M _ _ TK) as (q & Q1 & Q2 & <-). auto.
    + intros y p. unfold upd. destruct (Nat.eqb_spec y x) as [->|]; cbn; auto.
    + intros j r y P BJ. rewrite upd_other in BJ; [now apply B|]. intros ->. now apply NP in P.
  - destruct (begun s i); [|discriminate]. injection X as <- <-. apply Z; auto. apply H_stop; auto.
  - destruct (begun s i); [|discriminate]. injection X as <- <-. apply Z; auto.
    destruct (H_stop ls s es i (LLose i) HH Q (or_intror eq_refl)) as [A' B' C' D']. constructor; auto.
    cbn [loser]. intros j. unfold upd. destruct (Nat.eqb_spec j i) as [->|]; [|auto]. intros _. apply in_app_iff. right. now left.
  - injection X as <- <-. apply Z; [now destruct (existsb _ _)|].
    assert (OC : forall y, has n (sets s y) = true -> occurred y n (ls ++ [LRaise n])).
    { intros y G. exists ls, [], s, es. split; [easy|]. split; [easy|]. now apply has_in. }
    constructor; cbn; auto.
    + intros y p P N. unfold hit in P. destruct (has n (sets s y)) eqn:HN; [|auto].
      destruct (waits (sets s y)); cbn in P; [|auto]. unfold bump in P. apply in_map_iff in P as (q & <- & P).
      destruct (Nat.eqb_spec (fst q) n) as [E|E]; cbn in *; [rewrite E; auto|auto].
    + intros i r y P BI. rewrite in_app_iff in P. destruct P as [P|P]; [now apply B|]. apply in_flat_map in P as (z & _ & P).
      unfold woken in P. destruct (has n (sets s z)) eqn:HN; [|easy]. apply in_map_iff in P as (j & E & P). injection E as -> <-.
      apply (j_wait _ _ Q) in P. rewrite P in BI. injection BI as ->. now apply OC.
  - destruct (nth_error (posted s) k) as [[i r]|] eqn:N; [|discriminate].
    assert (P : In (i, r) (posted s)) by now apply nth_error_In in N.
    assert (BI : exists x, begun s i = Some x). { apply (in_map fst) in P. apply (j_post _ _ Q) in P as (y & Y & _). eauto. }
    destruct BI as (x & BI). rewrite BI in X. injection X as <- <-. constructor; auto.
    + cbn [posted begun]. intros j r' y I. apply B. rewrite <- (firstn_skipn k (posted s)). rewrite in_app_iff in *.
      destruct I as [I|I]; [now left|right]. 
      assert (forall (m : list (nat * outcome)) v, In v (match m with [] => [] | _ :: l => skipn k l end) -> In v (skipn k m)) as SK.
      { clear. induction k as [|k IH]; intros [|a m] v V; cbn in *; auto. }
      now apply SK.
    + intros j y r'. rewrite !in_app_iff. cbn. intros [[I|[I|[]]]|[I|[I|[]]]]; try (apply C; tauto);
        destruct (loser s i); try discriminate; injection I as <- <- <-; now apply B.
Qed.

Lemma run_snoc ls l s s' e : run bad (ls ++ [l]) s = Some (s', e) ->
  exists t e1 e2, run bad ls s = Some (t, e1) /\ exec bad l t = Some (s', e2) /\ e = e1 ++ e2.
Proof.
  rewrite run_app. destruct (run bad ls s) as [[t e1]|]; [|discriminate]. rewrite run_one.
  destruct (exec bad l t) as [[u e2]|] eqn:X; [|discriminate]. intros E. injection E as <- <-. exists t, e1, e2. auto.
Qed.

Theorem H_reach ls s es : run bad ls init = Some (s, es) -> H ls s es.
Proof.
  revert s es. induction ls as [|l ls IH] using rev_ind; intros s es R.
  - injection R as <- <-. constructor; cbn; try easy; intros; try easy; tauto.
  - apply run_snoc in R as (t & e1 & e2 & R & X & ->). eapply H_exec; eauto. eapply J_reach; eauto.
Qed.

(** a posted completion stays until it runs *)
Lemma stays l s s' e i r x : exec bad l s = Some (s', e) -> In (i, r) (posted s) -> begun s i = Some x ->
  begun s' i = Some x /\ (In (i, r) (posted s') \/ In (EGot i x r) e \/ (In (ELost i x r) e /\ loser s i = true)).
Proof.
  intros X P BI.
  assert (ST : forall j, In (i, r) (posted (stop s j)) /\ begun (stop s j) = begun s).
  { intros j. unfold stop. destruct (begun s j); auto. destruct (existsb _ _); auto. cbn. rewrite in_app_iff. auto. }
  destruct l as [|ns|y n|y n|y|y|y|j y|j|j|n|k]; cbn -[cancel stop make] in X.
  - injection X as <- <-. cbn. auto.
  - destruct (adds bad ns []); injection X as <- <-; cbn; auto.
  - destruct (alive (sets s y)); [|discriminate]. destruct (bad n); injection X as <- <-; cbn; auto.
  - destruct (alive (sets s y)); [|discriminate]. injection X as <- <-; cbn; auto.
  - destruct (alive (sets s y)); [|discriminate]. injection X as <- <-; cbn; auto.
  - destruct (alive (sets s y)); [|discriminate]. injection X as <- <-; cbn. rewrite in_app_iff. auto.
  - destruct (alive (sets s y)); [|discriminate]. injection X as <- <-; cbn. rewrite in_app_iff. auto.
  - destruct (alive (sets s y)); [|discriminate]. destruct (begun s j) eqn:BJ; [discriminate|].
    assert (i <> j) by congruence.
    destruct (take (regs (sets s y))) as [[n l]|]; injection X as <- <-; cbn; rewrite upd_other by auto; rewrite ?in_app_iff; auto.
  - destruct (begun s j); [|discriminate]. injection X as <- <-. destruct (ST j) as [S1 ->]. auto.
  - destruct (begun s j); [|discriminate]. injection X as <- <-. cbn [begun posted]. destruct (ST j) as [S1 ->]. auto.
  - injection X as <- <-. cbn. rewrite in_app_iff. auto.
  - destruct (nth_error (posted s) k) as [[j r']|] eqn:N; [|discriminate]. injection X as <- <-. cbn [begun posted]. split; auto.
    rewrite <- (firstn_skipn k (posted s)), in_app_iff in P.
    rewrite in_app_iff. destruct P as [P|P]; [auto|].
    assert (M : forall (m : list (nat * outcome)), nth_error m k = Some (j, r') -> skipn k m = (j, r') :: match m with [] => [] | _ :: l => skipn k l end).
    { clear. induction k as [|k IH]; intros [|a m] E; cbn in *; try discriminate; [now injection E as ->|]. rewrite (IH m E). now destruct m. }
    rewrite (M _ N) in P. destruct P as [P|P]; [|auto]. injection P as -> ->. right. rewrite BI. cbn. destruct (loser s i); auto.
Qed.

Lemma stays_run ls s s' e i r x : run bad ls s = Some (s', e) -> In (i, r) (posted s) -> begun s i = Some x ->
  posted s' = [] -> loser s i = false -> ~ In (LLose i) ls -> In (EGot i x r) e.
Proof.
  revert s e. induction ls as [|l ls IH]; intros s e R P BI PE LO NL; cbn in R.
  - injection R as <- <-. now rewrite PE in P.
  - destruct (exec bad l s) as [[s1 e1]|] eqn:X; [|discriminate]. destruct (run bad ls s1) as [[s2 e2]|] eqn:R'; [|discriminate].
    injection R as <- <-. rewrite in_app_iff. destruct (stays _ _ _ _ _ _ _ X P BI) as [B1 [S|[S|[_ S]]]]; [|auto|congruence].
    right. eapply IH; eauto; [|intros I; apply NL; now right].
    assert (NI : l <> LLose i) by (intros ->; apply NL; now left).
    assert (ST : forall j, loser (stop s j) = loser s).
    { intros j. unfold stop. destruct (begun s j); auto. now destruct (existsb _ _). }
    clear - X LO NI ST. destruct l as [|ns|y n|y n|y|y|y|j y|j|j|n|k]; cbn -[cancel stop make] in X;
      repeat match type of X with context [if ?b then _ else _] => destruct b | context [match ?b with Some _ => _ | None => _ end] => destruct b as [?|]
             | context [let (_, _) := ?p in _] => destruct p end; try discriminate; try (injection X as <- <-; cbn -[stop]; rewrite ?ST; auto).
    rewrite upd_other by congruence. easy.
Qed.

Lemma no_loser ls s es i : run bad ls init = Some (s, es) -> ~ In (LLose i) ls -> loser s i = false.
Proof.
  intros R N. apply H_reach in R. destruct (loser s i) eqn:L; auto. now apply (h_lose _ _ _ R) in L.
Qed.
End history.

Lemma dropped_none bad x n l s s' e : run bad l s = Some (s', e) -> (forall i, loser s i = false) -> (forall i, ~ In (LLose i) l) -> dropped x n e = 0.
Proof.
  revert s s' e. induction l as [|l ls IH]; intros s s' e R LO NL; cbn in R; [now injection R as <- <-|].
  destruct (exec bad l s) as [[s1 e1]|] eqn:X; [|discriminate]. destruct (run bad ls s1) as [[s2 e2]|] eqn:R'; [|discriminate].
  injection R as <- <-. unfold dropped in *. rewrite total_app.
  assert (ST : forall j, loser (stop s j) = loser s).
  { intros j. unfold stop. destruct (begun s j); auto. now destruct (existsb _ _). }
  assert (A : (forall i, loser s1 i = false) /\ forall i y r, ~ In (ELost i y r) e1).
  { destruct l as [|ns|y m|y m|y|y|y|j y|j|j|m|k]; cbn -[cancel stop make] in X.
    10: { exfalso. apply (NL j). now left. }
    10: { injection X as <- <-. split; [auto|]. intros i y r. destruct (existsb _ _); cbn; intuition discriminate. }
    10: { destruct (nth_error (posted s) k) as [[j r']|]; [|discriminate]. injection X as <- <-. split; [auto|]. intros i y r. rewrite LO. cbn. intuition discriminate. }
    all: repeat match type of X with context [if ?b then _ else _] => destruct b | context [match ?b with Some _ => _ | None => _ end] => destruct b as [?|]
           | context [let (_, _) := ?p in _] => destruct p end; try discriminate; injection X as <- <-; cbn -[stop]; rewrite ?ST; split; auto; intros i y' r' I; intuition discriminate. }
  destruct A as [A1 A2].
  rewrite (IH s1 s2 e2 R' A1 (fun i I => NL i (or_intror I))).
  rewrite total_zero; [easy|]. intros [ | | | | |i y r| ] I; auto. now apply A2 in I.
Qed.

(** ** Nothing is lost, nothing is invented *)

(** As long as a number stays registered and no race drops a wait, every occurrence is told to a coroutine, is on the way
    to one, or is kept for a later wait. *)
Theorem C84_none_lost bad ls s es ls' s' es' x n :
  run bad ls init = Some (s, es) -> registered x n s -> run bad ls' s = Some (s', es') -> keeps x n ls' -> no_race (ls ++ ls') ->
  raised n ls' + in_flight x n s + pending x n s <= told x n es' + in_flight x n s' + pending x n s'.
Proof.
  intros R G R' K NR. pose proof (J_reach _ _ _ _ R) as Q.
  destruct (ledger_run bad ls' s s' es es' x n Q R' G K) as [_ L].
  assert (D : dropped x n es' = 0); [|lia].
  assert (RR : run bad (ls ++ ls') init = Some (s', es ++ es')) by now rewrite run_app, R, R'.
  eapply dropped_none; [exact R'| |].
  - intros i. eapply no_loser; eauto. intros I. apply (NR i), in_app_iff. auto.
  - intros i I. apply (NR i), in_app_iff. auto.
Qed.
Print Assumptions C84_none_lost.

(** If moreover waits on the set are begun one after another, every occurrence is told exactly once. *)
Theorem C84_exactly_once bad ls s es ls' s' es' x n :
  run bad ls init = Some (s, es) -> registered x n s -> run bad ls' s = Some (s', es') -> keeps x n ls' -> no_race (ls ++ ls') ->
  length (waits (sets s x)) <= 1 -> one_at_a_time bad x ls' s ->
  raised n ls' + in_flight x n s + pending x n s = told x n es' + in_flight x n s' + pending x n s'.
Proof.
  intros R G R' K NR LO ON. rewrite (ledger_exact bad ls' s s' es es' x n (J_reach _ _ _ _ R) R' G K LO ON).
  rewrite (dropped_none bad x n ls' s s' es'); [lia|auto| |].
  - intros i. eapply no_loser; eauto. intros I. apply (NR i), in_app_iff. auto.
  - intros i I. apply (NR i), in_app_iff. auto.
Qed.
Print Assumptions C84_exactly_once.

(** Once everything posted has run and a coroutine waits on the set again, all occurrences have been told. *)
Theorem C84_caught_up bad ls s es ls' s' es' x n i :
  run bad ls init = Some (s, es) -> registered x n s -> run bad ls' s = Some (s', es') -> keeps x n ls' -> no_race (ls ++ ls') ->
  posted s' = [] -> waiting i x s' -> raised n ls' <= told x n es'.
Proof.
  intros R G R' K NR PE W. pose proof (C84_none_lost bad ls s es ls' s' es' x n R G R' K NR) as L.
  assert (RR : run bad (ls ++ ls') init = Some (s', es ++ es')) by now rewrite run_app, R, R'.
  apply J_reach in RR. assert (PN : pending x n s' = 0).
  { apply total_zero. intros p P. rewrite (j_idle _ _ RR x); auto; [now destruct (_ =? n)|]. intros N. unfold waiting in W. now rewrite N in W. }
  assert (FL : in_flight x n s' = 0) by (unfold in_flight; now rewrite PE). lia.
Qed.
Print Assumptions C84_caught_up.

(** A coroutine is told [n] by set [x] only if [n] occurred while it was registered in [x], and is told of an abort only
    if its wait or the waits of the set were cancelled or the set was destroyed. *)
Theorem C84_genuine bad ls s es i x r : run bad ls init = Some (s, es) -> In (EGot i x r) es ->
  match r with
  | OSig n => exists l1 l2 t et, ls = l1 ++ LRaise n :: l2 /\ run bad l1 init = Some (t, et) /\ registered x n t
  | OAborted => In (LCancel x) ls \/ In (LDestroy x) ls \/ In (LStop i) ls \/ In (LLose i) ls
  end.
Proof. intros R G. exact (h_got _ _ _ _ (H_reach bad ls s es R) i x r (or_introl G)). Qed.
Print Assumptions C84_genuine.

(** A wait resumes its coroutine at most once. *)
Theorem C84_once bad ls s es : run bad ls init = Some (s, es) -> NoDup (flat_map ends es).
Proof.
  intros R. pose proof (j_once _ _ (J_reach _ _ _ _ R)) as N. clear R.
  induction (map fst (posted s)) as [|a l IH]; [exact N|]. inversion N; subst. auto.
Qed.
Print Assumptions C84_once.

(** An occurrence resumes every coroutine that waits on a set in which it is registered. *)
Theorem C84_wakes_all bad ls s es ls' s' es' i x n :
  run bad ls init = Some (s, es) -> waiting i x s -> registered x n s ->
  run bad (LRaise n :: ls') s = Some (s', es') -> posted s' = [] -> ~ In (LLose i) (ls ++ ls') ->
  In (EGot i x (OSig n)) es'.
Proof.
  intros R W G R' PE NL. pose proof (J_reach _ _ _ _ R) as Q. cbn -[exec] in R'.
  destruct (exec bad (LRaise n) s) as [[s1 e1]|] eqn:X; [|discriminate]. destruct (run bad ls' s1) as [[s2 e2]|] eqn:R2; [|discriminate].
  injection R' as <- <-. apply in_app_iff. right.
  assert (LO : loser s i = false). { eapply no_loser; eauto. intros I. apply NL, in_app_iff. auto. }
  cbn in X. injection X as <- <-.
  eapply stays_run; eauto; cbn; auto.
  - apply in_app_iff. right. apply in_flat_map. exists x. split.
    + apply in_seq. destruct (Nat.lt_ge_cases x (count s)) as [|L]; [lia|]. unfold waiting in W. now rewrite (j_count _ _ Q x L) in W.
    + unfold woken. rewrite (proj2 (has_in n (sets s x)) G). apply in_map_iff. eauto.
  - now apply (j_wait _ _ Q).
  - intros I. apply NL, in_app_iff. auto.
Qed.
Print Assumptions C84_wakes_all.

Lemma take_first l n : sorted l -> held n l > 0 -> (forall m, m < n -> held m l = 0) -> exists l', take l = Some (n, l').
Proof.
  unfold held. induction l as [|[k c] l IH]; cbn; [lia|]. intros [A B] HN HM.
  assert (Z : forall m, m <= k -> total (fun p => if fst p =? m then snd p else 0) l = 0).
  { intros m L. apply total_zero. intros q I. specialize (A q I). destruct (Nat.eqb_spec (fst q) m); [lia|easy]. }
  destruct c as [|c].
  - destruct IH as (l' & ->); eauto.
    + destruct (k =? n); lia.
    + intros m L. specialize (HM m L). destruct (k =? m); lia.
  - destruct (Nat.eqb_spec k n) as [->|NE]; [eauto|]. exfalso. destruct (Nat.lt_ge_cases k n) as [L|L].
    + specialize (HM k L). rewrite Nat.eqb_refl in HM. lia.
    + rewrite Z in HN by lia. lia.
Qed.

(** A wait that finds occurrences kept tells the smallest number among them. *)
Theorem C84_kept bad ls s es ls' s' es' i x n :
  run bad ls init = Some (s, es) -> pending x n s > 0 -> (forall m, m < n -> pending x m s = 0) ->
  run bad (LWait i x :: ls') s = Some (s', es') -> posted s' = [] -> ~ In (LLose i) (ls ++ ls') ->
  In (EGot i x (OSig n)) es'.
Proof.
  intros R P M R' PE NL. pose proof (J_reach _ _ _ _ R) as Q. cbn -[exec] in R'.
  destruct (exec bad (LWait i x) s) as [[s1 e1]|] eqn:X; [|discriminate]. destruct (run bad ls' s1) as [[s2 e2]|] eqn:R2; [|discriminate].
  injection R' as <- <-. apply in_app_iff. right.
  assert (LO : loser s i = false). { eapply no_loser; eauto. intros I. apply NL, in_app_iff. auto. }
  destruct (take_first (regs (sets s x)) n (j_regs _ _ Q x) P M) as (l & T).
  cbn in X. destruct (alive (sets s x)); [|discriminate]. destruct (begun s i); [discriminate|]. rewrite T in X. injection X as <- <-.
  eapply stays_run; eauto; cbn; auto.
  - apply in_app_iff. right. now left.
  - apply upd_same.
  - intros I. apply NL, in_app_iff. auto.
Qed.
Print Assumptions C84_kept.

(** At rest, a coroutine still waits only if its set keeps no occurrence and nobody cancelled the wait. *)
Theorem C84_waits bad ls s es i x : run bad ls init = Some (s, es) -> waiting i x s ->
  alive (sets s x) = true /\ (forall n, pending x n s = 0) /\
  forall l1 l2 t et, ls = l1 ++ l2 -> run bad l1 init = Some (t, et) -> waiting i x t ->
    ~ In (LCancel x) l2 /\ ~ In (LDestroy x) l2 /\ ~ In (LStop i) l2 /\ ~ In (LLose i) l2.
Proof.
  intros R W. pose proof (J_reach _ _ _ _ R) as Q. split; [|split].
  - destruct (alive (sets s x)) eqn:AL; auto. unfold waiting in W. now rewrite (j_dead _ _ Q x AL) in W.
  - intros n. apply total_zero. intros p P. rewrite (j_idle _ _ Q x); auto; [now destruct (_ =? n)|]. intros N. unfold waiting in W. now rewrite N in W.
  - intros l1 l2 t et -> RT WT. rewrite run_app, RT in R. destruct (run bad l2 t) as [[u eu]|] eqn:R2; [|discriminate]. injection R as <- <-.
    pose proof (J_reach _ _ _ _ RT) as QT. clear RT Q.
    (* once it does not wait, it never does *)
    assert (ST1 : forall l s s' e ps, J s ps -> exec bad l s = Some (s', e) -> begun s i = Some x -> waiting i x s' ->
       waiting i x s /\ l <> LCancel x /\ l <> LDestroy x /\ l <> LStop i /\ l <> LLose i).
    { clear. intros l s s' e ps Q X BI W. unfold waiting in *.
      assert (ST : forall j, In i (waits (sets (stop s j) x)) -> In i (waits (sets s x)) /\ j <> i).
      { intros j. unfold stop. destruct (begun s j) as [y|] eqn:BJ.
        - destruct (existsb (Nat.eqb j) (waits (sets s y))) eqn:EX.
          + cbn. unfold upd. destruct (Nat.eqb_spec x y) as [->|NE]; cbn.
            * intros I. apply filter_In in I as [I1 I2]. split; auto. intros ->. now rewrite Nat.eqb_refl in I2.
            * intros I. split; auto. congruence.
          + intros I. split; auto. intros ->. rewrite BI in BJ. injection BJ as <-.
            assert (existsb (Nat.eqb i) (waits (sets s x)) = true) as T; [|congruence]. apply existsb_exists. exists i. split; auto. apply Nat.eqb_refl.
        - intros I. split; auto. congruence. }
      destruct l as [|ns|y n|y n|y|y|y|j y|j|j|n|k]; cbn -[cancel stop make] in X.
      - injection X as <- <-. cbn in W. unfold upd in W. destruct (x =? count s); [easy|]. split; auto; repeat split; discriminate.
      - destruct (adds bad ns []); injection X as <- <-; [cbn in W; unfold upd in W; destruct (x =? count s); [easy|]|]; split; auto; repeat split; discriminate.
      - destruct (alive (sets s y)); [|discriminate]. destruct (bad n); injection X as <- <-; [|cbn in W; unfold upd in W; destruct (Nat.eqb_spec x y) as [->|]; cbn in W];
          (split; [auto|repeat split; discriminate]).
      - destruct (alive (sets s y)); [|discriminate]. injection X as <- <-. cbn in W. unfold upd in W. destruct (Nat.eqb_spec x y) as [->|]; cbn in W;
          (split; [auto|repeat split; discriminate]).
      - destruct (alive (sets s y)); [|discriminate]. injection X as <- <-. cbn in W. unfold upd in W. destruct (Nat.eqb_spec x y) as [->|]; cbn in W;
          (split; [auto|repeat split; discriminate]).
      - destruct (alive (sets s y)); [|discriminate]. injection X as <- <-. cbn in W. unfold upd in W. destruct (Nat.eqb_spec x y) as [->|]; cbn in W; [easy|].
        split; [auto|repeat split; congruence].
      - destruct (alive (sets s y)); [|discriminate]. injection X as <- <-. cbn in W. unfold upd in W. destruct (Nat.eqb_spec x y) as [->|]; cbn in W; [easy|].
        split; [auto|repeat split; congruence].
      - destruct (alive (sets s y)); [|discriminate]. destruct (begun s j) as [?|] eqn:BJ; [discriminate|].
        destruct (take (regs (sets s y))) as [[n l]|]; injection X as <- <-; cbn in W; unfold upd in W; destruct (Nat.eqb_spec x y) as [->|]; cbn in W;
          (split; [auto|repeat split; discriminate]).
        apply in_app_iff in W as [W|[->|[]]]; [auto|congruence].
      - destruct (begun s j); [|discriminate]. injection X as <- <-. apply ST in W as [W N]. split; [auto|repeat split; congruence].
      - destruct (begun s j); [|discriminate]. injection X as <- <-. cbn [sets] in W. apply ST in W as [W N]. split; [auto|repeat split; congruence].
      - injection X as <- <-. cbn [sets] in W. rewrite hit_waits in W. destruct (has n (sets s x)); [easy|]. split; [auto|repeat split; discriminate].
      - destruct (nth_error (posted s) k) as [[j r]|]; [|discriminate]. injection X as <- <-. split; [auto|repeat split; discriminate]. }
    pose proof (j_wait _ _ QT x i WT) as BT. clear WT.
    enough (G : waiting i x t /\ ~ In (LCancel x) l2 /\ ~ In (LDestroy x) l2 /\ ~ In (LStop i) l2 /\ ~ In (LLose i) l2) by apply G.
    revert t et eu QT R2 BT. induction l2 as [|l l2 IH]; intros t et eu QT R2 BT; cbn in R2.
    + injection R2 as <- <-. cbn. tauto.
    + destruct (exec bad l t) as [[t1 e1]|] eqn:X; [|discriminate]. destruct (run bad l2 t1) as [[t2 e2]|] eqn:R3; [|discriminate].
      injection R2 as <- <-.
      assert (B1 : begun t1 i = Some x).
      { clear - X BT. assert (ST : forall j, begun (stop t j) = begun t).
        { intros j. unfold stop. destruct (begun t j); auto. now destruct (existsb _ _). }
        destruct l as [|ns|y n|y n|y|y|y|j y|j|j|n|k]; cbn -[cancel stop make] in X.
        8: { destruct (alive (sets t y)); [|discriminate]. destruct (begun t j) eqn:BJ; [discriminate|].
             destruct (take (regs (sets t y))) as [[n l]|]; injection X as <- <-; cbn; rewrite upd_other by congruence; auto. }
        8: { destruct (begun t j); [|discriminate]. injection X as <- <-. now rewrite ST. }
        8: { destruct (begun t j); [|discriminate]. injection X as <- <-. cbn [begun]. now rewrite ST. }
        all: repeat match type of X with context [if ?b then _ else _] => destruct b | context [match ?b with Some _ => _ | None => _ end] => destruct b as [?|]
             | context [let (_, _) := ?p in _] => destruct p end; try discriminate; injection X as <- <-; auto. }
      destruct (IH t1 (et ++ e1) e2) as (W1 & N); auto. { eapply J_exec; eauto. }
      destruct (ST1 _ _ _ _ _ QT X BT W1) as (W0 & N1 & N2 & N3 & N4). split; auto.
      cbn. intuition congruence.
Qed.
Print Assumptions C84_waits.

Definition located (i x : nat) (s : state) (es : list event) : Prop :=
  waiting i x s \/ (exists r, In (i, r) (posted s)) \/ In i (flat_map ends es).

Lemma located_exec bad l s s' e es : J s es -> exec bad l s = Some (s', e) ->
  (forall i x, begun s i = Some x -> located i x s es) -> forall i x, begun s' i = Some x -> located i x s' (es ++ e).
Proof.
  intros Q X L i x B.
  assert (OLD : begun s i = Some x -> In i (waits (sets s' x)) \/ (exists r, In (i, r) (posted s')) \/ ~ In i (waits (sets s x)) -> located i x s' (es ++ e)).
  { intros B0 W. destruct (L i x B0) as [W'|[(r & P)|D]].
    - destruct W as [W|[W|W]]; [now left|right; now left|easy].
    - destruct (stays bad _ _ _ _ _ _ _ X P B0) as [B1 [S|[S|[S _]]]]; [right; left; eauto|right; right..];
        rewrite flat_map_app; apply in_app_iff; right; apply in_flat_map; eexists; (split; [exact S|now left]).
    - right; right. rewrite flat_map_app. apply in_app_iff. auto. }
  destruct (in_dec Nat.eq_dec i (waits (sets s x))) as [W|W].
  2: { destruct l as [|ns|y n|y n|y|y|y|j y|j|j|n|k]; cbn -[cancel stop make] in X.
       8: { destruct (alive (sets s y)); [|discriminate]. destruct (begun s j) eqn:BJ; [discriminate|].
            destruct (take (regs (sets s y))) as [[n l]|]; injection X as <- <-; cbn in B; unfold upd in B;
              (destruct (Nat.eqb_spec i j) as [->|]; [injection B as <-|apply OLD; auto]).
            - right. left. exists (OSig n). apply in_app_iff. right. now left.
            - left. unfold waiting. cbn. rewrite upd_same. apply in_app_iff. right. now left. }
       8, 9: apply OLD; auto; destruct (begun s j) eqn:BJ; [|discriminate X]; injection X as <- <-; revert B; cbn [begun];
              unfold stop; rewrite BJ; now destruct (existsb _ _).
       all: apply OLD; auto; revert B; clear OLD L W Q.
       all: repeat match type of X with context [if ?b then _ else _] => destruct b | context [match ?b with Some _ => _ | None => _ end] => destruct b as [?|]
             | context [let (_, _) := ?p in _] => destruct p end; try discriminate; injection X as <- <-; auto. }
  pose proof (j_wait _ _ Q x i W) as B0. apply OLD; auto. clear OLD B L.
  assert (XC : x < count s). { destruct (Nat.lt_ge_cases x (count s)) as [|C]; auto. rewrite (j_count _ _ Q x C) in W. easy. }
  assert (ST : forall j, In i (waits (sets (stop s j) x)) \/ exists r, In (i, r) (posted (stop s j))).
  { intros j. unfold stop. destruct (begun s j) as [y|] eqn:BJ; [|auto]. destruct (existsb _ _) eqn:EX; [|auto].
    cbn. unfold upd. destruct (Nat.eqb_spec x y) as [->|]; [|auto]. cbn. destruct (Nat.eq_dec i j) as [->|NE].
    - right. exists OAborted. apply in_app_iff. right. now left.
    - left. apply filter_In. split; auto. destruct (Nat.eqb_spec i j); easy. }
  assert (CA : forall y, In i (waits (sets (cancel s y) x)) \/ exists r, In (i, r) (posted (cancel s y))).
  { intros y. cbn. unfold upd. destruct (Nat.eqb_spec x y) as [->|]; [|auto]. right. exists OAborted. apply in_app_iff. right. apply in_map_iff. eauto. }
  destruct l as [|ns|y n|y n|y|y|y|j y|j|j|n|k]; cbn -[cancel stop make] in X.
  - injection X as <- <-. left. cbn. rewrite upd_other by lia. auto.
  - destruct (adds bad ns []); injection X as <- <-; left; auto. cbn. rewrite upd_other by lia. auto.
  - destruct (alive (sets s y)); [|discriminate]. destruct (bad n); injection X as <- <-; left; auto. cbn. unfold upd. destruct (Nat.eqb_spec x y) as [->|]; auto.
  - destruct (alive (sets s y)); [|discriminate]. injection X as <- <-. left. cbn. unfold upd. destruct (Nat.eqb_spec x y) as [->|]; auto.
  - destruct (alive (sets s y)); [|discriminate]. injection X as <- <-. left. cbn. unfold upd. destruct (Nat.eqb_spec x y) as [->|]; auto.
  - destruct (alive (sets s y)); [|discriminate]. injection X as <- <-. destruct (CA y) as [C|C]; auto.
  - destruct (alive (sets s y)); [|discriminate]. injection X as <- <-. cbn [with_set sets posted]. destruct (CA y) as [C|C]; auto.
    destruct (Nat.eq_dec x y) as [->|NE]; [|left; now rewrite upd_other]. exfalso. cbn in C. rewrite upd_same in C. easy.
  - destruct (alive (sets s y)); [|discriminate]. destruct (begun s j) eqn:BJ; [discriminate|].
    destruct (take (regs (sets s y))) as [[n l]|]; injection X as <- <-; left; cbn; unfold upd; destruct (Nat.eqb_spec x y) as [->|]; auto.
    cbn. apply in_app_iff. auto.
  - destruct (begun s j); [|discriminate]. injection X as <- <-. destruct (ST j) as [C|C]; auto.
  - destruct (begun s j); [|discriminate]. injection X as <- <-. cbn [sets posted]. destruct (ST j) as [C|C]; auto.
  - injection X as <- <-. cbn [sets posted]. rewrite hit_waits. destruct (has n (sets s x)) eqn:HN; [|auto]. right. left. exists (OSig n).
    apply in_app_iff. right. apply in_flat_map. exists x. split; [apply in_seq; lia|]. unfold woken. rewrite HN. apply in_map_iff. eauto.
  - destruct (nth_error (posted s) k) as [[j r]|]; [|discriminate]. injection X as <- <-. auto.
Qed.

Lemma begun_by bad ls s es i x : run bad ls init = Some (s, es) -> In (LWait i x) ls -> begun s i = Some x.
Proof.
  revert s es. induction ls as [|l ls IH] using rev_ind; intros s es R I; [easy|].
  apply run_snoc in R as (t & e1 & e2 & R & X & ->). apply in_app_iff in I as [I|[->|[]]].
  - specialize (IH _ _ R I). clear R. assert (ST : forall j, begun (stop t j) = begun t).
    { intros j. unfold stop. destruct (begun t j); auto. now destruct (existsb _ _). }
    destruct l as [|ns|y n|y n|y|y|y|j y|j|j|n|k]; cbn -[cancel stop make] in X.
    8: { destruct (alive (sets t y)); [|discriminate]. destruct (begun t j) eqn:BJ; [discriminate|].
         destruct (take (regs (sets t y))) as [[n l]|]; injection X as <- <-; cbn; rewrite upd_other by congruence; auto. }
    8: { destruct (begun t j); [|discriminate]. injection X as <- <-. now rewrite ST. }
    8: { destruct (begun t j); [|discriminate]. injection X as <- <-. cbn [begun]. now rewrite ST. }
    all: repeat match type of X with context [if ?b then _ else _] => destruct b | context [match ?b with Some _ => _ | None => _ end] => destruct b as [?|]
             | context [let (_, _) := ?p in _] => destruct p end; try discriminate; injection X as <- <-; auto.
  - cbn in X. destruct (alive (sets t x)); [|discriminate]. destruct (begun t i); [discriminate|].
    destruct (take (regs (sets t x))) as [[n l]|]; injection X as <- <-; cbn; apply upd_same.
Qed.

(** Every wait that was begun still waits, has its completion posted or has resumed its coroutine. *)
Theorem C84_accounted bad ls s es i x : run bad ls init = Some (s, es) -> In (LWait i x) ls ->
  waiting i x s \/ (exists r, In (i, r) (posted s)) \/ In i (flat_map ends es).
Proof.
  intros R I. pose proof (begun_by bad ls s es i x R I) as B. clear I. revert s es R i x B.
  induction ls as [|l ls IH] using rev_ind; intros s es R; [injection R as <- <-; discriminate|].
  apply run_snoc in R as (t & e1 & e2 & R & X & ->). exact (located_exec bad l t s e2 e1 (J_reach _ _ _ _ R) X (IH t e1 R)).
Qed.
Print Assumptions C84_accounted.

(** Cancelling a wait, or the set's waits, resumes the coroutine with an abort. *)
Theorem C84_stop bad ls s es l ls' s' es' i x :
  run bad ls init = Some (s, es) -> waiting i x s -> l = LStop i \/ l = LCancel x \/ l = LDestroy x ->
  run bad (l :: ls') s = Some (s', es') -> posted s' = [] -> ~ In (LLose i) (ls ++ ls') -> In (EGot i x OAborted) es'.
Proof.
  intros R W LL R' PE NL. pose proof (J_reach _ _ _ _ R) as Q. cbn -[exec] in R'.
  destruct (exec bad l s) as [[s1 e1]|] eqn:X; [|discriminate]. destruct (run bad ls' s1) as [[s2 e2]|] eqn:R2; [|discriminate].
  injection R' as <- <-. apply in_app_iff. right.
  assert (LO : loser s i = false). { eapply no_loser; eauto. intros I. apply NL, in_app_iff. auto. }
  pose proof (j_wait _ _ Q x i W) as B.
  assert (G : In (i, OAborted) (posted s1) /\ begun s1 i = Some x /\ loser s1 i = false).
  { destruct LL as [->|[->| ->]]; cbn -[stop] in X.
    - rewrite B in X. injection X as <- <-. unfold stop. rewrite B.
      assert (EX : existsb (Nat.eqb i) (waits (sets s x)) = true). { apply existsb_exists. exists i. split; [easy|apply Nat.eqb_refl]. }
      rewrite EX. cbn. rewrite in_app_iff. cbn. auto.
    - destruct (alive (sets s x)); [|discriminate]. injection X as <- <-. cbn. rewrite in_app_iff, in_map_iff. eauto 6.
    - destruct (alive (sets s x)); [|discriminate]. injection X as <- <-. cbn. rewrite in_app_iff, in_map_iff. eauto 6. }
  destruct G as (G1 & G2 & G3). eapply stays_run; eauto. intros I. apply NL, in_app_iff. auto.
Qed.
Print Assumptions C84_stop.

(** ** Registration *)

Lemma adds_in bad ns l0 l : adds bad ns l0 = Some l -> forall n, In n (map fst l) <-> In n ns \/ In n (map fst l0).
Proof.
  revert l0. induction ns as [|m ns IH]; cbn; intros l0 E n.
  - injection E as <-. tauto.
  - destruct (bad m); [discriminate|]. rewrite (IH _ E n).
    assert (I : In n (map fst (insert m l0)) <-> m = n \/ In n (map fst l0)); [|rewrite I; tauto].
    split.
    + intros I. apply in_map_iff in I as (p & <- & P). apply in_insert in P as [->|P]; [now left|right; now apply in_map].
    + intros [->|I]; [apply insert_has|]. apply in_map_iff in I as (p & <- & P). apply in_map. now apply insert_keeps.
Qed.
Lemma adds_none bad ns l0 : adds bad ns l0 = None <-> exists n, In n ns /\ bad n = true.
Proof.
  revert l0. induction ns as [|m ns IH]; cbn; intros l0.
  - split; [discriminate|]. now intros (n & [] & _).
  - destruct (bad m) eqn:B.
    + split; auto. intros _. exists m. auto.
    + rewrite IH. split; intros (n & I & N); exists n; [auto|]. destruct I as [->|I]; [congruence|auto].
Qed.

(** The constructor with a list registers exactly the numbers of the list, or throws if the system rejects one of them; then there is no
    new set and no registration is left. *)
Theorem C84_make bad ls s es ns s' e : run bad ls init = Some (s, es) -> exec bad (LMake ns) s = Some (s', e) ->
  ((forall n, In n ns -> bad n = false) /\
   exists x, e = [EMade x] /\ (forall n, registered x n s' <-> In n ns) /\ (forall n, pending x n s' = 0) /\
     forall y, y <> x -> sets s' y = sets s y) \/
  ((exists n, In n ns /\ bad n = true) /\ e = [EThrown] /\ forall y, sets s' y = sets s y).
Proof.
  intros R X. cbn in X. destruct (adds bad ns []) as [l|] eqn:A; injection X as <- <-.
  - left. split.
    + intros n I. destruct (bad n) eqn:B; auto. assert (adds bad ns [] = None) as N; [|congruence]. apply adds_none. eauto.
    + exists (count s). split; [easy|]. unfold registered, pending, make. cbn [sets]. rewrite upd_same. cbn [regs]. split; [|split].
      * intros n. rewrite (adds_in bad ns [] l A n). cbn. tauto.
      * intros n. assert (HE : held n l = held n []); [|exact HE].
        clear - A. revert A. generalize (@nil (nat * nat)) as l0. induction ns as [|m ns IH]; cbn; intros l0 A; [now injection A as <-|].
        destruct (bad m); [discriminate|]. rewrite (IH _ A). apply held_insert.
      * intros y N. now apply upd_other.
  - right. split; [now apply adds_none in A|auto].
Qed.
Print Assumptions C84_make.

(** add registers unless the system rejects the number; it forgets nothing that is kept. *)
Theorem C84_add bad ls s es x n s' e : run bad ls init = Some (s, es) -> exec bad (LAdd x n) s = Some (s', e) ->
  (bad n = false /\ e = [EOk] /\ (forall m, registered x m s' <-> m = n \/ registered x m s) \/
   bad n = true /\ e = [EInvalid] /\ (forall m, registered x m s' <-> registered x m s)) /\
  (forall m, pending x m s' = pending x m s) /\ (forall i, waiting i x s' <-> waiting i x s) /\
  forall y, y <> x -> sets s' y = sets s y.
Proof.
  intros R X. cbn in X. destruct (alive (sets s x)); [|discriminate].
  destruct (bad n) eqn:B; injection X as <- <-.
  - split; [right; repeat split; auto|]. repeat split; auto.
  - unfold registered, pending, waiting. cbn. rewrite upd_same. cbn. split; [left; repeat split; auto|].
    + intros I. apply in_map_iff in I as (p & <- & P). apply in_insert in P as [->|P]; [now left|right; now apply in_map].
    + intros [->|I]; [apply insert_has|]. apply in_map_iff in I as (p & <- & P). apply in_map. now apply insert_keeps.
    + split; [intros m; apply held_insert|]. split; [easy|]. intros y N. now apply upd_other.
Qed.
Print Assumptions C84_add.

(** remove, clear and destruction forget the number and what is kept for it; cancel forgets neither.  remove and clear leave
    waits alone, cancel and destruction abort all of them. *)
Theorem C84_remove bad ls s es x l s' e : run bad ls init = Some (s, es) -> exec bad l s = Some (s', e) ->
  (forall n, l = LRemove x n -> e = [EOk] /\ (forall m, registered x m s' <-> m <> n /\ registered x m s) /\ pending x n s' = 0 /\
     (forall m, m <> n -> pending x m s' = pending x m s) /\ (forall i, waiting i x s' <-> waiting i x s) /\ posted s' = posted s) /\
  (l = LClear x -> e = [EOk] /\ (forall m, ~ registered x m s' /\ pending x m s' = 0) /\ (forall i, waiting i x s' <-> waiting i x s) /\ posted s' = posted s) /\
  (l = LCancel x -> e = [EOk] /\ (forall m, (registered x m s' <-> registered x m s) /\ pending x m s' = pending x m s) /\
     (forall i, ~ waiting i x s') /\ forall i, waiting i x s -> In (i, OAborted) (posted s')) /\
  (l = LDestroy x -> (forall m, ~ registered x m s') /\ (forall i, ~ waiting i x s') /\ forall i, waiting i x s -> In (i, OAborted) (posted s')).
Proof.
  intros R X. unfold registered, pending, waiting. split; [intros n ->|split; [intros ->|split; intros ->]].
  all: cbn in X; destruct (alive (sets s x)) eqn:AL; try discriminate X; injection X as <- <-; cbn; rewrite ?upd_same; cbn; repeat split; auto.
  - apply in_map_iff in H0 as (p & <- & P). apply filter_In in P as [P N]. intros E. rewrite E, Nat.eqb_refl in N. discriminate.
  - apply in_map_iff in H0 as (p & <- & P). apply filter_In in P as [P N]. now apply in_map.
  - intros (N & I). apply in_map_iff in I as (p & <- & P). apply in_map, filter_In. split; auto. destruct (Nat.eqb_spec (fst p) n); easy.
  - apply total_zero. intros p P. apply filter_In in P as [P N]. now destruct (fst p =? n).
  - intros m N. now apply held_erase.
  - intros i I. apply in_app_iff. right. apply in_map_iff. eauto.
  - intros i I. apply in_app_iff. right. apply in_map_iff. eauto.
Qed.
Print Assumptions C84_remove.

(** A signal gets the default handling exactly if no set has it. *)
Theorem C84_default bad ls s es n s' e : run bad ls init = Some (s, es) -> exec bad (LRaise n) s = Some (s', e) ->
  (In (EDefault n) e <-> forall x, ~ registered x n s).
Proof.
  intros R X. pose proof (J_reach _ _ _ _ R) as Q. cbn in X. injection X as <- <-.
  destruct (existsb (fun x => has n (sets s x)) (seq 0 (count s))) eqn:E.
  - split; [easy|]. intros N. exfalso. apply existsb_exists in E as (x & _ & E). apply has_in in E. now apply (N x).
  - split; [|now left]. intros _ x G. assert (existsb (fun x => has n (sets s x)) (seq 0 (count s)) = true) as T; [|congruence].
    apply existsb_exists. exists x. split; [|now apply has_in]. apply in_seq.
    destruct (Nat.lt_ge_cases x (count s)) as [|L]; [lia|]. unfold registered in G. now rewrite (j_count _ _ Q x L) in G.
Qed.
Print Assumptions C84_default.

(** ** What does not hold *)

Definition only9 (n : nat) : bool := n =? 9.

(** Two occurrences that are kept are not told in the order in which they occurred. *)
Theorem C84_order_refuted : exists ls s es, run only9 ls init = Some (s, es) /\ posted s = [] /\
  ls = [LMake [2; 15]; LRaise 15; LRaise 2; LWait 0 0; LRun 0; LWait 1 0; LRun 0] /\
  es = [EMade 0; EGot 0 0 (OSig 2); EGot 1 0 (OSig 15)].
Proof. eexists _, _, _. split; [|split; [|split; reflexivity]]; [vm_compute; reflexivity|reflexivity]. Qed.
Print Assumptions C84_order_refuted.

(** With two coroutines waiting on one set, one occurrence is told twice. *)
Theorem C84_two_waiters_refuted : exists ls s es, run only9 ls init = Some (s, es) /\ raised 15 ls = 1 /\ told 0 15 es = 2.
Proof. exists [LMake [15]; LWait 0 0; LWait 1 0; LRaise 15; LRun 0; LRun 0]. eexists _, _. split; [vm_compute; reflexivity|]. now split. Qed.
Print Assumptions C84_two_waiters_refuted.

(** A race can lose an occurrence: the wait completes, another member of the race wins before the completion runs. *)
Theorem C84_race_refuted : exists ls s es, run only9 ls init = Some (s, es) /\ raised 15 ls = 1 /\ registered 0 15 s /\
  posted s = [] /\ told 0 15 es = 0 /\ pending 0 15 s = 0.
Proof.
  exists [LMake [15]; LWait 0 0; LRaise 15; LLose 0; LRun 0]. eexists _, _. split; [vm_compute; reflexivity|]. unfold registered. cbn. auto 10.
Qed.
Print Assumptions C84_race_refuted.

(** A set that keeps occurrences, two that share a number, an occurrence while two coroutines wait, a cancelled wait: the hypotheses above hold. *)
Example C84_nonvacuous : exists s1 e1 s2 e2,
  run only9 [LMake [2; 15]; LMake [15]; LRaise 15] init = Some (s1, e1) /\
  registered 0 15 s1 /\ pending 0 15 s1 = 1 /\ pending 1 15 s1 = 1 /\
  run only9 [LWait 0 0; LRun 0; LWait 1 0; LWait 2 1; LRun 0; LWait 3 1; LRaise 15; LRun 1; LRun 0; LWait 4 0; LStop 4; LRun 0; LMake [2; 9]; LWait 5 0] s1 = Some (s2, e2) /\
  posted s2 = [] /\ waiting 5 0 s2 /\
  e2 = [EGot 0 0 (OSig 15); EGot 2 1 (OSig 15); EGot 3 1 (OSig 15); EGot 1 0 (OSig 15); EGot 4 0 OAborted; EThrown].
Proof.
  eexists _, _, _, _. split; [vm_compute; reflexivity|]. split; [vm_compute; auto|]. split; [reflexivity|]. split; [reflexivity|].
  split; [vm_compute; reflexivity|]. split; [reflexivity|]. split; [vm_compute; auto|reflexivity].
Qed.

(** ... and its waits are begun one at a time. *)
Example C84_nonvacuous_alone : exists s, run only9 [LMake [2; 15]] init = Some (s, [EMade 0]) /\ registered 0 15 s /\
  one_at_a_time only9 0 [LRaise 15; LRaise 15; LWait 0 0; LRun 0; LWait 1 0; LRun 0; LWait 2 0; LRaise 15; LWait 3 0] s.
Proof.
  eexists. split; [vm_compute; reflexivity|]. split; [vm_compute; auto|].
  intros l1 i l2 s1 e1 E R.
  do 9 (destruct l1 as [|? l1]; [cbn in E; try discriminate E; injection E as <- <-; vm_compute in R; injection R as <- _; reflexivity|
    cbn in E; injection E as <- E]).
  destruct l1; discriminate E.
Qed.
