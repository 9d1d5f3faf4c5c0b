(** * C69: destroying a channel *)
From Coq Require Import List Bool Arith Lia.
From Verif Require Import Channel_Model Channel_Spec Channel_Inv Channel_Ledger Channel_Close Chd_Model Chd_Spec Chd_Proofs.
Import ListNotations.

(** ** The waiting coroutines are destroyed *)
Theorem C69_returns_partial : forall (V : Type) (void : bool) (lim : nat) (d : dst V),
  in_use void lim d -> (forall o, waits (ch d) o -> goes_away d o) ->
  exists d' evs, returns d d' evs /\
    (forall o, waits (ch d) o -> In (match who d o with Plain => Killed o | Fork g => GroupKilled g end) evs) /\
    (forall e, In e evs -> exists o, waits (ch d) o /\ e = match who d o with Plain => Killed o | Fork g => GroupKilled g end).
Proof.
  intros V void lim d _ G. destruct (terminates _ d (le_n _) G) as (d' & evs & E & F).
  exists d', evs. split; [exists (size (ch d)); split; [exact E|apply front_none; exact F]|].
  exact (victims _ _ _ _ G E F).
Qed.
Print Assumptions C69_returns_partial.

(** In particular when every waiting coroutine awaits its operation directly. *)
Theorem C69_returns_plain_partial : forall (V : Type) (void : bool) (lim : nat) (d : dst V),
  in_use void lim d -> (forall o, who d o = Plain) -> (forall o, waits (ch d) o -> handle o (ch d) = true) ->
  exists d' evs, returns d d' evs /\ (forall o, waits (ch d) o <-> In (Killed o) evs).
Proof.
  intros V void lim d U P H. destruct (C69_returns_partial V void lim d U) as (d' & evs & Rt & A & B).
  { intros o Wt. split; [auto|]. rewrite P. exact Logic.I. }
  exists d', evs. split; [exact Rt|]. intro o. split.
  - intro Wt. apply A in Wt. rewrite P in Wt. exact Wt.
  - intro He. destruct (B _ He) as (o' & Wt & X). rewrite P in X. injection X as ->. exact Wt.
Qed.
Print Assumptions C69_returns_plain_partial.

(** Two readers wait; both are destroyed. *)
Definition ex_two : list (label nat) := [MkRead 0; AwRead 0 true; MkRead 1; AwRead 1 true].
Definition ex_d (ls : list (label nat)) : dst nat := mkD (fst (run (init false 0) ls)) (fun _ => Plain) (fun _ => 0).
Lemma ex_in_use ls : bad (fst (run (init false 0) ls)) = None -> in_use false 0 (ex_d ls).
Proof. intro B. exists ls, (snd (run (init false 0) ls)). cbn. destruct (run (init false 0) ls). auto. Qed.
Example C69_nonvacuous : in_use false 0 (ex_d ex_two) /\
  (forall o, waits (ch (ex_d ex_two)) o -> goes_away (ex_d ex_two) o) /\
  waits (ch (ex_d ex_two)) (R 0) /\ waits (ch (ex_d ex_two)) (R 1) /\
  snd (rounds 2 (ex_d ex_two)) = [Killed (R 0); Killed (R 1)] /\
  forall o, ~ waits (ch (fst (rounds 2 (ex_d ex_two)))) o.
Proof.
  split; [apply ex_in_use; reflexivity|]. split; [|split; [cbn; auto|split; [cbn; auto|split; [reflexivity|]]]].
  - intros [i|j] Wt; cbn in Wt; [|destruct Wt]. destruct Wt as [<-|[<-|[]]]; (split; [reflexivity|exact Logic.I]).
  - intros [i|j] []. 
Qed.

(** ** Nobody is told: a coroutine that waits in the channel never gets a
    result, not broken_pipe either, although the destructor is documented to
    close the channel. *)
Theorem C69_waiters_told_refuted : forall (V : Type) (void : bool) (lim : nat) (d d' : dst V) evs o,
  in_use void lim d -> waits (ch d) o -> returns d d' evs ->
  forall ls s' ev, dead_run (ch d') ls = Some (s', ev) -> forall e, In e ev -> ~ completes o e.
Proof. intros V void lim d d' evs o U Wt Rt ls s' ev E e. eapply never_told; eauto. Qed.
Print Assumptions C69_waiters_told_refuted.

(** ** The destructor need not return: the first waiting coroutine is a helper
    of a combinator that has other helpers, or none waits for the operation. *)
Theorem C69_always_returns_refuted : forall (V : Type) (d : dst V) o,
  front (ch d) = Some o -> ~ goes_away d o -> forall d' evs, ~ returns d d' evs.
Proof.
  intros V d o F N d' evs (n & E & Nw). apply (Nw o). apply front_waits. exact (never n d d' evs o F N E).
Qed.
Print Assumptions C69_always_returns_refuted.

(** Exactly: with one waiting coroutine, it returns iff that one goes away. *)
Theorem C69_returns_iff : forall (V : Type) (void : bool) (lim : nat) (d : dst V) o,
  in_use void lim d -> (forall o', waits (ch d) o' <-> o' = o) ->
  ((exists d' evs, returns d d' evs) <-> goes_away d o).
Proof.
  intros V void lim d o U S. split.
  - intros (d' & evs & Rt).
    assert (Dec : goes_away d o \/ ~ goes_away d o).
    { unfold goes_away. destruct (handle o (ch d)); [|right; intros (X & _); discriminate].
      destruct (who d o) as [|g]; [left; auto|]. destruct (Nat.eq_dec (outst d g) 1); [left; auto|right; tauto]. }
    destruct Dec as [X|N]; [exact X|]. exfalso.
    destruct (front (ch d)) as [o'|] eqn:F.
    + pose proof (front_waits _ _ F) as Wt. apply S in Wt as ->. exact (C69_always_returns_refuted V d o F N d' evs Rt).
    + rewrite front_none in F. apply (F o). apply S. reflexivity.
  - intro G. destruct (C69_returns_partial V void lim d U) as (d' & evs & Rt & _); eauto.
    intros o' Wt. apply S in Wt as ->. exact G.
Qed.
Print Assumptions C69_returns_iff.

(** A race over a read of the channel and something else: two helpers. *)
Definition ex_race : dst nat := mkD (fst (run (init false 0) [MkRead 0; AwRead 0 true])) (fun _ => Fork 0) (fun _ => 2).
Example C69_hang_nonvacuous : in_use false 0 ex_race /\ front (ch ex_race) = Some (R 0) /\ ~ goes_away ex_race (R 0).
Proof.
  split; [exists [MkRead 0; AwRead 0 true], []; split; reflexivity|]. split; [reflexivity|]. intros (_ & H). discriminate.
Qed.
(** An interrupted read whose object still exists: no coroutine waits for it. *)
Definition ex_intr : list (label nat) := [MkRead 0; AwRead 0 true; InterruptR 0].
Example C69_hang_interrupted_nonvacuous :
  in_use false 0 (ex_d ex_intr) /\ front (ch (ex_d ex_intr)) = Some (R 0) /\ ~ goes_away (ex_d ex_intr) (R 0).
Proof. split; [apply ex_in_use; reflexivity|]. split; [reflexivity|]. intros (H & _). discriminate. Qed.

(** ** Afterwards *)
Theorem C69_after_partial : forall (V : Type) (void : bool) (lim : nat) (d d' : dst V) evs,
  in_use void lim d -> returns d d' evs ->
  (forall jb, In jb (posted (ch d)) -> exists j, jb = JW j /\ (w_closed (wops (ch d) j) = true \/ w_cancelled (wops (ch d) j) = true)) ->
  forall ls, forallb hands_off ls = true -> dead_run (ch d') ls <> None.
Proof.
  intros V void lim d d' evs U Rt P ls H. pose proof (returns_DInv _ _ _ _ _ U Rt P) as D.
  destruct (dead_run_ok ls (ch d') D H) as (s' & ev & E & _). rewrite E. discriminate.
Qed.
Print Assumptions C69_after_partial.

(** Everything else that is scheduled uses the destroyed channel. *)
Theorem C69_scheduled_use_refuted : forall (V : Type) (d d' : dst V) evs, returns d d' evs ->
  forall jb, In jb (posted (ch d)) ->
  match jb with
  | JR _ => True
  | JW j => w_closed (wops (ch d) j) = false /\ w_cancelled (wops (ch d) j) = false
  end -> exists k, dead_run (ch d') [Run k] = None.
Proof.
  intros V d d' evs (n & E & _) jb Hin H. destruct (rounds_frame _ _ _ _ E) as (Fp & _ & _ & _ & Fw & _).
  rewrite <- Fp in Hin. destruct jb as [i|j]; [eapply run_posted_read; eauto|].
  destruct (Fw j) as (A1 & A2 & _). destruct H as (H1 & H2). eapply run_posted_write; eauto; congruence.
Qed.
Print Assumptions C69_scheduled_use_refuted.

(** In particular: close() followed at once by the destructor, when a read waits. *)
Theorem C69_close_then_destroy_refuted : forall (V : Type) (void : bool) (lim : nat) (d : dst V) i,
  in_use void lim d -> waits (ch d) (R i) -> handle (R i) (ch d) = true ->
  let d1 := set_ch (fst (step (ch d) Close)) d in
  returns d1 d1 [] /\ exists k, dead_run (ch d1) [Run k] = None.
Proof.
  intros V void lim d i U Wt Hh. cbv zeta.
  assert (E : fst (step (ch d) Close) = close (ch d)).
  { destruct U as (ls & evs & _ & B). unfold step. rewrite B. reflexivity. }
  rewrite E. pose proof (in_use_close _ _ _ U) as U1.
  split; [eapply closed_returns; [exact U1|apply (close_keep (ch d))]|].
  apply (run_posted_read _ i). exact (close_schedules _ _ _ _ U Wt Hh).
Qed.
Print Assumptions C69_close_then_destroy_refuted.

Example C69_close_then_destroy_nonvacuous : in_use false 0 (ex_d ex_two) /\ waits (ch (ex_d ex_two)) (R 0) /\
  handle (R 0) (ch (ex_d ex_two)) = true /\
  dead_run (fst (run (init false 0) (ex_two ++ [Close]))) [Run 0] = None.
Proof. split; [apply ex_in_use; reflexivity|]. split; [cbn; auto|]. split; reflexivity. Qed.

(** ** Close, let the executor run until nothing is scheduled, destroy: the
    destructor returns at once, destroys nobody, and the channel is not used
    afterwards. *)
Theorem C69_close_run_destroy_partial : forall (V : Type) (void : bool) (lim : nat) (d : dst V),
  in_use void lim d -> closed (ch d) = true ->
  exists k, let s' := fst (run (ch d) (repeat (Run 0) k)) in
  bad s' <> None \/
  (let d' := set_ch s' d in
   returns d' d' [] /\ (forall i, r_stage (rops s' i) <> Awaited) /\ (forall j, w_stage (wops s' j) <> Awaited) /\
   forall ls, forallb hands_off ls = true -> dead_run s' ls <> None).
Proof.
  intros V void lim d U C. pose proof (in_use_inv _ _ _ U) as I. destruct (U) as (ls0 & evs0 & _ & B).
  destruct (executor_progress (ch d) I B) as (k & H). exists k. cbv zeta in *.
  destruct H as [H|(P & A1 & A2)]; [left; exact H|].
  set (s' := fst (run (ch d) (repeat (Run 0) k))) in *.
  destruct (bad s') eqn:B'; [left; discriminate|]. right.
  pose proof (in_use_run void lim d (repeat (Run 0) k) U B') as U'. fold s' in U'.
  assert (C' : closed s' = true).
  { destruct (run_const (repeat (Run 0) k) (ch d)) as (_ & _ & _ & X). cbv zeta in X. fold s' in X. auto. }
  pose proof (in_use_inv _ _ _ U') as I'. cbn in I'. destruct (inv_closed _ I' C') as (Er & Ew).
  assert (Rt : returns (set_ch s' d) (set_ch s' d) []) by (eapply closed_returns; eauto).
  split; [exact Rt|]. split; [intros i St; apply A1 in St; rewrite Er in St; destruct St|].
  split; [intros j St; apply A2 in St; rewrite Ew in St; destruct St|].
  intros ls Hl. apply (C69_after_partial V void lim _ _ _ U' Rt); [|exact Hl].
  intros jb Hj. cbn in Hj. rewrite P in Hj. destruct Hj.
Qed.
Print Assumptions C69_close_run_destroy_partial.

Example C69_close_run_destroy_nonvacuous :
  let d := ex_d (ex_two ++ [Close]) in
  in_use false 0 d /\ closed (ch d) = true /\ posted (ch d) = [JR 0; JR 1] /\
  snd (run (ch d) [Run 0; Run 0]) = [ERead 0 RBroken; ERead 1 RBroken] /\
  dead_run (fst (run (ch d) [Run 0; Run 0])) [CancelR 0; InterruptR 1; Run 0; DestroyR 0] <> None.
Proof. cbv zeta. split; [apply ex_in_use; reflexivity|]. split; [reflexivity|]. split; [reflexivity|]. split; [reflexivity|discriminate]. Qed.

(** A write that waits when the channel is closed may complete after the
    channel is gone: it is told, and does not use the channel. *)
Example C69_after_nonvacuous :
  let d := ex_d [MkWrite 0 7; AwWrite 0 true; Close] in
  in_use false 0 d /\ posted (ch d) = [JW 0] /\ w_closed (wops (ch d) 0) = true /\ returns d d [] /\
  match dead_run (ch d) [Run 0] with Some (_, ev) => ev = [EWrite 0 7 WBroken] | None => False end.
Proof.
  cbv zeta. split; [apply ex_in_use; reflexivity|]. split; [reflexivity|]. split; [reflexivity|].
  split; [exists 0; split; [reflexivity|intros [i|j] []]|reflexivity].
Qed.
