(** Property theorems for gather and join over channel reads and writes: C81.

    Vocabulary (Gch_Spec.v): [op_results cf k tr] lists what the operation of member [k] ended with,
    each time it ended; [failures cf tr] the results that are failures (closed, cancelled, broken pipe), in the
    order in which they happened; [gends tr] how co_await gather(..) or co_await join(..) ended: with all
    results in the order of the arguments ([All rs]) or with the exception of a failure ([Threw r]).
    [gub s = false] says that nothing undefined has happened so far. *)
From Coq Require Import List Bool Arith Lia Permutation.
From Verif Require Import Channel_Model Channel_Spec Sel_Model Sel_Spec Gch_Model Gch_Spec Gch_Inv Gch_Live Gch_Final.
Import ListNotations.

(** ** C81 *)

(** gather ends at most once, never throws, and returns for each member, in the order of the arguments, what
    its operation ended with; every operation has ended exactly once then. *)
Theorem C81_gather : forall (V : Type) (cf : cfg V) (ls : list (glabel V)) s tr,
  grun cf Gather (ginit cf) ls = Some (s, tr) ->
  length (gends tr) <= 1 /\
  forall x, In (Ends x) tr -> exists rs, x = All rs /\ length rs = n cf /\ forall k r, nth_error rs k = Some r -> op_results cf k tr = [r].
Proof.
  intros V cf ls s tr R. split; [exact (ends_once cf Gather ls s tr R)|]. intros x I.
  assert (J : In x (gends tr)) by (apply in_flat_map; exists (Ends x); split; [exact I|left; reflexivity]).
  destruct (ended cf Gather ls s tr x R J) as (_ & rs & Ln & O & K & _). exists rs. injection O as <-. auto.
Qed.
Print Assumptions C81_gather.

(** join ends at most once.  If it returns, no member failed and it returns what each operation ended with;
    if it throws, it throws the failure that happened first.  Either way every operation has ended,
    exactly once. *)
Theorem C81_join : forall (V : Type) (cf : cfg V) (ls : list (glabel V)) s tr,
  grun cf Join (ginit cf) ls = Some (s, tr) ->
  length (gends tr) <= 1 /\
  (forall x, In (Ends x) tr -> forall k, k < n cf -> length (op_results cf k tr) = 1) /\
  (forall rs, In (Ends (All rs)) tr -> failures cf tr = [] /\ length rs = n cf /\ forall k r, nth_error rs k = Some r -> ok r = true /\ op_results cf k tr = [r]) /\
  (forall r, In (Ends (Threw r)) tr -> ok r = false /\ hd_error (failures cf tr) = Some r).
Proof.
  intros V cf ls s tr R. split; [exact (ends_once cf Join ls s tr R)|].
  assert (J : forall x, In (Ends x) tr -> In x (gends tr)) by (intros x I; apply in_flat_map; exists (Ends x); split; [exact I|left; reflexivity]).
  pose proof (e_err _ _ _ _ _ (j_eff _ _ _ _ (reach cf Join ls s tr R))) as Er. cbn in Er.
  split; [|split].
  - intros x I. destruct (ended cf Join ls s tr x R (J _ I)) as (_ & rs & _ & _ & _ & K). exact K.
  - intros rs I. destruct (ended cf Join ls s tr _ R (J _ I)) as (_ & rs' & Ln & O & K & _). unfold outcome in O. destruct (gerr s) eqn:G; [discriminate|]. destruct (forallb ok rs') eqn:F; [|discriminate]. injection O as <-.
    split; [destruct (failures cf tr); [reflexivity|discriminate]|]. split; [exact Ln|]. intros k r N. split; [|exact (K k r N)]. rewrite forallb_forall in F. apply F. exact (nth_error_In _ _ N).
  - intros r I. destruct (ended cf Join ls s tr _ R (J _ I)) as (_ & rs' & Ln & O & K & _). unfold outcome in O. destruct (gerr s) as [r'|] eqn:G; [|destruct (forallb ok rs'); discriminate]. injection O as <-.
    destruct (failures cf tr) as [|r0 t] eqn:Fl; [discriminate|]. injection Er as ->. split; [|reflexivity].
    assert (In r0 (failures cf tr)) as Q by (rewrite Fl; left; reflexivity). apply failures_in in Q. exact (proj1 Q).
Qed.
Print Assumptions C81_join.

(** They end as soon as the last operation has ended: while the awaiting coroutine is suspended, some operation
    has not ended. *)
Theorem C81_ends_with_the_last : forall (V : Type) (cf : cfg V) (kd : kind) (ls : list (glabel V)) s tr,
  grun cf kd (ginit cf) ls = Some (s, tr) -> gpc s = GWaiting -> exists k, k < n cf /\ op_results cf k tr = [].
Proof.
  intros V cf kd ls s tr R P. pose proof (reach cf kd ls s tr R) as I. destruct (results_none _ _ (j_wait _ _ _ _ I P)) as (k & Ik & Ok). exists k. apply in_seq in Ik.
  split; [lia|]. exact (no_result _ _ _ _ _ (j_eff _ _ _ _ I) Ok).
Qed.
Print Assumptions C81_ends_with_the_last.

(** Cancelling the await makes it end: after a cancellation the executor needs only to run resumptions that are
    posted. *)
Theorem C81_cancel_ends : forall (V : Type) (cf : cfg V) (kd : kind) (ls : list (glabel V)) s tr,
  undisturbed ls -> grun cf kd (ginit cf) (ls ++ [GCancel]) = Some (s, tr) -> gub s = false ->
  exists ls' s' tr', Forall gresumption ls' /\ grun cf kd s ls' = Some (s', tr') /\ gub s' = false /\ exists x, gends (tr ++ tr') = [x].
Proof. exact @cancel_ends. Qed.
Print Assumptions C81_cancel_ends.

(** A failed member makes join end, in the same sense. *)
Theorem C81_join_failure_ends : forall (V : Type) (cf : cfg V) (ls : list (glabel V)) s tr,
  undisturbed ls -> grun cf Join (ginit cf) ls = Some (s, tr) -> gub s = false -> gpc s = GWaiting -> failures cf tr <> [] ->
  exists ls' s' tr' r, Forall gresumption ls' /\ grun cf Join s ls' = Some (s', tr') /\ gub s' = false /\ gends (tr ++ tr') = [Threw r] /\ hd_error (failures cf tr) = Some r.
Proof.
  intros V cf ls s tr Un R U P Fl. destruct (failure_ends cf Join ls s tr eq_refl Un R U P Fl) as (ls' & s' & tr' & G & R' & U' & x & E).
  pose proof (grun_J cf Join ls' s tr s' tr' (reach cf Join ls s tr R) R') as Ij.
  destruct (j_end _ _ _ _ Ij) as [[_ Q]|(_ & rs & y & _ & O & Q)]; rewrite E in Q; [discriminate|]. injection Q as <-.
  pose proof (e_err _ _ _ _ _ (j_eff _ _ _ _ Ij)) as Er. cbn in Er. unfold failures in Er. rewrite flat_map_app in Er. fold (failures cf tr) in Er.
  destruct (failures cf tr) as [|r t]; [congruence|]. cbn in Er. exists ls', s', tr', r. unfold outcome in O. rewrite Er in O. injection O as <-. auto.
Qed.
Print Assumptions C81_join_failure_ends.

(** Whatever the combinator does, each channel goes through one of its own histories, so that C01-C11 hold of it;
    and nothing undefined happens except in a channel. *)
Theorem C81_channels : forall (V : Type) (cf : cfg V) (kd : kind) (ls : list (glabel V)) s tr c,
  grun cf kd (ginit cf) ls = Some (s, tr) ->
  exists lc, run (init (isvoid cf c) (lim cf c)) lc = (gchs s c, gat_channel c tr).
Proof. intros V cf kd ls s tr c R. exact (e_sim _ _ _ _ _ (j_eff _ _ _ _ (reach cf kd ls s tr R)) c). Qed.
Print Assumptions C81_channels.
Theorem C81_only_channels_go_wrong : forall (V : Type) (cf : cfg V) (kd : kind) (ls : list (glabel V)) s tr,
  grun cf kd (ginit cf) ls = Some (s, tr) -> gub s = true -> exists c, bad (gchs s c) <> None.
Proof. intros V cf kd ls s tr R U. destruct (e_bad _ _ _ _ _ (j_eff _ _ _ _ (reach cf kd ls s tr R)) U) as [X|X]; [discriminate X|exact X]. Qed.
Print Assumptions C81_only_channels_go_wrong.

(** Nothing is lost or made up when they return: what was put into a channel, by the members (going by their
    results) and by others, is what was got out of it, by the members and by others, and what is still
    in it.  This holds also if members of one combinator use the same channel. *)
Theorem C81_nothing_lost : forall (V : Type) (cf : cfg V) (kd : kind) (ls : list (glabel V)) s tr rs c,
  grun cf kd (ginit cf) ls = Some (s, tr) -> gub s = false -> In (Ends (All rs)) tr -> isvoid cf c = false ->
  Permutation (gtook cf c rs ++ gtaken_by_others cf c tr ++ buf (gchs s c) ++ held (gchs s c))
              (gput cf c rs ++ gwritten_by_others cf c tr ++ handed (gchs s c)).
Proof.
  intros V cf kd ls s tr rs c R U I Nv. assert (J : In (All rs) (gends tr)) by (apply in_flat_map; exists (Ends (All rs)); split; [exact I|left; reflexivity]).
  destruct (ended cf kd ls s tr _ R J) as (_ & rs' & Ln & O & K & _). assert (rs' = rs) as -> by (revert O; unfold outcome; destruct kd; [intro O; injection O as <-; reflexivity|destruct (gerr s); [discriminate|destruct (forallb ok rs'); [|discriminate]]; intro O; injection O as <-; reflexivity]).
  pose proof (balance cf kd ls s tr c R U Nv) as B. rewrite !(results_flat cf _ tr (n cf) 0 rs Ln K) in B. exact B.
Qed.
Print Assumptions C81_nothing_lost.

(** *** Counterexamples *)
(** Member [k] acts on channel [k] as [acts] says. *)
Definition ex_cfg (acts : list (option nat)) (l : nat -> nat) : cfg nat :=
  mkCfg (length acts) (fun k => k) (fun k => nth k acts None) (fun _ => false) l.
Definition wr (c v : nat) : list (glabel nat) := [GEnv c (MkWrite 7 v); GEnv c (AwWrite 7 false)].
Definition rd (c : nat) : list (glabel nat) := [GEnv c (MkRead 7); GEnv c (AwRead 7 false)].
Definition start (m : nat) : list (glabel nat) := [GCreate; GAwait] ++ repeat GNext (S m).

(** The statement without "when they return" (refuted): whatever a channel lost to a member is in the result. *)
Definition reads_reported {V} (cf : cfg V) (kd : kind) (ls : list (glabel V)) : Prop := forall s tr,
  grun cf kd (ginit cf) ls = Some (s, tr) -> gub s = false -> forall x, gends tr = [x] ->
  forall k v, In (Got (RVal v)) (op_results cf k tr) -> exists rs, x = All rs /\ nth_error rs k = Some (Got (RVal v)).
(** join of a read that has a value and a read of a closed channel: join throws; the value was taken out of its
    channel and is gone. *)
Definition ex_lost_cfg : cfg nat := ex_cfg [None; None] (fun _ => 1).
Definition ex_lost : list (glabel nat) := wr 0 10 ++ [GEnv 1 Close] ++ start 2.
Theorem C81_join_loses_refuted : exists s tr,
  grun ex_lost_cfg Join (ginit ex_lost_cfg) ex_lost = Some (s, tr) /\ gub s = false /\ gends tr = [Threw (Got RBroken)] /\
  op_results ex_lost_cfg 0 tr = [Got (RVal 10)] /\ buf (gchs s 0) = [] /\ ~ reads_reported ex_lost_cfg Join ex_lost.
Proof.
  eexists _, _. split; [vm_compute; reflexivity|]. do 4 (split; [vm_compute; reflexivity|]).
  intro H. destruct (H _ _ ltac:(vm_compute; reflexivity) ltac:(vm_compute; reflexivity) _ ltac:(vm_compute; reflexivity) 0 10 ltac:(vm_compute; auto)) as (rs & E & _). discriminate E.
Qed.
Print Assumptions C81_join_loses_refuted.

(** An enclosing race interrupts a gather of a write and a read while the resumption of the write is posted: the read
    has ended but stays in its channel until the gather returns; a write that finds it there resumes a null handle. *)
Definition ex_null_cfg : cfg nat := ex_cfg [Some 10; None] (fun _ => 0).
Definition ex_null : list (glabel nat) := rd 0 ++ start 2 ++ [GInterrupt] ++ wr 1 11.
Theorem C81_interrupted_refuted : exists s tr,
  grun ex_null_cfg Gather (ginit ex_null_cfg) ex_null = Some (s, tr) /\ gub s = true /\ bad (gchs s 1) = Some NullHandle /\ ~ undisturbed ex_null.
Proof.
  eexists _, _. split; [vm_compute; reflexivity|]. do 2 (split; [vm_compute; reflexivity|]).
  intro H. apply (H GInterrupt). vm_compute. auto 20.
Qed.
Print Assumptions C81_interrupted_refuted.

(** *** Non-vacuity *)
(** A read and a write of one unbuffered channel meet each other, in a gather; a third member reads another
    channel and is cancelled. *)
Definition ex_meet_cfg : cfg nat := mkCfg 3 (fun k => match k with 2 => 1 | _ => 0 end) (fun k => match k with 1 => Some 10 | _ => None end) (fun _ => false) (fun _ => 0).
Definition ex_meet : list (glabel nat) := start 3 ++ [GEnv 0 (Run 0)].
Example C81_nonvacuous_cancel : exists s tr s' tr',
  grun ex_meet_cfg Gather (ginit ex_meet_cfg) ex_meet = Some (s, tr) /\ undisturbed (ex_meet ++ [GCancel]) /\ gpc s = GWaiting /\
  op_results ex_meet_cfg 0 tr = [Got (RVal 10)] /\ op_results ex_meet_cfg 1 tr = [Put WOk] /\ op_results ex_meet_cfg 2 tr = [] /\
  grun ex_meet_cfg Gather (ginit ex_meet_cfg) (ex_meet ++ [GCancel; GEnv 1 (Run 0)]) = Some (s', tr') /\ gub s' = false /\
  gends tr' = [All [Got (RVal 10); Put WOk; Got RAborted]].
Proof.
  eexists _, _, _, _. split; [vm_compute; reflexivity|]. split; [intros l I; vm_compute in I; repeat (destruct I as [<-|I]; [exact Logic.I|]); destruct I|].
  do 4 (split; [vm_compute; reflexivity|]). split; [vm_compute; reflexivity|]. split; vm_compute; reflexivity.
Qed.
(** The same as a join in which the third member fails first: the others are cancelled where they
    have not ended. *)
Definition ex_fail : list (glabel nat) := [GCreate; GAwait; GNext; GNext; GNext; GNext; GEnv 1 Close].
Definition ex_fail_cfg : cfg nat := mkCfg 3 (fun k => k) (fun k => match k with 1 => Some 10 | _ => None end) (fun _ => false) (fun _ => 0).
Example C81_nonvacuous_failure : exists s tr s' tr',
  grun ex_fail_cfg Join (ginit ex_fail_cfg) (ex_fail ++ [GEnv 1 (Run 0)]) = Some (s, tr) /\ undisturbed ex_fail /\ gub s = false /\ gpc s = GWaiting /\
  failures ex_fail_cfg tr = [Put WBroken] /\
  grun ex_fail_cfg Join (ginit ex_fail_cfg) (ex_fail ++ [GEnv 1 (Run 0); GEnv 0 (Run 0); GEnv 2 (Run 0)]) = Some (s', tr') /\ gub s' = false /\
  gends tr' = [Threw (Put WBroken)] /\ failures ex_fail_cfg tr' = [Put WBroken; Got RAborted; Got RAborted].
Proof.
  eexists _, _, _, _. split; [vm_compute; reflexivity|]. split; [intros l I; vm_compute in I; repeat (destruct I as [<-|I]; [exact Logic.I|]); destruct I|].
  do 3 (split; [vm_compute; reflexivity|]). split; [vm_compute; reflexivity|]. do 2 (split; [vm_compute; reflexivity|]). vm_compute. reflexivity.
Qed.
(** A join that returns, with others using the channels. *)
Definition ex_ret : list (glabel nat) := start 3 ++ rd 1 ++ wr 0 20 ++ [GEnv 1 (Run 0); GEnv 0 (Run 0)] ++ [GEnv 2 (MkWrite 8 30); GEnv 2 (AwWrite 8 false); GEnv 2 (Run 0)].
Example C81_nonvacuous_join : exists s tr,
  grun ex_fail_cfg Join (ginit ex_fail_cfg) ex_ret = Some (s, tr) /\ gub s = false /\
  gends tr = [All [Got (RVal 20); Put WOk; Got (RVal 30)]] /\ gtook ex_fail_cfg 0 [Got (RVal 20); Put WOk; Got (RVal 30)] = [20] /\
  gput ex_fail_cfg 1 [Got (RVal 20); Put WOk; Got (RVal 30)] = [10] /\ gtaken_by_others ex_fail_cfg 1 tr = [10] /\ gwritten_by_others ex_fail_cfg 2 tr = [30].
Proof. eexists _, _. split; [vm_compute; reflexivity|]. do 5 (split; [vm_compute; reflexivity|]). vm_compute. reflexivity. Qed.
