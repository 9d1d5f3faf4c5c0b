(** Property theorems for a race over channel reads: C52.

    Vocabulary (Rch_Spec.v): [taken cf tr] lists the values that the racing reads took out of
    their channels, with the member that took them; [ends tr] how co_await race(..) ended;
    [winnings m r] is the value delivered by a race that ended with member [m]'s result [r];
    [quiet_start cf ls] says that no write was waiting in a channel of the race when the race
    was awaited.  [ub s = false] says that nothing undefined has happened so far. *)
From Coq Require Import List Bool Arith Lia Permutation.
From Verif Require Import Channel_Model Channel_Spec Rch_Model Rch_Spec Rch_Inv Rch_Step Rch_Live.
Import ListNotations.

(** ** C52 *)

(** The full statement (refuted below): in every execution, the racing reads take at most one
    value, and it is the one the race returns. *)
Definition one_value {V} (cf : cfg) (ls : list (rlabel V)) : Prop := forall s tr,
  rrun cf (rinit cf) ls = Some (s, tr) ->
  length (taken cf tr) <= 1 /\ forall m r, ends tr = [(m, r)] -> taken cf tr = winnings m r.

(** Proved for races that are started while no write waits in their channels: at most one value
    is taken; the race ends at most once, with exactly the value that was taken; no writer's
    await throws.  Missing: races that find a waiting writer. *)
Theorem C52_one_value_partial : forall (V : Type) (cf : cfg) (ls : list (rlabel V)) s tr,
  quiet_start cf ls -> rrun cf (rinit cf) ls = Some (s, tr) ->
  length (taken cf tr) <= 1 /\ length (ends tr) <= 1 /\
  (forall m r, In (Win m r) tr -> taken cf tr = winnings m r) /\
  (forall c j, ~ In (TxThrow c j) tr).
Proof.
  intros V cf ls s tr Q R. destruct (quiet_run cf ls s tr Q R) as (_ & _ & T & X & E). unfold result_of in T. rewrite T.
  split; [destruct (idx s) as [m|]; [destruct (out s) as [[v| |]|]|]; cbn; lia|].
  split; [destruct E as [[_ ->]|(m & r & _ & _ & _ & ->)]; cbn; lia|]. split; [|exact X].
  intros m r I. assert (J : In (m, r) (ends tr)) by (unfold ends; apply in_flat_map; exists (Win m r); split; [exact I|left; reflexivity]).
  destruct E as [[_ E]|(m' & r' & _ & I1 & I2 & E)]; rewrite E in J; [destruct J|]. destruct J as [J|[]]. injection J as -> ->. rewrite I1, I2. reflexivity.
Qed.
Print Assumptions C52_one_value_partial.

(** Nothing is lost then: what was written into a channel is what the race returned out of it,
    what other reads got, and what is still in it. *)
Theorem C52_nothing_lost_partial : forall (V : Type) (cf : cfg) (ls : list (rlabel V)) s tr m r c,
  quiet_start cf ls -> rrun cf (rinit cf) ls = Some (s, tr) -> ub s = false -> ends tr = [(m, r)] -> isvoid cf c = false ->
  Permutation (won cf c m r ++ taken_by_others cf c tr ++ buf (chs s c) ++ held (chs s c))
              (written (at_channel c tr) ++ handed (chs s c)).
Proof. exact @conserved. Qed.
Print Assumptions C52_nothing_lost_partial.

(** A decided race returns as soon as the executor has run the resumptions that are posted. *)
Theorem C52_returns_partial : forall (V : Type) (cf : cfg) (ls : list (rlabel V)) s tr,
  quiet_start cf ls -> rrun cf (rinit cf) ls = Some (s, tr) -> ub s = false -> idx s <> None ->
  exists ls' s' tr' m r, Forall resumption ls' /\ rrun cf s ls' = Some (s', tr') /\ ub s' = false /\ ends (tr ++ tr') = [(m, r)].
Proof. exact @returns. Qed.
Print Assumptions C52_returns_partial.

(** Without any assumption on the start: whatever the race does, each channel goes through one
    of its own histories, so that C01-C11 hold of it. *)
Theorem C52_channels : forall (V : Type) (cf : cfg) (ls : list (rlabel V)) s tr c,
  rrun cf (rinit cf) ls = Some (s, tr) ->
  exists lc, run (init (isvoid cf c) (lim cf c)) lc = (chs s c, at_channel c tr).
Proof. intros V cf ls s tr c R. exact (rrun_sim cf ls _ s tr R c). Qed.
Print Assumptions C52_channels.

(** *** Counterexamples *)
Definition ex_cfg (members : nat) (l : nat -> nat) : cfg := mkCfg members (fun k => k) (fun _ => false) l.
Definition put (c v : nat) : list (rlabel nat) := [Env c (MkWrite 0 v); Env c (AwWrite 0 false)].

(** Two unbuffered channels with a waiting writer each: both values are taken, one is returned. *)
Definition ex_lost : list (rlabel nat) := put 0 10 ++ put 1 20 ++ [Await; Next; Next; Next; Env 0 (Run 0); Env 1 (Run 0)].
Theorem C52_value_lost_refuted : exists s tr,
  rrun (ex_cfg 2 (fun _ => 0)) (rinit (ex_cfg 2 (fun _ => 0))) ex_lost = Some (s, tr) /\ ub s = false /\
  ends tr = [(0, RVal 10)] /\ taken (ex_cfg 2 (fun _ => 0)) tr = [(0, 10); (1, 20)] /\
  buf (chs s 1) = [] /\ wq (chs s 1) = [] /\ ~ one_value (ex_cfg 2 (fun _ => 0)) ex_lost.
Proof.
  eexists _, _. split; [vm_compute; reflexivity|]. split; [vm_compute; reflexivity|]. split; [vm_compute; reflexivity|].
  split; [vm_compute; reflexivity|]. split; [vm_compute; reflexivity|]. split; [vm_compute; reflexivity|].
  intro H. destruct (H _ _ ltac:(vm_compute; reflexivity)) as [L _]. vm_compute in L. lia.
Qed.
Print Assumptions C52_value_lost_refuted.

(** Starting member 1 resumes a waiting writer, which writes to channel 0 and decides the race;
    the write to channel 2 then throws "Another transaction already started". *)
Definition ex_throw : list (rlabel nat) := put 1 10 ++ [Await; Next; Next] ++ put 0 11 ++ [Next; Next] ++ put 2 12.
Theorem C52_writer_throws_refuted : exists s tr,
  rrun (ex_cfg 3 (fun _ => 0)) (rinit (ex_cfg 3 (fun _ => 0))) ex_throw = Some (s, tr) /\ In (TxThrow 2 0) tr.
Proof. eexists _, _. split; [vm_compute; reflexivity|]. vm_compute. auto 12. Qed.
Print Assumptions C52_writer_throws_refuted.

(** Started while no writer waits: the read that is interrupted stays in its channel until the race
    returns; a write that finds it there resumes a null handle. *)
Definition ex_null : list (rlabel nat) := [Await; Next; Next; Next; Next] ++ put 0 10 ++ put 1 11 ++ put 2 12.
Definition ex_null_cfg : cfg := ex_cfg 3 (fun c => match c with 0 => 1 | _ => 0 end).
Theorem C52_interrupted_read_refuted : exists s tr,
  rrun ex_null_cfg (rinit ex_null_cfg) ex_null = Some (s, tr) /\ quiet_start ex_null_cfg ex_null /\ ub s = true /\ bad (chs s 2) = Some NullHandle.
Proof.
  eexists _, _. split; [vm_compute; reflexivity|]. split; [|split; vm_compute; reflexivity].
  intros a b s e E R k K. destruct a as [|l a].
  - injection R as <- <-. reflexivity.
  - exfalso. injection E as _ E. assert (In Await (a ++ Await :: b)) by (apply in_or_app; right; left; reflexivity).
    rewrite <- E in H. cbn in H. repeat (destruct H as [H|H]; [discriminate|]). exact H.
Qed.
Print Assumptions C52_interrupted_read_refuted.

(** *** Non-vacuity: three channels, one buffered; a writer waits for nobody at the start, the value
    written to channel 1 is returned, a later write to channel 2 stays there for another read. *)
Definition ex_quiet : list (rlabel nat) :=
  [Env 2 (MkRead 7); Env 2 (CancelR 7)] ++ [Await; Next; Next; Next; Next] ++ put 1 10 ++
  [Env 2 (MkWrite 0 20); Env 2 (AwWrite 0 false); Env 2 (AwRead 7 false); Env 2 (Run 0); Env 1 (Run 0)].
Definition ex_quiet_cfg : cfg := ex_cfg 3 (fun c => match c with 0 => 1 | _ => 0 end).
Example C52_nonvacuous : exists s tr,
  rrun ex_quiet_cfg (rinit ex_quiet_cfg) ex_quiet = Some (s, tr) /\ quiet_start ex_quiet_cfg ex_quiet /\ ub s = false /\
  ends tr = [(1, RVal 10)] /\ taken ex_quiet_cfg tr = [(1, 10)] /\ idx s <> None /\ pc s = Returned /\
  taken_by_others ex_quiet_cfg 2 tr = [20].
Proof.
  eexists _, _. split; [vm_compute; reflexivity|]. split; [|repeat split; vm_compute; try reflexivity; discriminate].
  intros a b s e E R k K. destruct a as [|l1 [|l2 [|l3 a]]]; try discriminate E.
  - injection E as <- <- _. vm_compute in R. injection R as <- <-. do 3 (destruct k as [|k]; [reflexivity|]). vm_compute in K. lia.
  - exfalso. injection E as _ _ _ E. assert (In Await (a ++ Await :: b)) by (apply in_or_app; right; left; reflexivity).
    rewrite <- E in H. cbn in H. repeat (destruct H as [H|H]; [discriminate|]). exact H.
Qed.
(** The moment in between: the race is decided by the buffered channel 0 and waits for member 1. *)
Example C52_returns_nonvacuous : exists s tr,
  rrun ex_null_cfg (rinit ex_null_cfg) ([Await; Next; Next; Next; Next] ++ put 0 10 ++ put 1 11) = Some (s, tr) /\
  ub s = false /\ idx s <> None /\ ends tr = [] /\ pc s <> Returned.
Proof. eexists _, _. split; [vm_compute; reflexivity|]. repeat split; vm_compute; try reflexivity; discriminate. Qed.
