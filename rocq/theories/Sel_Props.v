(** Property theorems for a race over channel reads and writes ("select"): C79.

    Vocabulary (Sel_Spec.v): [effects cf tr] lists the values that the racing operations took out
    of their channels or put into them, with the member; [ends tr] how co_await race(..) ended;
    [reported cf m r] is what a race that ended with member [m]'s result [r] tells its caller it
    did; [quiet_start cf ls] says that when the race was awaited no write was waiting in a channel
    it reads and no read in a channel it writes; [apart cf] that it does not read and write the
    same channel.  [ub s = false] says that nothing undefined has happened so far. *)
From Coq Require Import List Bool Arith Lia Permutation.
From Verif Require Import Channel_Model Channel_Spec Sel_Model Sel_Spec Sel_Inv Sel_Step Sel_Live Sel_Cancel.
Import ListNotations.

(** ** C79 *)

(** The full statement (refuted below): in every execution at most one of the racing operations
    has an effect, and it is the one the race reports. *)
Definition one_effect {V} (cf : cfg V) (ls : list (rlabel V)) : Prop := forall s tr,
  rrun cf (rinit cf) ls = Some (s, tr) ->
  length (effects cf tr) <= 1 /\ forall m r, ends tr = [(m, r)] -> effects cf tr = reported cf m r.

(** Proved for races that are started while no partner waits: at most one read or write has an
    effect; the race ends at most once, and reports exactly that; no other operation's await throws.
    Missing: races that find a waiting partner, or that read and write the same channel. *)
Theorem C79_one_effect_partial : forall (V : Type) (cf : cfg V) (ls : list (rlabel V)) s tr,
  apart cf -> quiet_start cf ls -> rrun cf (rinit cf) ls = Some (s, tr) ->
  length (effects cf tr) <= 1 /\ length (ends tr) <= 1 /\
  (forall m r, In (Win m r) tr -> m < n cf /\ effects cf tr = reported cf m r) /\
  (forall c j, ~ In (TxThrow c j) tr).
Proof.
  intros V cf ls s tr Ap Q R. destruct (quiet_run cf Ap ls s tr Q R) as (_ & (_ & Lm) & T & X & E). unfold result_of in T. rewrite T.
  split; [destruct (idx s) as [m|]; [destruct (out s) as [[[v| |]|[| |]]|]|]; unfold reported; try destruct (act cf m); cbn; lia|].
  split; [destruct E as [[_ ->]|(m & r & _ & _ & _ & ->)]; cbn; lia|]. split; [|exact X].
  intros m r I. assert (J : In (m, r) (ends tr)) by (unfold ends; apply in_flat_map; exists (Win m r); split; [exact I|left; reflexivity]).
  destruct E as [[_ E]|(m' & r' & _ & I1 & I2 & E)]; rewrite E in J; [destruct J|]. destruct J as [J|[]]. injection J as -> ->. rewrite I1, I2.
  split; [exact (Lm _ I1)|reflexivity].
Qed.
Print Assumptions C79_one_effect_partial.

(** Nothing is lost or made up then: what was put into a channel, by the race and by others, is what
    was got out of it, by the race and by others, and what is still in it. *)
Theorem C79_nothing_lost_partial : forall (V : Type) (cf : cfg V) (ls : list (rlabel V)) s tr m r c,
  apart cf -> quiet_start cf ls -> rrun cf (rinit cf) ls = Some (s, tr) -> ub s = false -> ends tr = [(m, r)] -> isvoid cf c = false ->
  Permutation (took cf c m r ++ taken_by_others cf c tr ++ buf (chs s c) ++ held (chs s c))
              (put cf c m r ++ written_by_others cf c tr ++ handed (chs s c)).
Proof. intros V cf ls s tr m r c Ap. exact (conserved cf Ap ls s tr m r c). Qed.
Print Assumptions C79_nothing_lost_partial.

(** A decided race returns as soon as the executor has run the resumptions that are posted. *)
Theorem C79_returns_partial : forall (V : Type) (cf : cfg V) (ls : list (rlabel V)) s tr,
  apart cf -> quiet_start cf ls -> rrun cf (rinit cf) ls = Some (s, tr) -> ub s = false -> idx s <> None ->
  exists ls' s' tr' m r, Forall resumption ls' /\ rrun cf s ls' = Some (s', tr') /\ ub s' = false /\ ends (tr ++ tr') = [(m, r)].
Proof. intros V cf ls s tr Ap. exact (returns cf Ap ls s tr). Qed.
Print Assumptions C79_returns_partial.

(** Cancelling the await makes the race end: after a cancellation the executor needs only to run
    resumptions that are posted. *)
Theorem C79_cancel_ends_partial : forall (V : Type) (cf : cfg V) (ls : list (rlabel V)) s tr,
  apart cf -> quiet_start cf ls -> rrun cf (rinit cf) (ls ++ [Cancel]) = Some (s, tr) -> ub s = false ->
  exists ls' s' tr' m r, Forall resumption ls' /\ rrun cf s ls' = Some (s', tr') /\ ub s' = false /\ ends (tr ++ tr') = [(m, r)].
Proof. intros V cf ls s tr Ap. exact (cancel_ends cf Ap ls s tr). Qed.
Print Assumptions C79_cancel_ends_partial.

(** Without any assumption on the start: whatever the race does, each channel goes through one
    of its own histories, so that C01-C11 hold of it. *)
Theorem C79_channels : forall (V : Type) (cf : cfg V) (ls : list (rlabel V)) s tr c,
  rrun cf (rinit cf) ls = Some (s, tr) ->
  exists lc, run (init (isvoid cf c) (lim cf c)) lc = (chs s c, at_channel c tr).
Proof. intros V cf ls s tr c R. exact (rrun_sim cf ls _ s tr R c). Qed.
Print Assumptions C79_channels.

(** *** Counterexamples *)
(** Member [k] acts on channel [k] as [acts] says. *)
Definition ex_cfg (acts : list (option nat)) (l : nat -> nat) : cfg nat :=
  mkCfg (length acts) (fun k => k) (fun k => nth k acts None) (fun _ => false) l.
Definition wr (c v : nat) : list (rlabel nat) := [Env c (MkWrite 7 v); Env c (AwWrite 7 false)].
Definition rd (c : nat) : list (rlabel nat) := [Env c (MkRead 7); Env c (AwRead 7 false)].

(** Two unbuffered channels with a waiting reader each: both writes take place, one is reported. *)
Definition ex_twice : list (rlabel nat) := rd 0 ++ rd 1 ++ [Await; Next; Next; Next; Env 0 (Run 0); Env 1 (Run 0)].
Definition ex_twice_cfg : cfg nat := ex_cfg [Some 10; Some 20] (fun _ => 0).
Theorem C79_two_writes_refuted : exists s tr,
  rrun ex_twice_cfg (rinit ex_twice_cfg) ex_twice = Some (s, tr) /\ ub s = false /\
  ends tr = [(0, Put WOk)] /\ effects ex_twice_cfg tr = [(0, 10); (1, 20)] /\
  taken_by_others ex_twice_cfg 0 tr = [10] /\ taken_by_others ex_twice_cfg 1 tr = [20] /\ ~ one_effect ex_twice_cfg ex_twice.
Proof.
  eexists _, _. split; [vm_compute; reflexivity|]. split; [vm_compute; reflexivity|]. split; [vm_compute; reflexivity|].
  split; [vm_compute; reflexivity|]. split; [vm_compute; reflexivity|]. split; [vm_compute; reflexivity|].
  intro H. destruct (H _ _ ltac:(vm_compute; reflexivity)) as [L _]. vm_compute in L. lia.
Qed.
Print Assumptions C79_two_writes_refuted.

(** A read and a write of the same unbuffered channel meet each other: both take place. *)
Definition ex_self_cfg : cfg nat := mkCfg 2 (fun _ => 0) (fun k => match k with 0 => None | _ => Some 10 end) (fun _ => false) (fun _ => 0).
Definition ex_self : list (rlabel nat) := [Await; Next; Next; Next; Env 0 (Run 0)].
Theorem C79_same_channel_refuted : exists s tr,
  rrun ex_self_cfg (rinit ex_self_cfg) ex_self = Some (s, tr) /\ quiet_start ex_self_cfg ex_self /\ ub s = false /\
  ends tr = [(0, Got (RVal 10))] /\ effects ex_self_cfg tr = [(0, 10); (1, 10)].
Proof.
  eexists _, _. split; [vm_compute; reflexivity|]. split; [|repeat split; vm_compute; reflexivity].
  intros a b s e E R k K. destruct a as [|l a].
  - injection R as <- <-. destruct k as [|[|]]; reflexivity.
  - exfalso. injection E as _ E. assert (In Await (a ++ Await :: b)) by (apply in_or_app; right; left; reflexivity).
    rewrite <- E in H. cbn in H. repeat (destruct H as [H|H]; [discriminate|]). exact H.
Qed.
Print Assumptions C79_same_channel_refuted.

(** Starting member 1 resumes a waiting reader, which reads from channel 0 and decides the race; the
    read from channel 2 then throws "Another transaction already started". *)
Definition ex_throw : list (rlabel nat) := rd 1 ++ [Await; Next; Next] ++ rd 0 ++ [Next; Next] ++ rd 2.
Definition ex_throw_cfg : cfg nat := ex_cfg [Some 10; Some 11; Some 12] (fun _ => 0).
Theorem C79_reader_throws_refuted : exists s tr,
  rrun ex_throw_cfg (rinit ex_throw_cfg) ex_throw = Some (s, tr) /\ In (TxThrow 2 7) tr.
Proof. eexists _, _. split; [vm_compute; reflexivity|]. vm_compute. auto 12. Qed.
Print Assumptions C79_reader_throws_refuted.

(** Started while no partner waits: the write that is interrupted stays in its channel until the race
    returns; a read that finds it there resumes a null handle. *)
Definition ex_null : list (rlabel nat) := [Await; Next; Next; Next; Next] ++ wr 0 10 ++ rd 1 ++ rd 2.
Definition ex_null_cfg : cfg nat := ex_cfg [None; Some 11; Some 12] (fun c => match c with 0 => 1 | _ => 0 end).
Lemma ex_null_quiet : quiet_start ex_null_cfg ex_null.
Proof.
  intros a b s e E R k K. destruct a as [|l a].
  - injection R as <- <-. do 3 (destruct k as [|k]; [reflexivity|]). vm_compute in K. lia.
  - exfalso. injection E as _ E. assert (In Await (a ++ Await :: b)) by (apply in_or_app; right; left; reflexivity).
    rewrite <- E in H. cbn in H. repeat (destruct H as [H|H]; [discriminate|]). exact H.
Qed.
Lemma ex_apart acts l : apart (ex_cfg acts l).
Proof. intros j k J K E. cbn in E. subst. reflexivity. Qed.
Theorem C79_interrupted_write_refuted : exists s tr,
  rrun ex_null_cfg (rinit ex_null_cfg) ex_null = Some (s, tr) /\ apart ex_null_cfg /\ quiet_start ex_null_cfg ex_null /\ ub s = true /\ bad (chs s 2) = Some NullHandle.
Proof. eexists _, _. split; [vm_compute; reflexivity|]. split; [apply ex_apart|]. split; [apply ex_null_quiet|]. split; vm_compute; reflexivity. Qed.
Print Assumptions C79_interrupted_write_refuted.

(** *** Non-vacuity: a read of a buffered channel and writes to two unbuffered ones; a reader of channel
    1 comes and decides the race; a later write to channel 0 is left for others. *)
Definition ex_quiet : list (rlabel nat) :=
  [Env 2 (MkRead 9); Env 2 (CancelR 9)] ++ [Await; Next; Next; Next; Next] ++ rd 1 ++ [Env 1 (Run 0)] ++ wr 0 20 ++ [Env 0 (MkRead 8); Env 0 (AwRead 8 false)].
Definition ex_quiet_cfg : cfg nat := ex_cfg [None; Some 11; Some 12] (fun c => match c with 0 => 1 | _ => 0 end).
Example C79_nonvacuous : exists s tr,
  rrun ex_quiet_cfg (rinit ex_quiet_cfg) ex_quiet = Some (s, tr) /\ apart ex_quiet_cfg /\ quiet_start ex_quiet_cfg ex_quiet /\ ub s = false /\
  ends tr = [(1, Put WOk)] /\ effects ex_quiet_cfg tr = [(1, 11)] /\ idx s <> None /\ pc s = Returned /\
  taken_by_others ex_quiet_cfg 1 tr = [11] /\ taken_by_others ex_quiet_cfg 0 tr = [20].
Proof.
  eexists _, _. split; [vm_compute; reflexivity|]. split; [apply ex_apart|]. split; [|repeat split; vm_compute; try reflexivity; discriminate].
  intros a b s e E R k K. destruct a as [|l1 [|l2 [|l3 a]]]; try discriminate E.
  - injection E as <- <- _. vm_compute in R. injection R as <- <-. do 3 (destruct k as [|k]; [reflexivity|]). vm_compute in K. lia.
  - exfalso. injection E as _ _ _ E. assert (In Await (a ++ Await :: b)) by (apply in_or_app; right; left; reflexivity).
    rewrite <- E in H. cbn in H. repeat (destruct H as [H|H]; [discriminate|]). exact H.
Qed.
(** The moment in between: the race is decided by the read of channel 0 and waits for member 1. *)
Example C79_returns_nonvacuous : exists s tr,
  rrun ex_null_cfg (rinit ex_null_cfg) ([Await; Next; Next; Next; Next] ++ wr 0 10 ++ rd 1) = Some (s, tr) /\
  ub s = false /\ idx s <> None /\ ends tr = [] /\ pc s <> Returned.
Proof. eexists _, _. split; [vm_compute; reflexivity|]. repeat split; vm_compute; try reflexivity; discriminate. Qed.
(** Nobody comes; the race is cancelled, and ends with the first member's abort. *)
Definition ex_cancel : list (rlabel nat) := [Await; Next; Next; Next; Next].
Example C79_cancel_nonvacuous : exists s tr s' tr',
  rrun ex_null_cfg (rinit ex_null_cfg) (ex_cancel ++ [Cancel]) = Some (s, tr) /\ quiet_start ex_null_cfg ex_cancel /\ ub s = false /\ ends tr = [] /\ idx s = None /\
  rrun ex_null_cfg s [Env 0 (Run 0); Env 1 (Run 0); Env 2 (Run 0)] = Some (s', tr') /\ ends (tr ++ tr') = [(0, Got RAborted)].
Proof.
  eexists _, _, _, _. split; [vm_compute; reflexivity|]. split; [|split; [vm_compute; reflexivity|split; [vm_compute; reflexivity|split; [vm_compute; reflexivity|split; [vm_compute; reflexivity|vm_compute; reflexivity]]]]].
  intros a b s e E R k K. destruct a as [|l a].
  - injection R as <- <-. do 3 (destruct k as [|k]; [reflexivity|]). vm_compute in K. lia.
  - exfalso. injection E as _ E. assert (In Await (a ++ Await :: b)) by (apply in_or_app; right; left; reflexivity).
    rewrite <- E in H. cbn in H. repeat (destruct H as [H|H]; [discriminate|]). exact H.
Qed.
