(** Property theorems for networks of coroutines connected by channels: C83.

    Vocabulary (Kpn_Spec.v): [point_to_point next void reader writer] says that each channel has one coroutine that
    reads from it and one that writes to it, and that only the latter closes it, and only if it is not a channel<void>;
    [nrun next (ninit void lims start) ls = Some (s, tr)] says that the network with limits [lims] can run by the
    schedule [ls] (which coroutine continues, which job the executor runs), and that the coroutines then did and saw
    [tr]; [of_proc p tr] is what coroutine [p] did and saw; [puts c tr] are the values given to write on [c] before it was
    closed, [gets c tr] those that reads of [c] gave, [shut c tr] whether [c] was closed; [at_rest next s] says that nothing can
    happen any more.  There is no bound on the number of coroutines and channels, which may be infinite. *)
From Coq Require Import List Bool Arith Lia.
From Verif Require Import Channel_Model Kpn_Model Kpn_Spec Kpn_Chan Kpn_Kahn Kpn_Net.
Import ListNotations.

Section Glue.
Context {V S : Type}.
Variable next : nat -> S -> act V S.

Lemma prefix_antisym {A} (a b : list A) : prefix a b -> prefix b a -> a = b.
Proof.
  intros [t ->] [u E]. rewrite <- app_assoc in E. rewrite <- (app_nil_r a) in E at 1. apply app_inv_head in E. symmetry in E. apply app_eq_nil in E. destruct E as [-> _]. symmetry. apply app_nil_r.
Qed.

Lemma fifo reader writer start lims c (tr : list (event V)) : Kpn_Kahn.G next reader writer start lims tr -> prefix (gets c tr) (puts c tr).
Proof.
  induction tr as [|e tr IH] using rev_ind; intro Hg; [exists []; reflexivity|]. destruct (IH (G_prefix _ _ _ _ _ _ _ Hg)) as [t E]. rewrite gets_app, puts_app.
  destruct e as [p d|p d v|p d|p d r|p d v r]; cbn; rewrite ?app_nil_r; try (rewrite E, <- app_assoc; eexists; reflexivity).
  - pose proof (g_fifo _ _ _ _ _ _ Hg tr p d r [] eq_refl) as F. assert (X : (if shut c tr then [] else []) = @nil V) by (destruct (shut c tr); reflexivity). rewrite X, app_nil_r.
    destruct r as [v| |]; cbn; rewrite ?app_nil_r; [|exists t; exact E|exists t; exact E]. destruct (Nat.eqb_spec d c) as [->|N]; [|rewrite ?app_nil_r; exists t; exact E].
    rewrite E, nth_error_app2, Nat.sub_diag in F by lia. destruct t as [|y t]; [discriminate|]. injection F as ->. exists t. rewrite E, <- app_assoc. reflexivity.
Qed.
End Glue.

(** ** C83 *)

(** Nothing undefined happens and no channel is ever over its limit. *)
Theorem C83_safe : forall (V S : Type) (next : nat -> S -> act V S) void reader writer lims start ls s tr c,
  point_to_point next void reader writer -> nrun next (ninit void lims start) ls = Some (s, tr) ->
  bad (chans s c) = None /\ length (buf (chans s c)) <= lims c.
Proof.
  intros V S next void reader writer lims start ls s tr c PP H. destruct (reached _ _ _ _ _ _ PP _ _ _ H) as [Hn _].
  destruct (nt_chan _ _ _ _ _ _ _ _ Hn c) as (fl & C & _). exact (chan_bad _ _ _ _ _ _ _ _ _ C).
Qed.
Print Assumptions C83_safe.

(** What each operation gives: the next value that was written, in the order of the writes; a read fails only if the
    channel was closed and everything written before has been read; a write fails exactly if the channel was closed. *)
Theorem C83_results : forall (V S : Type) (next : nat -> S -> act V S) void reader writer lims start ls s tr,
  point_to_point next void reader writer -> nrun next (ninit void lims start) ls = Some (s, tr) ->
  (forall t1 p c r t2, tr = t1 ++ EndR p c r :: t2 ->
     match r with
     | RVal v => nth_error (puts c t1) (length (gets c t1)) = Some v
     | RBroken => shut c t1 = true /\ gets c t1 = puts c t1
     | RAborted => False
     end) /\
  (forall t1 p c v r t2, tr = t1 ++ EndW p c v r :: t2 -> match r with WOk => shut c t1 = false | WBroken => shut c t1 = true | WAborted => False end) /\
  (forall c, prefix (gets c tr) (puts c tr)).
Proof.
  intros V S next void reader writer lims start ls s tr PP H. destruct (reached _ _ _ _ _ _ PP _ _ _ H) as [[_ _ Hg] _]. split; [|split].
  - intros t1 p c r t2 E. pose proof (g_fifo _ _ _ _ _ _ Hg _ _ _ _ _ E) as F. destruct r as [v| |]; auto. destruct F as [F L]. split; [exact F|].
    unfold G in Hg. rewrite E in Hg. destruct (fifo _ _ _ _ _ c _ (G_prefix _ _ _ _ _ _ _ Hg)) as [t Et]. rewrite Et, app_length in L. destruct t; [|cbn in L; lia]. now rewrite Et, app_nil_r.
  - intros t1 p c v r t2 E. pose proof (g_cap _ _ _ _ _ _ Hg _ _ _ _ _ _ E) as F. destruct r; tauto.
  - intro c. exact (fifo _ _ _ _ _ c _ Hg).
Qed.
Print Assumptions C83_results.

(** What a coroutine does and sees does not depend on the schedule, nor on the limits of the channels, except for how far it
    gets. *)
Theorem C83_deterministic : forall (V S : Type) (next : nat -> S -> act V S) void reader writer lims1 lims2 start ls1 s1 tr1 ls2 s2 tr2 p,
  point_to_point next void reader writer ->
  nrun next (ninit void lims1 start) ls1 = Some (s1, tr1) -> nrun next (ninit void lims2 start) ls2 = Some (s2, tr2) ->
  prefix (of_proc p tr1) (of_proc p tr2) \/ prefix (of_proc p tr2) (of_proc p tr1).
Proof.
  intros V S next void reader writer lims1 lims2 start ls1 s1 tr1 ls2 s2 tr2 p PP H1 H2.
  destruct (reached _ _ _ _ _ _ PP _ _ _ H1) as [[_ _ G1] _]. destruct (reached _ _ _ _ _ _ PP _ _ _ H2) as [[_ _ G2] _].
  exact (comparable _ _ _ _ _ _ _ _ G1 G2 p).
Qed.
Print Assumptions C83_deterministic.

(** The network is at rest exactly if no step is possible. *)
Theorem C83_rest : forall (V S : Type) (next : nat -> S -> act V S) s, at_rest next s <-> forall l, nstep next s l = None.
Proof.
  intros V S next s. split.
  - intros [R1 R2] [p|c k]; unfold nstep; [|rewrite R1; cbn; destruct k; reflexivity]. destruct (R2 p) as [->|E]; [reflexivity|]. rewrite E. now destruct (busy s p).
  - intro H. split.
    + intro c. specialize (H (Job c 0)). unfold nstep in H. destruct (posted (chans s c)); [reflexivity|discriminate H].
    + intro p. specialize (H (Go p)). unfold nstep in H. destruct (busy s p); [auto|]. right. destruct (next p (loc s p)); [reflexivity| | |]; destruct (on _ _ _ _); discriminate H.
Qed.
Print Assumptions C83_rest.

(** If a run has come to rest, every other schedule does part of the same, also with smaller limits: enlarging a
    channel never makes a coroutine do less or see anything else. *)
Theorem C83_rest_is_maximal : forall (V S : Type) (next : nat -> S -> act V S) void reader writer lims1 lims2 start ls1 s1 tr1 ls2 s2 tr2 p,
  point_to_point next void reader writer ->
  nrun next (ninit void lims1 start) ls1 = Some (s1, tr1) -> at_rest next s1 ->
  nrun next (ninit void lims2 start) ls2 = Some (s2, tr2) -> (forall c, lims2 c <= lims1 c) ->
  prefix (of_proc p tr2) (of_proc p tr1).
Proof.
  intros V S next void reader writer lims1 lims2 start ls1 s1 tr1 ls2 s2 tr2 p PP H1 R H2 L.
  destruct (reached _ _ _ _ _ _ PP _ _ _ H1) as [N1 _]. destruct (reached _ _ _ _ _ _ PP _ _ _ H2) as [[_ _ G2] _].
  exact (maximal _ _ _ _ _ _ _ _ (nt_G _ _ _ _ _ _ _ _ N1) (rests _ _ _ _ _ _ PP _ _ N1 R) G2 L p).
Qed.
Print Assumptions C83_rest_is_maximal.

(** Two runs that come to rest end the same: each coroutine did and saw the same, is at the same point, and either
    waits in both or in none. *)
Theorem C83_same_rest : forall (V S : Type) (next : nat -> S -> act V S) void reader writer lims start ls1 s1 tr1 ls2 s2 tr2 p,
  point_to_point next void reader writer ->
  nrun next (ninit void lims start) ls1 = Some (s1, tr1) -> at_rest next s1 ->
  nrun next (ninit void lims start) ls2 = Some (s2, tr2) -> at_rest next s2 ->
  of_proc p tr1 = of_proc p tr2 /\ loc s1 p = loc s2 p /\ busy s1 p = busy s2 p.
Proof.
  intros V S next void reader writer lims start ls1 s1 tr1 ls2 s2 tr2 p PP H1 R1 H2 R2.
  assert (E : of_proc p tr1 = of_proc p tr2).
  { apply prefix_antisym; [eapply (C83_rest_is_maximal V S next void reader writer lims lims start ls2 s2 tr2 ls1 s1 tr1)|eapply (C83_rest_is_maximal V S next void reader writer lims lims start ls1 s1 tr1 ls2 s2 tr2)]; eauto. }
  split; [exact E|].
  destruct (reached _ _ _ _ _ _ PP _ _ _ H1) as [[P1 _ _] _]. destruct (reached _ _ _ _ _ _ PP _ _ _ H2) as [[P2 _ _] _].
  pose proof (P1 p) as Q1. pose proof (P2 p) as Q2. rewrite E in Q1. pose proof (path_det _ _ _ _ _ _ Q1 Q2) as D. injection D as -> ->. auto.
Qed.
Print Assumptions C83_same_rest.

(** If one schedule comes to rest, all do: no run has more steps than things happened in that one. *)
Theorem C83_all_terminate : forall (V S : Type) (next : nat -> S -> act V S) void reader writer lims start ls1 s1 tr1 ls2 s2 tr2,
  point_to_point next void reader writer ->
  nrun next (ninit void lims start) ls1 = Some (s1, tr1) -> at_rest next s1 ->
  nrun next (ninit void lims start) ls2 = Some (s2, tr2) ->
  length ls2 <= length tr1.
Proof.
  intros V S next void reader writer lims start ls1 s1 tr1 ls2 s2 tr2 PP H1 R1 H2. destruct (reached _ _ _ _ _ _ PP _ _ _ H2) as [_ L].
  assert (length tr2 <= length tr1); [|lia]. apply of_perm. intro p. eapply (C83_rest_is_maximal V S next void reader writer lims lims start ls1 s1 tr1 ls2 s2 tr2); eauto.
Qed.
Print Assumptions C83_all_terminate.

(** At rest a coroutine waits only for good reason: a read on an open channel all of whose values have been read, or a write on an open
    channel that holds as many values as its limit besides the one being written. *)
Theorem C83_waits : forall (V S : Type) (next : nat -> S -> act V S) void reader writer lims start ls s tr p,
  point_to_point next void reader writer -> nrun next (ninit void lims start) ls = Some (s, tr) -> at_rest next s ->
  match next p (loc s p) with
  | Done => True
  | Rd c _ => shut c tr = false /\ puts c tr = gets c tr
  | Wr c _ _ => shut c tr = false /\ length (puts c tr) = length (gets c tr) + lims c + 1
  | Cl _ _ => False
  end.
Proof.
  intros V S next void reader writer lims start ls s tr p PP H R. destruct (reached _ _ _ _ _ _ PP _ _ _ H) as [Hn _]. exact (waits _ _ _ _ _ _ PP _ _ _ Hn R).
Qed.
Print Assumptions C83_waits.

(** ** What does not hold *)

(** Two coroutines that write to one channel: what the reader sees depends on the schedule. *)
Theorem C83_two_writers_refuted : ~ (forall (next : nat -> nat -> act nat nat) reader lims start ls1 s1 tr1 ls2 s2 tr2 p,
  (forall q x, match next q x with Rd c _ => reader c = q | Cl _ _ => False | _ => True end) ->
  nrun next (ninit (fun _ => false) lims start) ls1 = Some (s1, tr1) -> nrun next (ninit (fun _ => false) lims start) ls2 = Some (s2, tr2) ->
  prefix (of_proc p tr1) (of_proc p tr2) \/ prefix (of_proc p tr2) (of_proc p tr1)).
Proof.
  intro H. set (nx := fun q x : nat => match q, x with 0, 0 => Wr 0 10 (fun _ => 1) | 1, 0 => Wr 0 11 (fun _ => 1) | 2, 0 => Rd 0 (fun _ => 1) | _, _ => Done end).
  destruct (nrun nx (ninit (fun _ => false) (fun _ => 1) (fun _ => 0)) [Go 0; Go 2]) as [[s1 tr1]|] eqn:E1; [|vm_compute in E1; discriminate E1].
  destruct (nrun nx (ninit (fun _ => false) (fun _ => 1) (fun _ => 0)) [Go 1; Go 2]) as [[s2 tr2]|] eqn:E2; [|vm_compute in E2; discriminate E2].
  assert (D1 : of_proc 2 tr1 = [BeginR 2 0; EndR 2 0 (RVal 10)]) by (vm_compute in E1; injection E1 as _ <-; reflexivity).
  assert (D2 : of_proc 2 tr2 = [BeginR 2 0; EndR 2 0 (RVal 11)]) by (vm_compute in E2; injection E2 as _ <-; reflexivity).
  assert (Q : forall q x, match nx q x with Rd c _ => 2 = q | Cl _ _ => False | _ => True end) by (intros [|[|[|q]]] [|x]; cbn; auto).
  destruct (H nx (fun _ => 2) (fun _ => 1) (fun _ => 0) _ s1 tr1 _ s2 tr2 2 Q E1 E2) as [[t T]|[t T]]; rewrite D1, D2 in T; discriminate T.
Qed.
Print Assumptions C83_two_writers_refuted.

(** A channel closed by its reader: whether a write succeeds depends on the schedule. *)
Theorem C83_reader_closes_refuted : ~ (forall (next : nat -> nat -> act nat nat) reader writer lims start ls1 s1 tr1 ls2 s2 tr2 p,
  (forall q x, match next q x with Rd c _ | Cl c _ => reader c = q | Wr c _ _ => writer c = q | Done => True end) ->
  nrun next (ninit (fun _ => false) lims start) ls1 = Some (s1, tr1) -> nrun next (ninit (fun _ => false) lims start) ls2 = Some (s2, tr2) ->
  prefix (of_proc p tr1) (of_proc p tr2) \/ prefix (of_proc p tr2) (of_proc p tr1)).
Proof.
  intro H. set (nx := fun q x : nat => match q, x with 0, 0 => Wr 0 10 (fun _ => 1) | 1, 0 => Cl 0 1 | _, _ => Done end).
  destruct (nrun nx (ninit (fun _ => false) (fun _ => 1) (fun _ => 0)) [Go 0; Go 1]) as [[s1 tr1]|] eqn:E1; [|vm_compute in E1; discriminate E1].
  destruct (nrun nx (ninit (fun _ => false) (fun _ => 1) (fun _ => 0)) [Go 1; Go 0]) as [[s2 tr2]|] eqn:E2; [|vm_compute in E2; discriminate E2].
  assert (D1 : of_proc 0 tr1 = [BeginW 0 0 10; EndW 0 0 10 WOk]) by (vm_compute in E1; injection E1 as _ <-; reflexivity).
  assert (D2 : of_proc 0 tr2 = [BeginW 0 0 10; EndW 0 0 10 WBroken]) by (vm_compute in E2; injection E2 as _ <-; reflexivity).
  assert (Q : forall q x, match nx q x with Rd c _ | Cl c _ => 1 = q | Wr c _ _ => 0 = q | Done => True end) by (intros [|[|q]] [|x]; cbn; auto).
  destruct (H nx (fun _ => 1) (fun _ => 0) (fun _ => 1) (fun _ => 0) _ s1 tr1 _ s2 tr2 0 Q E1 E2) as [[t T]|[t T]]; rewrite D1, D2 in T; discriminate T.
Qed.
Print Assumptions C83_reader_closes_refuted.

(** A channel<void> closed by its writer: whether the reader gets what was written before depends on the schedule. *)
Theorem C83_void_closed_refuted : ~ (forall (next : nat -> nat -> act unit nat) reader writer lims start ls1 s1 tr1 ls2 s2 tr2 p,
  point_to_point next (fun _ => false) reader writer ->
  nrun next (ninit (fun _ => true) lims start) ls1 = Some (s1, tr1) -> nrun next (ninit (fun _ => true) lims start) ls2 = Some (s2, tr2) ->
  prefix (of_proc p tr1) (of_proc p tr2) \/ prefix (of_proc p tr2) (of_proc p tr1)).
Proof.
  intro H. set (nx := fun q x : nat => match q, x with 0, 0 => Wr 0 tt (fun _ => 1) | 0, 1 => Cl 0 2 | 1, 0 => Rd 0 (fun _ => 1) | _, _ => Done end).
  destruct (nrun nx (ninit (fun _ => true) (fun _ => 1) (fun _ => 0)) [Go 0; Go 1; Go 0]) as [[s1 tr1]|] eqn:E1; [|vm_compute in E1; discriminate E1].
  destruct (nrun nx (ninit (fun _ => true) (fun _ => 1) (fun _ => 0)) [Go 0; Go 0; Go 1]) as [[s2 tr2]|] eqn:E2; [|vm_compute in E2; discriminate E2].
  assert (D1 : of_proc 1 tr1 = [BeginR 1 0; EndR 1 0 (RVal tt)]) by (vm_compute in E1; injection E1 as _ <-; reflexivity).
  assert (D2 : of_proc 1 tr2 = [BeginR 1 0; EndR 1 0 RBroken]) by (vm_compute in E2; injection E2 as _ <-; reflexivity).
  assert (Q : point_to_point nx (fun _ => false) (fun _ => 1) (fun _ => 0)) by (intros [|[|q]] [|[|x]]; cbn; auto).
  destruct (H nx (fun _ => 1) (fun _ => 0) (fun _ => 1) (fun _ => 0) _ s1 tr1 _ s2 tr2 1 Q E1 E2) as [[t T]|[t T]]; rewrite D1, D2 in T; discriminate T.
Qed.
Print Assumptions C83_void_closed_refuted.

(** ** A pipeline: one coroutine writes 0, 1, 2 to channel 0 and closes it; the second multiplies by ten into channel 1 and closes
    that; the third reads until the end.  Two schedules, and one with unbuffered channels. *)
Definition pipe (p x : nat) : act nat nat :=
  match p with
  | 0 => match x with 0 | 1 | 2 => Wr 0 x (fun _ => S x) | 3 => Cl 0 4 | _ => Done end
  | 1 => match x with 0 => Rd 0 (fun r => match r with RVal v => v + 3 | _ => 1 end) | 1 => Cl 1 2 | 2 => Done | S (S (S v)) => Wr 1 (10 * v) (fun _ => 0) end
  | 2 => match x with 0 => Rd 1 (fun r => match r with RVal _ => 0 | _ => 1 end) | _ => Done end
  | _ => Done
  end.
Definition pipe_at (lim : nat) : state nat nat := ninit (fun _ => false) (fun _ => lim) (fun _ => 0).
Definition sched1 := [Go 0; Go 0; Go 1; Go 1; Go 1; Go 2; Go 2; Job 0 0; Go 0; Job 0 0; Go 1; Go 1; Job 0 0; Go 0; Job 0 0; Go 1; Job 1 0; Go 2; Job 1 0; Go 1; Go 1; Job 1 0; Go 2].
Definition sched2 := [Go 2; Go 1; Go 0; Go 0; Job 0 0; Go 1; Go 1; Job 1 0; Go 2; Job 0 0; Go 0; Job 0 0; Go 1; Go 1; Job 1 0; Go 2; Job 0 0; Go 0; Job 0 0; Go 1; Go 1; Go 1; Job 1 0; Go 2].
Definition sched0 := [Go 2; Go 1; Go 0; Go 1; Go 2; Job 1 0; Go 1; Job 0 0; Go 0; Go 1; Go 2; Job 1 0; Go 1; Job 0 0; Go 0; Go 1; Go 2; Job 1 0; Go 1; Job 0 0; Go 0; Job 0 0; Go 1; Job 1 0].
Definition last_sees := [BeginR 2 1; EndR 2 1 (RVal 0); BeginR 2 1; EndR 2 1 (RVal 10); BeginR 2 1; EndR 2 1 (RVal 20); BeginR 2 1; EndR 2 1 RBroken].

Example C83_nonvacuous :
  point_to_point pipe (fun _ => false) (fun c => S c) (fun c => c) /\
  (exists s tr, nrun pipe (pipe_at 1) sched1 = Some (s, tr) /\ of_proc 2 tr = last_sees /\ gets 1 tr = [0; 10; 20] /\ shut 1 tr = true /\ at_rest pipe s) /\
  (exists s tr, nrun pipe (pipe_at 1) sched2 = Some (s, tr) /\ of_proc 2 tr = last_sees /\ at_rest pipe s) /\
  (exists s tr, nrun pipe (pipe_at 0) sched0 = Some (s, tr) /\ of_proc 2 tr = last_sees /\ at_rest pipe s) /\
  (exists s tr, nrun pipe (pipe_at 1) [Go 0; Go 0; Job 0 0] = None /\ nrun pipe (pipe_at 1) [Go 0; Go 0] = Some (s, tr) /\ busy s 0 = true).
Proof.
  assert (R : forall s, (forall c, posted (chans s c) = []) -> busy s 0 = false -> busy s 1 = false -> busy s 2 = false ->
    (forall p, 3 <= p -> loc s p = 0) -> loc s 0 = 4 -> loc s 1 = 2 -> loc s 2 = 1 -> at_rest pipe s).
  { intros s H0 _ _ _ H4 H5 H6 H7. split; [exact H0|]. intros [|[|[|p]]]; right; [rewrite H5|rewrite H6|rewrite H7|]; reflexivity. }
  split; [intros [|[|[|p]]] x; [destruct x as [|[|[|[|x]]]]|destruct x as [|[|[|x]]]|destruct x|]; cbn; auto|].
  split; [|split; [|split]].
  1-3: eexists; eexists; split; [vm_compute; reflexivity|]; split; [reflexivity|]; try (split; [reflexivity|]; split; [reflexivity|]); apply R; try reflexivity; [intros [|[|c]]; reflexivity|intros [|[|[|p]]] L; try lia; reflexivity].
  eexists. eexists. split; [vm_compute; reflexivity|]. split; [vm_compute; reflexivity|]. reflexivity.
Qed.
