(** Property theorems for BOOST_COBALT_FOR over a channel_reader: C82.

    Vocabulary (Crd_Spec.v): [visits es] are the values the body of the loop ran with; [in_loop es] what happened
    in the loop: the visits, leaving because the condition was false, leaving with an exception; [own_reads es]
    how the reads of the loop ended; [only_reader ls] says that nobody else reads from the channel.
    [written], [buf], [held] and [handed] are as for C01-C03 (Channel_Spec.v): the writes that reported success, the
    buffer, values handed to a read that is about to be resumed, values handed over by a write
    that is about to be resumed. [bad (chan s) = None] says that nothing undefined has happened. *)
From Coq Require Import List Bool Arith Lia Permutation.
From Verif Require Import Channel_Model Channel_Spec Crd_Model Crd_Spec Crd_Inv Crd_Live Crd_Final.
Import ListNotations.

(** ** C82 *)

(** The body runs once for every read of the loop that gave a value, with that value and in that order;
    a read that fails is the last one and its error is what the loop throws; nothing happens in the loop after it
    has ended. *)
Theorem C82_body_per_read : forall (V : Type) lim (ls : list (label V)) s es,
  rrun (rinit lim) ls = Some (s, es) -> bad (chan s) = None ->
  match at_ s with
  | Body | Waiting => in_loop es = map Visit (visits es) /\ own_reads es = map RVal (visits es)
  | Left => (in_loop es = map Visit (visits es) \/ in_loop es = map Visit (visits es) ++ [Leave]) /\ own_reads es = map RVal (visits es)
  | Threw => (in_loop es = map Visit (visits es) ++ [Throw Broken] /\ own_reads es = map RVal (visits es) ++ [RBroken]) \/
             (in_loop es = map Visit (visits es) ++ [Throw Aborted] /\ own_reads es = map RVal (visits es) ++ [RAborted])
  end.
Proof. exact @shaped. Qed.
Print Assumptions C82_body_per_read.

(** If nobody else reads, the body has run with everything that was written except what is still in the channel; and
    between two turns no value is under way to the loop. *)
Theorem C82_conserved : forall (V : Type) lim (ls : list (label V)) s es,
  rrun (rinit lim) ls = Some (s, es) -> bad (chan s) = None -> only_reader ls ->
  Permutation (visits es ++ buf (chan s) ++ held (chan s)) (written (on_channel es) ++ handed (chan s)) /\
  (at_ s <> Waiting -> held (chan s) = []).
Proof. exact @conserved. Qed.
Print Assumptions C82_conserved.

(** If also only one coroutine writes, nothing undefined happens and the body sees the values in the order of the
    writes. *)
Theorem C82_in_order : forall (V : Type) lim (ls : list (label V)) s es,
  rrun (rinit lim) ls = Some (s, es) -> only_reader ls -> robeys (both one_writer (both fresh prompt)) (rinit lim) ls ->
  bad (chan s) = None /\ visits es ++ buf (chan s) ++ held (chan s) = written (on_channel es) ++ handed (chan s) /\
  (at_ s <> Waiting -> held (chan s) = []).
Proof. exact @ordered. Qed.
Print Assumptions C82_in_order.

(** With limit 0, also with any number of writers, the body runs with exactly the values whose writes
    succeed: whatever ends the loop, no value is left behind. *)
Theorem C82_unbuffered : forall (V : Type) (ls : list (label V)) s es,
  rrun (rinit 0) ls = Some (s, es) -> only_reader ls -> robeys (both fresh prompt) (rinit 0) ls -> at_ s <> Waiting ->
  bad (chan s) = None /\ Permutation (visits es) (written (on_channel es) ++ handed (chan s)).
Proof. exact @rendezvous. Qed.
Print Assumptions C82_unbuffered.

(** The loop ends by itself only if the channel was closed, or, with operation_aborted, if the loop's
    coroutine was cancelled. *)
Theorem C82_ends : forall (V : Type) lim (ls : list (label V)) s es,
  rrun (rinit lim) ls = Some (s, es) -> bad (chan s) = None ->
  (In Leave es -> closed (chan s) = true) /\ (In (Throw Broken) es -> closed (chan s) = true) /\
  (In (Throw Aborted) es -> closed (chan s) = true \/ In RCancel ls).
Proof. intros V lim ls s es R B. destruct (ends lim ls s es R B) as (H1 & H2 & H3 & _). auto. Qed.
Print Assumptions C82_ends.

(** If the channel is closed while the body runs, that was the last turn: the loop leaves without an
    exception, whatever happens. *)
Theorem C82_closed_in_the_body : forall (V : Type) lim (ls : list (label V)) s es ls' s' es',
  rrun (rinit lim) ls = Some (s, es) -> at_ s = Body -> closed (chan s) = true ->
  rrun s ls' = Some (s', es') -> bad (chan s') = None ->
  (at_ s' = Body /\ in_loop es' = []) \/ (at_ s' = Left /\ (in_loop es' = [] \/ in_loop es' = [Leave])).
Proof.
  intros V lim ls s es ls' s' es' R Pc Cl R' B. pose proof (rrun_bad _ _ _ _ R' B) as B0.
  destruct (tracked lim ls s es R B0) as [Ri _]. exact (closed_over ls' s s' es' Ri Pc Cl R' B).
Qed.
Print Assumptions C82_closed_in_the_body.

(** And the next turn does leave. *)
Theorem C82_closed_leaves : forall (V : Type) (s : state V) slot, at_ s = Body -> closed (chan s) = true ->
  rstep s (RNext slot) = Some (mk (chan s) (turn s) Left, [Leave]).
Proof. intros V s b Pc Cl. unfold rstep, possible, ops, condition. rewrite Pc, Cl. reflexivity. Qed.
Print Assumptions C82_closed_leaves.

(** If the channel is closed while the loop waits for a value, the loop throws and the body never runs
    again. *)
Theorem C82_closed_while_waiting : forall (V : Type) lim (ls : list (label V)) s es ls' s' es',
  rrun (rinit lim) ls = Some (s, es) -> bad (chan s) = None -> In (mine s) (rq (chan s)) ->
  rrun s (RChan Close :: ls') = Some (s', es') -> bad (chan s') = None ->
  (at_ s' = Waiting /\ in_loop es' = []) \/ (at_ s' = Threw /\ exists x, in_loop es' = [Throw x]).
Proof. intros V lim ls s es ls' s' es'. exact (closed_waiting lim ls s es ls' s' es'). Qed.
Print Assumptions C82_closed_while_waiting.

(** The loop does not hang: if it waits and the executor has nothing to do, the channel is open and empty and nobody
    waits to write. *)
Theorem C82_waits : forall (V : Type) lim (ls : list (label V)) s es,
  rrun (rinit lim) ls = Some (s, es) -> bad (chan s) = None -> only_reader ls -> at_ s = Waiting -> idle (chan s) ->
  closed (chan s) = false /\ buf (chan s) = [] /\ wq (chan s) = [].
Proof. exact @waits. Qed.
Print Assumptions C82_waits.

(** If it waits but not in the channel's list, a job of the executor is there that continues it, with a value or an
    exception. *)
Theorem C82_served : forall (V : Type) lim (ls : list (label V)) s es,
  rrun (rinit lim) ls = Some (s, es) -> bad (chan s) = None -> at_ s = Waiting -> ~ In (mine s) (rq (chan s)) ->
  exists k s1 e1, rstep s (RChan (Run k)) = Some (s1, e1) /\ (bad (chan s1) = None -> (exists v, in_loop e1 = [Visit v]) \/ exists x, in_loop e1 = [Throw x]).
Proof. exact @served. Qed.
Print Assumptions C82_served.

(** *** What does not hold *)

(** "The loop visits everything that was written before the channel was closed": no. Values still in the buffer when
    the channel is closed are not visited, although their writes succeeded and nobody else reads; the loop leaves without an error. *)
Theorem C82_visits_everything_refuted : ~ (forall lim (ls : list (label nat)) s es,
  rrun (rinit lim) ls = Some (s, es) -> only_reader ls -> robeys (both one_writer (both fresh prompt)) (rinit lim) ls ->
  In Leave es -> Permutation (visits es) (written (on_channel es))).
Proof.
  intro H.
  pose (ls := [RChan (MkWrite 0 10); RChan (AwWrite 0 false); RChan (MkWrite 1 11); RChan (AwWrite 1 false); RNext false; RChan (Run 0); RChan (Run 0); RChan Close; RNext false] : list (label nat)).
  destruct (rrun (rinit 2) ls) as [[s es]|] eqn:E; [|vm_compute in E; discriminate].
  assert (D : es = [C (EWrite 0 10 WOk); C (EWrite 1 11 WOk); C (ERead 0 (RVal 10)); Visit 10; Leave]) by (vm_compute in E; injection E as _ <-; reflexivity).
  assert (P : Permutation (visits es) (written (on_channel es))).
  { apply (H 2 ls s es E).
    - intros l I. cbn in I. repeat (destruct I as [I|I]; [try discriminate I; injection I as <-; exact Logic.I|]). destruct I.
    - vm_compute. repeat split.
    - rewrite D. cbn. auto 10. }
  rewrite D in P. apply Permutation_length in P. discriminate.
Qed.
Print Assumptions C82_visits_everything_refuted.

(** "Closing the channel ends the loop without an exception": no, a loop that waits for the next value gets
    broken_pipe. *)
Theorem C82_ends_quietly_refuted : ~ (forall lim (ls : list (label nat)) s es,
  rrun (rinit lim) ls = Some (s, es) -> only_reader ls -> robeys (both one_writer (both fresh prompt)) (rinit lim) ls ->
  ~ In RCancel ls -> forall x, ~ In (Throw x) es).
Proof.
  intro H.
  pose (ls := [RNext false; RChan (MkWrite 0 10); RChan (AwWrite 0 false); RChan (Run 0); RNext false; RChan Close; RChan (Run 0)] : list (label nat)).
  destruct (rrun (rinit 1) ls) as [[s es]|] eqn:E; [|vm_compute in E; discriminate].
  assert (D : es = [C (EWrite 0 10 WOk); C (ERead 0 (RVal 10)); Visit 10; C (ERead 2 RBroken); Throw Broken]) by (vm_compute in E; injection E as _ <-; reflexivity).
  apply (H 1 ls s es E) with (x := Broken).
  - intros l I. cbn in I. repeat (destruct I as [I|I]; [try discriminate I; injection I as <-; exact Logic.I|]). destruct I.
  - vm_compute. repeat split.
  - clear. cbn. intuition discriminate.
  - rewrite D. cbn. auto 10.
Qed.
Print Assumptions C82_ends_quietly_refuted.

(** "operation_aborted means that somebody cancelled the loop": no. If the channel is closed while a writer is
    about to be resumed, the loop's read ends with operation_aborted although nobody cancelled it, and the value of the
    writer stays behind in the buffer. *)
Theorem C82_aborted_refuted : ~ (forall lim (ls : list (label nat)) s es,
  rrun (rinit lim) ls = Some (s, es) -> only_reader ls -> robeys (both fresh prompt) (rinit lim) ls ->
  In (Throw Aborted) es -> In RCancel ls).
Proof.
  intro H.
  pose (ls := [RChan (MkWrite 0 10); RChan (AwWrite 0 false); RChan (MkWrite 1 11); RChan (AwWrite 1 false); RNext false; RNext false; RChan Close; RChan (Run 0); RChan (Run 0)] : list (label nat)).
  destruct (rrun (rinit 1) ls) as [[s es]|] eqn:E; [|vm_compute in E; discriminate].
  assert (D : es = [C (EWrite 0 10 WOk); C (ERead 0 (RVal 10)); Visit 10; C (EWrite 1 11 WOk); C (ERead 2 RAborted); Throw Aborted]) by (vm_compute in E; injection E as _ <-; reflexivity).
  assert (N : In RCancel ls).
  { apply (H 1 ls s es E).
    - intros l I. cbn in I. repeat (destruct I as [I|I]; [try discriminate I; injection I as <-; exact Logic.I|]). destruct I.
    - vm_compute. repeat split.
    - rewrite D. cbn. auto 10. }
  cbn in N. clear - N. intuition discriminate.
Qed.
Print Assumptions C82_aborted_refuted.

(** "Other readers may take values too, but cannot harm the loop": no. With a second reader that takes a value from the
    buffer between the wake-up of the loop's read and its resumption, the loop's read takes a value out of an empty
    buffer, which is undefined. *)
Theorem C82_other_reader_refuted : ~ (forall lim (ls : list (label nat)) s es,
  rrun (rinit lim) ls = Some (s, es) -> robeys (both one_writer (both fresh prompt)) (rinit lim) ls -> bad (chan s) = None).
Proof.
  intro H.
  pose (ls := [RNext false; RChan (MkWrite 0 10); RChan (AwWrite 0 false); RChan (MkRead 1); RChan (AwRead 1 false); RChan (Run 0); RChan (Run 0)] : list (label nat)).
  destruct (rrun (rinit 1) ls) as [[s es]|] eqn:E; [|vm_compute in E; discriminate].
  assert (B : bad (chan s) = None) by (apply (H 1 ls s es E); vm_compute; repeat split).
  vm_compute in E. injection E as <- <-. discriminate.
Qed.
Print Assumptions C82_other_reader_refuted.

(** *** The hypotheses are met *)
Definition ex_ls : list (label nat) :=
  [RNext true; RChan (MkWrite 0 10); RChan (AwWrite 0 false); RChan (Run 0); RChan (MkWrite 1 11); RChan (AwWrite 1 false);
   RNext true; RNext true].

(** limit 1: the loop waits, gets 10, then 11 from the buffer, and waits again; C82_body_per_read, C82_conserved, C82_in_order,
    C82_waits, C82_closed_while_waiting. *)
Example C82_nonvacuous : exists s es, rrun (rinit 1) ex_ls = Some (s, es) /\ bad (chan s) = None /\ visits es = [10; 11] /\ at_ s = Waiting /\ idle (chan s) /\
  In (mine s) (rq (chan s)) /\ only_reader ex_ls /\ robeys (both one_writer (both fresh prompt)) (rinit 1) ex_ls /\
  exists s' es', rrun s [RChan Close; RChan (Run 0)] = Some (s', es') /\ bad (chan s') = None /\ at_ s' = Threw /\ in_loop es' = [Throw Broken].
Proof.
  destruct (rrun (rinit 1) ex_ls) as [[s es]|] eqn:E; [|vm_compute in E; discriminate E]. exists s, es. vm_compute in E. injection E as <- <-.
  repeat (split; [vm_compute; auto; fail|]). split; [|split; [vm_compute; repeat split|]].
  - intros l I. cbn in I. repeat (destruct I as [I|I]; [try discriminate I; injection I as <-; exact Logic.I|]). destruct I.
  - eexists. eexists. vm_compute. repeat split.
Qed.

(** the loop is cancelled while it waits: C82_ends, with RCancel *)
Example C82_nonvacuous_cancel : exists s es, rrun (rinit 1) (ex_ls ++ [RCancel; RChan (Run 0)]) = Some (s, es) /\ bad (chan s) = None /\ at_ s = Threw /\
  In (Throw Aborted) es /\ closed (chan s) = false.
Proof. eexists. eexists. vm_compute. repeat split. auto 10. Qed.

(** limit 0, two writers: C82_unbuffered; and the channel is closed in the body: C82_closed_in_the_body *)
Example C82_nonvacuous_unbuffered :
  let ls := [RChan (MkWrite 0 10); RChan (AwWrite 0 false); RChan (MkWrite 1 11); RChan (AwWrite 1 false); RNext true; RChan (Run 0); RNext true; RChan (Run 0); RChan Close] : list (label nat) in
  exists s es, rrun (rinit 0) ls = Some (s, es) /\ only_reader ls /\ robeys (both fresh prompt) (rinit 0) ls /\ at_ s = Body /\ closed (chan s) = true /\
  visits es = [10; 11] /\ written (on_channel es) = [10; 11] /\ exists s' es', rrun s [RNext true] = Some (s', es') /\ bad (chan s') = None /\ in_loop es' = [Leave].
Proof.
  intro ls. eexists. eexists. split; [vm_compute; reflexivity|]. split; [|split; [vm_compute; repeat split|]].
  - intros l I. cbn in I. repeat (destruct I as [I|I]; [try discriminate I; injection I as <-; exact Logic.I|]). destruct I.
  - repeat (split; [vm_compute; reflexivity|]). eexists. eexists. vm_compute. repeat split.
Qed.

(** the loop waits and its resumption is posted: C82_served *)
Example C82_nonvacuous_served : exists s es, rrun (rinit 1) (firstn 3 ex_ls) = Some (s, es) /\ bad (chan s) = None /\ at_ s = Waiting /\ ~ In (mine s) (rq (chan s)).
Proof. eexists. eexists. vm_compute. repeat split. auto. Qed.
