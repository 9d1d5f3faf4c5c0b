(** Property theorems for channels: C01-C11 and C53.

    Vocabulary (Channel_Spec.v): [delivered] / [written] are the values of the
    successful reads / writes in completion order, [created] the values passed
    to c.write(..), [buf] the buffered values, [held] the values given to reads
    that are scheduled but have not run yet, [handed] the values given away by
    writes that are scheduled but have not reported success yet.  [bad s = None]
    says that no undefined behaviour / failed assertion has happened so far. *)
From Coq Require Import List Bool Arith Lia Permutation.
From Verif Require Import Channel_Model Channel_Spec Channel_Inv Channel_Ledger
  Channel_Complete Channel_Abs Channel_Disc Channel_Close Channel_Final.
Import ListNotations.

(** ** C01 *)
Theorem C01_values_conserved : forall (V : Type) (lim : nat) (ls : list (label V)) s evs,
  run (init false lim) ls = (s, evs) -> bad s = None ->
  Permutation (delivered evs ++ buf s ++ held s) (written evs ++ handed s) /\ length (buf s) <= lim.
Proof. exact @conservation. Qed.
Print Assumptions C01_values_conserved.

Theorem C01_no_duplicates_no_inventions : forall (V : Type) (lim : nat) (ls : list (label V)) s evs,
  run (init false lim) ls = (s, evs) -> bad s = None -> NoDup (created ls) ->
  NoDup (delivered evs ++ buf s ++ held s) /\ incl (delivered evs ++ buf s ++ held s) (created ls).
Proof. exact @no_duplicates. Qed.
Print Assumptions C01_no_duplicates_no_inventions.

(** Three writes into a channel of capacity 1, one of them waiting; two reads. *)
Definition ex_c01 : list (label nat) :=
  [MkWrite 0 10; AwWrite 0 true; MkWrite 1 11; AwWrite 1 true; MkWrite 2 12; AwWrite 2 true;
   MkRead 0; AwRead 0 true; CancelW 2; Run 0; Run 0; MkRead 1; AwRead 1 false].
Example C01_nonvacuous : let '(s, evs) := run (init false 1) ex_c01 in
  bad s = None /\ delivered evs = [10; 11] /\ written evs = [10; 11] /\ NoDup (created ex_c01).
Proof. vm_compute. repeat split; auto. repeat constructor; simpl; intuition discriminate. Qed.

(** ** C02 *)
Theorem C02_spsc_order_and_safety : forall (V : Type) (lim : nat) (ls : list (label V)) s evs,
  run (init false lim) ls = (s, evs) -> obeys spsc (init false lim) ls = true ->
  bad s = None /\ length (buf s) <= lim /\ delivered evs ++ buf s ++ held s = written evs ++ handed s.
Proof. exact @spsc_order. Qed.
Print Assumptions C02_spsc_order_and_safety.

Theorem C02_spsc_prefix : forall (V : Type) (lim : nat) (ls : list (label V)) s evs,
  run (init false lim) ls = (s, evs) -> obeys spsc (init false lim) ls = true ->
  exists rest, written evs ++ handed s = delivered evs ++ rest.
Proof. exact @spsc_prefix. Qed.
Print Assumptions C02_spsc_prefix.

Theorem C02_spsc_void_safety : forall (V : Type) (lim : nat) (ls : list (label V)),
  obeys spsc (init true lim) ls = true -> bad (fst (run (init true lim) ls)) = None.
Proof. exact (fun V => @spsc_safe V true). Qed.
Print Assumptions C02_spsc_void_safety.

(** The writer fills the channel and waits, the reader drains, cancels, closes. *)
Definition ex_c02 : list (label nat) :=
  [MkWrite 0 10; AwWrite 0 true; MkWrite 1 11; AwWrite 1 true; MkRead 0; AwRead 0 true; Run 0;
   MkRead 1; AwRead 1 true; MkRead 2; AwRead 2 true; MkWrite 2 12; AwWrite 2 true; Run 0;
   MkRead 3; AwRead 3 true; CancelR 3; Run 0; MkWrite 3 13; AwWrite 3 true; Close; MkRead 4; AwRead 4 true; MkRead 5; AwRead 5 true].
Example C02_nonvacuous : obeys spsc (init false 1) ex_c02 = true /\
  (let '(s, evs) := run (init false 1) ex_c02 in delivered evs = [10; 11; 12; 13] /\ closed s = true /\
   In (ERead 3 RAborted) evs /\ In (ERead 5 RBroken) evs).
Proof. vm_compute. tauto. Qed.

(** ** C03 *)
Theorem C03_rendezvous_safe : forall (V : Type) (void : bool) (ls : list (label V)),
  obeys (both fresh prompt) (init void 0) ls = true ->
  let s := fst (run (init void 0) ls) in bad s = None /\ buf s = [].
Proof. exact @rendezvous_safe. Qed.
Print Assumptions C03_rendezvous_safe.

Theorem C03_rendezvous_pairs : forall (V : Type) (ls : list (label V)) s evs,
  run (init false 0) ls = (s, evs) -> obeys (both fresh prompt) (init false 0) ls = true ->
  Permutation (delivered evs ++ held s) (written evs ++ handed s) /\
  (idle s -> Permutation (delivered evs) (written evs)).
Proof. exact @rendezvous_pairs. Qed.
Print Assumptions C03_rendezvous_pairs.

(** Two readers and two writers, one of each cancelled. *)
Definition ex_c03 : list (label nat) :=
  [MkRead 0; AwRead 0 true; MkRead 1; AwRead 1 true; CancelR 0; MkWrite 0 10; AwWrite 0 true;
   MkWrite 1 11; AwWrite 1 true; MkWrite 2 12; AwWrite 2 true; CancelW 1; MkRead 2; AwRead 2 false; Run 0; Run 0; Run 0; Run 0].
Example C03_nonvacuous : obeys (both fresh prompt) (init false 0) ex_c03 = true /\
  (let '(s, evs) := run (init false 0) ex_c03 in delivered evs = [10; 12] /\ posted s = [] /\ In (EWrite 1 11 WAborted) evs).
Proof. vm_compute. tauto. Qed.

(** ** C04 *)
Theorem C04_cancelled_read_takes_nothing : forall (V : Type) (void : bool) (lim : nat) (ls : list (label V)) l s s' i evs e r,
  run (init void lim) ls = (s, evs) -> step s l = (s', e) -> bad s' = None ->
  e = [ERead i r] -> r = RAborted \/ r = RBroken ->
  buf s' = buf s /\ handed s' = handed s /\ (void = false -> held s' = held s).
Proof. exact @cancelled_read_takes_nothing. Qed.
Print Assumptions C04_cancelled_read_takes_nothing.

Theorem C04_cancelled_write_adds_nothing : forall (V : Type) (void : bool) (lim : nat) (ls : list (label V)) l s s' i v evs e r,
  run (init void lim) ls = (s, evs) -> step s l = (s', e) -> bad s' = None ->
  e = [EWrite i v r] -> r = WAborted \/ r = WBroken ->
  buf s' = buf s /\ handed s' = handed s /\ held s' = held s.
Proof. exact @cancelled_write_adds_nothing. Qed.
Print Assumptions C04_cancelled_write_adds_nothing.

Theorem C04_failed_write_never_delivered : forall (V : Type) (lim : nat) (ls : list (label V)) s evs j v r,
  run (init false lim) ls = (s, evs) -> bad s = None -> NoDup (created ls) ->
  In (EWrite j v r) evs -> r <> WOk -> ~ In v (delivered evs ++ buf s ++ held s).
Proof. exact @failed_write_never_delivered. Qed.
Print Assumptions C04_failed_write_never_delivered.

Example C04_nonvacuous :
  let '(s, evs) := run (init false 1) ex_c01 in In (EWrite 2 12 WAborted) evs /\ bad s = None.
Proof. vm_compute. tauto. Qed.
Example C04_nonvacuous_read :
  let '(s, evs) := run (init false 0) ex_c03 in In (ERead 0 RAborted) evs /\ bad s = None.
Proof. vm_compute. tauto. Qed.

(** ** C05 *)
Theorem C05_close_wakes_everybody : forall (V : Type) (void : bool) (lim : nat) (ls : list (label V)) s evs,
  run (init void lim) ls = (s, evs) -> bad s = None -> closed s = true ->
  rq s = [] /\ wq s = [] /\
  (forall i, r_stage (rops s i) = Awaited -> In (JR i) (posted s)) /\
  (forall j, w_stage (wops s j) = Awaited -> In (JW j) (posted s)).
Proof. exact @close_wakes_everybody. Qed.
Print Assumptions C05_close_wakes_everybody.

Theorem C05_waiting_operations_fail : forall (V : Type) (void : bool) (lim : nat) (ls ls' : list (label V)) s evs,
  run (init void lim) ls = (s, evs) -> bad s = None ->
  let '(s', evs') := run s (Close :: ls') in bad s' = None ->
  (forall i r, In i (rq s) -> In (ERead i r) evs' -> r = RBroken \/ r = RAborted) /\
  (forall j v r, In j (wq s) -> In (EWrite j v r) evs' -> r = WBroken).
Proof. exact @waiting_operations_fail. Qed.
Print Assumptions C05_waiting_operations_fail.

(** Draining: on a closed channel with nothing scheduled, n reads return the
    buffered values in order and then broken_pipe. *)
Theorem C05_drain : forall (V : Type) (lim : nat) (ls : list (label V)) s evs k n,
  run (init false lim) ls = (s, evs) -> bad s = None -> closed s = true ->
  (forall i, k <= i < k + n -> r_stage (rops s i) = Absent) ->
  let '(s', evs') := run s (flat_map (fun i => [MkRead i; AwRead i false]) (seq k n)) in
  bad s' = None /\
  evs' = map (fun p => ERead (fst p) (snd p)) (combine (seq k n) (map (@RVal V) (buf s) ++ repeat RBroken n)) /\
  buf s' = skipn n (buf s).
Proof. exact @drain_theorem. Qed.
Print Assumptions C05_drain.

Theorem C05_write_after_close : forall (V : Type) (void : bool) (lim : nat) (ls : list (label V)) s evs j v slot,
  run (init void lim) ls = (s, evs) -> bad s = None -> closed s = true -> w_stage (wops s j) = Absent ->
  let '(s', evs') := run s [MkWrite j v; AwWrite j slot] in
  evs' = [EWrite j v WBroken] /\ buf s' = buf s /\ bad s' = None.
Proof. exact @write_after_close_theorem. Qed.
Print Assumptions C05_write_after_close.

Definition ex_c05 : list (label nat) :=
  [MkWrite 0 10; AwWrite 0 true; MkWrite 1 11; AwWrite 1 true; MkWrite 2 12; AwWrite 2 true; Close].
Example C05_nonvacuous : let '(s, evs) := run (init false 2) ex_c05 in
  bad s = None /\ closed s = true /\ buf s = [10; 11] /\ posted s = [JW 2] /\
  snd (run s (flat_map (fun i => [MkRead i; AwRead i false]) (seq 0 3))) = [ERead 0 (RVal 10); ERead 1 (RVal 11); ERead 2 RBroken].
Proof. vm_compute. repeat split; auto. Qed.
Example C05_nonvacuous_waiting :
  let '(s, evs) := run (init false 2) (removelast ex_c05) in wq s = [2] /\ bad s = None /\
  In (EWrite 2 12 WBroken) (snd (run s [Close; Run 0])).
Proof. vm_compute. tauto. Qed.

(** What does not hold: a write that was already woken when close() is called
    still enters the closed channel and reports success, even after a reader
    has been told broken_pipe. *)
Theorem C05_nothing_enters_after_broken_pipe_refuted : exists (lim : nat) (ls : list (label nat)) s evs i j,
  run (init false lim) ls = (s, evs) /\ bad s = None /\ obeys spsc (init false lim) ls = true /\
  exists a b, evs = a ++ ERead i RBroken :: b /\ In (EWrite j 11 WOk) b.
Proof. exact late_write_refuted. Qed.
Print Assumptions C05_nothing_enters_after_broken_pipe_refuted.

(** ** C06 *)
Theorem C06_no_mutual_wait : forall (V : Type) (void : bool) (lim : nat) (ls : list (label V)) s evs,
  run (init void lim) ls = (s, evs) -> bad s = None -> rq s = [] \/ wq s = [].
Proof. exact @no_mutual_wait. Qed.
Print Assumptions C06_no_mutual_wait.

Example C06_nonvacuous : let s := fst (run (init false 0) (firstn 4 ex_c03)) in rq s = [0; 1] /\ wq s = [] /\ bad s = None.
Proof. vm_compute. auto. Qed.

(** ** C07 *)
Theorem C07_completes_at_most_once : forall (V : Type) (void : bool) (lim : nat) (ls : list (label V)) s evs,
  run (init void lim) ls = (s, evs) ->
  NoDup (completed_reads evs) /\ NoDup (completed_writes evs) /\
  bad s <> Some DoubleResume /\ bad s <> Some QueueAssert.
Proof. exact @completes_at_most_once. Qed.
Print Assumptions C07_completes_at_most_once.

(** ... and never gets lost: a suspended operation is either linked in the
    channel or scheduled, and running the executor empties its queue. *)
Theorem C07_never_forgotten : forall (V : Type) (void : bool) (lim : nat) (ls : list (label V)) s evs,
  run (init void lim) ls = (s, evs) -> bad s = None ->
  (forall i, r_stage (rops s i) = Awaited -> In i (rq s) \/ In (JR i) (posted s)) /\
  (forall j, w_stage (wops s j) = Awaited -> In j (wq s) \/ In (JW j) (posted s)) /\
  exists n, let s' := fst (run s (repeat (Run 0) n)) in bad s' <> None \/
    (posted s' = [] /\ (forall i, r_stage (rops s' i) = Awaited -> In i (rq s')) /\
                       (forall j, w_stage (wops s' j) = Awaited -> In j (wq s'))).
Proof. exact @never_forgotten. Qed.
Print Assumptions C07_never_forgotten.

Theorem C07_all_complete_after_close : forall (V : Type) (void : bool) (lim : nat) (ls : list (label V)) s evs,
  run (init void lim) ls = (s, evs) -> bad s = None -> closed s = true ->
  exists n, let s' := fst (run s (repeat (Run 0) n)) in bad s' <> None \/
    ((forall i, r_stage (rops s' i) <> Awaited) /\ (forall j, w_stage (wops s' j) <> Awaited)).
Proof. exact @all_complete_after_close. Qed.
Print Assumptions C07_all_complete_after_close.

Example C07_nonvacuous : let '(s, evs) := run (init false 1) ex_c02 in
  completed_reads evs = [0; 1; 2; 3; 4; 5] /\ completed_writes evs = [0; 1; 2; 3] /\ bad s = None.
Proof. vm_compute. auto. Qed.

(** ** C08 *)
Theorem C08_woken_reader_finds_value_refuted : exists (lim : nat) (ls : list (label nat)),
  obeys (both one_writer (both fresh prompt)) (init false lim) ls = true /\
  bad (fst (run (init false lim) ls)) = Some EmptyRead.
Proof. exact stolen_value_refuted. Qed.
Print Assumptions C08_woken_reader_finds_value_refuted.

Theorem C08_woken_writer_finds_room_refuted : exists (lim : nat) (ls : list (label nat)),
  obeys (both one_reader (both fresh prompt)) (init false lim) ls = true /\
  bad (fst (run (init false lim) ls)) = Some Overflow.
Proof. exact stolen_room_refuted. Qed.
Print Assumptions C08_woken_writer_finds_room_refuted.

(** Interrupting a waiting read (losing a race) and keeping the operation
    object alive while the channel is used: a null handle is resumed. *)
Theorem C08_interrupted_operation_refuted : exists (lim : nat) (ls : list (label nat)),
  obeys (both (both one_reader one_writer) fresh) (init false lim) ls = true /\
  bad (fst (run (init false lim) ls)) = Some NullHandle.
Proof. exact zombie_refuted. Qed.
Print Assumptions C08_interrupted_operation_refuted.

Theorem C08_single_reader_partial : forall (V : Type) (void : bool) (lim : nat) (ls : list (label V)),
  obeys (both one_reader prompt) (init void lim) ls = true ->
  bad (fst (run (init void lim) ls)) = None \/ bad (fst (run (init void lim) ls)) = Some Overflow.
Proof. exact @single_reader_safe. Qed.
Print Assumptions C08_single_reader_partial.

Theorem C08_single_writer_partial : forall (V : Type) (void : bool) (lim : nat) (ls : list (label V)),
  obeys (both one_writer (both fresh prompt)) (init void lim) ls = true ->
  bad (fst (run (init void lim) ls)) = None \/ bad (fst (run (init void lim) ls)) = Some EmptyRead.
Proof. exact @single_writer_safe. Qed.
Print Assumptions C08_single_writer_partial.

(** Two writers against one reader, without interference. *)
Definition ex_c08 : list (label nat) :=
  [MkWrite 0 10; AwWrite 0 true; MkWrite 1 11; AwWrite 1 true; MkWrite 2 12; AwWrite 2 true; MkRead 0; AwRead 0 true; Run 0; MkRead 1; AwRead 1 true; Run 0].
Example C08_nonvacuous : obeys (both one_reader prompt) (init false 1) ex_c08 = true /\
  (let '(s, evs) := run (init false 1) ex_c08 in bad s = None /\ delivered evs = [10; 11] /\ written evs = [10; 11; 12]).
Proof. vm_compute. tauto. Qed.
Example C08_nonvacuous_writer : obeys (both one_writer (both fresh prompt)) (init false 1) ex_c02 = true.
Proof. reflexivity. Qed.

(** ** C09 *)
Theorem C09_no_reader_left_behind_refuted : exists (lim : nat) (ls : list (label nat)) s evs,
  run (init false lim) ls = (s, evs) /\ bad s = None /\ obeys (both fresh prompt) (init false lim) ls = true /\
  idle s /\ rq s <> [] /\ buf s <> [].
Proof. exact lost_wakeup_refuted. Qed.
Print Assumptions C09_no_reader_left_behind_refuted.

Theorem C09_no_writer_left_behind_refuted : exists (lim : nat) (ls : list (label nat)) s evs,
  run (init false lim) ls = (s, evs) /\ bad s = None /\ obeys (both fresh prompt) (init false lim) ls = true /\
  idle s /\ wq s <> [] /\ length (buf s) < lim.
Proof. exact lost_wakeup_w_refuted. Qed.
Print Assumptions C09_no_writer_left_behind_refuted.

Theorem C09_nobody_left_behind_partial : forall (V : Type) (void : bool) (lim : nat) (ls : list (label V)) s evs,
  run (init void lim) ls = (s, evs) -> bad s = None ->
  obeys no_late_cancel (init void lim) ls = true -> idle s ->
  (rq s <> [] -> buf s = []) /\ (wq s <> [] -> length (buf s) = lim).
Proof. exact @no_lost_wakeup. Qed.
Print Assumptions C09_nobody_left_behind_partial.

Example C09_nonvacuous : let '(s, evs) := run (init false 1) (firstn 8 ex_c08 ++ [Run 0]) in
  bad s = None /\ idle s /\ wq s = [2] /\ buf s = [11] /\ obeys no_late_cancel (init false 1) (firstn 8 ex_c08 ++ [Run 0]) = true.
Proof. vm_compute. auto. Qed.

(** ** C10 *)
Theorem C10_void_counts : forall (lim : nat) (ls : list (label unit)) s evs,
  run (init true lim) ls = (s, evs) -> bad s = None -> existsb is_close ls = false ->
  length (delivered evs) + length (buf s) + length (held s) = length (written evs) + length (handed s) /\
  length (buf s) <= lim.
Proof. exact void_counts. Qed.
Print Assumptions C10_void_counts.

Theorem C10_void_spsc_safe : forall (lim : nat) (ls : list (label unit)),
  obeys spsc (init true lim) ls = true -> bad (fst (run (init true lim) ls)) = None.
Proof. exact (@spsc_safe unit true). Qed.
Print Assumptions C10_void_spsc_safe.

Definition ex_c10 : list (label unit) :=
  [MkWrite 0 tt; AwWrite 0 true; MkWrite 1 tt; AwWrite 1 true; MkRead 0; AwRead 0 true; Run 0; MkRead 1; AwRead 1 true; MkRead 2; AwRead 2 false].
Example C10_nonvacuous : let '(s, evs) := run (init true 1) ex_c10 in
  bad s = None /\ obeys spsc (init true 1) ex_c10 = true /\ length (delivered evs) = 2 /\ length (written evs) = 2 /\ rq s = [2].
Proof. vm_compute. auto. Qed.

(** ** C11 *)
Theorem C11_void_drains_after_close_refuted : exists (lim : nat) (ls : list (label unit)) s evs,
  run (init true lim) ls = (s, evs) /\ bad s = None /\ obeys spsc (init true lim) ls = true /\
  length (written evs) = 1 /\ length (buf s) = 1 /\ delivered evs = [] /\ In (ERead 0 RBroken) evs /\
  (* the same history on a channel with values delivers *)
  delivered (snd (run (init false lim) ls)) = [tt].
Proof. exact void_drain_refuted. Qed.
Print Assumptions C11_void_drains_after_close_refuted.

(** Part that holds: channel<T> drains (C05_drain); channel<void> reports
    broken_pipe to every read after close, without any undefined behaviour. *)
Theorem C11_void_after_close_partial : forall (lim : nat) (ls : list (label unit)) s evs i slot,
  run (init true lim) ls = (s, evs) -> bad s = None -> closed s = true -> r_stage (rops s i) = Absent ->
  let '(s', evs') := run s [MkRead i; AwRead i slot] in
  evs' = [ERead i RBroken] /\ bad s' = None /\ buf s' = buf s.
Proof. exact void_after_close. Qed.
Print Assumptions C11_void_after_close_partial.

(** ** C53 *)
Theorem C53_single_writer_order : forall (V : Type) (lim : nat) (ls : list (label V)) s evs,
  1 <= lim -> run (init false lim) ls = (s, evs) -> bad s = None ->
  obeys one_writer (init false lim) ls = true ->
  delivered evs ++ buf s = written evs ++ handed s.
Proof. exact @single_writer_order. Qed.
Print Assumptions C53_single_writer_order.

(** A write (value [va]) completes before another write ([vb]) is created, yet
    [vb] is read before [va]; one reader, nothing undefined. *)
Theorem C53_many_writers_order_refuted : exists (lim : nat) (ls1 ls2 : list (label nat)) s1 evs1 s2 evs2 a b va vb,
  run (init false lim) ls1 = (s1, evs1) /\ In (EWrite a va WOk) evs1 /\ w_stage (wops s1 b) = Absent /\
  run s1 ls2 = (s2, evs2) /\ In (EWrite b vb WOk) evs2 /\ bad s2 = None /\ NoDup (created (ls1 ++ ls2)) /\
  obeys (both one_reader (both fresh prompt)) (init false lim) (ls1 ++ ls2) = true /\
  exists x y z, delivered (evs1 ++ evs2) = x ++ vb :: y ++ va :: z.
Proof. exact mpmc_order_refuted. Qed.
Print Assumptions C53_many_writers_order_refuted.

(** Two readers, one writer. *)
Definition ex_c53 : list (label nat) :=
  [MkRead 0; AwRead 0 true; MkRead 1; AwRead 1 true; MkWrite 0 10; AwWrite 0 true; MkWrite 1 11; AwWrite 1 true; Run 0; Run 0; MkWrite 2 12; AwWrite 2 true].
Example C53_nonvacuous : let '(s, evs) := run (init false 2) ex_c53 in
  bad s = None /\ obeys one_writer (init false 2) ex_c53 = true /\ delivered evs = [10; 11] /\ buf s = [12].
Proof. vm_compute. auto. Qed.
