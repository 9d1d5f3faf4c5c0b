(** Vocabulary in which the channel properties are stated. *)
From Coq Require Import List Bool Arith.
From Verif Require Import Channel_Model.
Import ListNotations.

Section Spec.
Context {V : Type}.
Notation state := (state V).
Notation label := (label V).
Notation event := (event V).

(** Values returned by successful reads, in order of completion. *)
Fixpoint delivered (evs : list event) : list V :=
  match evs with
  | [] => []
  | ERead _ (RVal v) :: t => v :: delivered t
  | _ :: t => delivered t
  end.

(** Values of writes that reported success, in order of completion. *)
Fixpoint written (evs : list event) : list V :=
  match evs with
  | [] => []
  | EWrite _ v WOk :: t => v :: written t
  | _ :: t => written t
  end.

(** Reads / writes that completed, in order. *)
Fixpoint completed_reads (evs : list event) : list nat :=
  match evs with
  | [] => [] | ERead i _ :: t => i :: completed_reads t | _ :: t => completed_reads t end.
Fixpoint completed_writes (evs : list event) : list nat :=
  match evs with
  | [] => [] | EWrite i _ _ :: t => i :: completed_writes t | _ :: t => completed_writes t end.

(** Values passed to c.write(..) by the program. *)
Fixpoint created (ls : list label) : list V :=
  match ls with
  | [] => [] | MkWrite _ v :: t => v :: created t | _ :: t => created t end.

(** Reads (writes) whose resumption is scheduled on the executor. *)
Definition rjobs (p : list job) : list nat := flat_map (fun j => match j with JR i => [i] | JW _ => [] end) p.
Definition wjobs (p : list job) : list nat := flat_map (fun j => match j with JW i => [i] | JR _ => [] end) p.

Definition opt_list {A} (o : option A) : list A := match o with Some x => [x] | None => [] end.

(** Values handed to a read whose coroutine is scheduled but has not run yet. *)
Definition held (s : state) : list V :=
  flat_map (fun i => opt_list (r_direct (rops s i))) (rjobs (posted s)).
(** Values handed over by a write whose coroutine is scheduled but has not run
    yet (so the write has not reported success yet). *)
Definition handed (s : state) : list V :=
  flat_map (fun j => if w_direct (wops s j) then opt_list (w_val (wops s j)) else []) (wjobs (posted s)).

(** The executor has nothing to do. *)
Definition idle (s : state) : Prop := posted s = [].

(** *** Disciplines: restrictions on how a program uses the channel, checked
    label by label along a run. *)
Fixpoint obeys (P : state -> label -> bool) (s : state) (ls : list label) : bool :=
  match ls with
  | [] => true
  | l :: t => P s l && obeys P (fst (step s l)) t
  end.

(** Only one coroutine reads: a read is awaited only when no other read is
    waiting in the channel or scheduled for resumption. *)
Definition one_reader (s : state) (l : label) : bool :=
  match l with AwRead _ _ => is_nil (rq s) && is_nil (rjobs (posted s)) | _ => true end.
Definition one_writer (s : state) (l : label) : bool :=
  match l with AwWrite _ _ => is_nil (wq s) && is_nil (wjobs (posted s)) | _ => true end.

(** A write is awaited while the channel is as open as when the write was
    created (always true for [co_await c.write(v)]). *)
Definition fresh (s : state) (l : label) : bool :=
  match l with AwWrite j _ => Bool.eqb (w_closed (wops s j)) (closed s) | _ => true end.

(** Operations interrupted by a combinator are destroyed before the channel is
    used again or the executor runs. *)
Definition all_linked_live (s : state) : bool :=
  forallb (fun i => is_awaited (r_stage (rops s i))) (rq s) &&
  forallb (fun j => is_awaited (w_stage (wops s j))) (wq s).
Definition prompt (s : state) (l : label) : bool :=
  match l with
  | AwRead _ _ | AwWrite _ _ | Run _ => all_linked_live s
  | _ => true
  end.

(** Cancellation or interruption never hits an operation that has already been
    woken (unlinked and scheduled). *)
Definition no_late_cancel (s : state) (l : label) : bool :=
  match l with
  | CancelR i | InterruptR i => negb (existsb (Nat.eqb i) (rjobs (posted s)))
  | CancelW j | InterruptW j => negb (existsb (Nat.eqb j) (wjobs (posted s)))
  | _ => true
  end.

Definition both (P Q : state -> label -> bool) (s : state) (l : label) := P s l && Q s l.

(** A read and a write of one single coroutine each: the usual
    single-producer single-consumer use. *)
Definition spsc := both (both one_reader one_writer) (both fresh prompt).

End Spec.
