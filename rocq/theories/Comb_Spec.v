(** Vocabulary in which the properties of gather, join and race are stated:
    functions of the trace of observable events only. *)
From Coq Require Import List Bool Arith Permutation.
From Verif Require Import Comb_Model.
Import ListNotations.

(** Well-formed argument lists: at least one child; every child has exactly one
    place in the start order; gather and join start in argument order. *)
Record wf (c : cfg) : Prop := {
  wf_ne : ord c <> [];
  wf_perm : Permutation (ord c) (seq 0 (size c));
  wf_ord : knd c <> Race -> ord c = seq 0 (size c);
  wf_void : ranged c = true -> forall i j, i < size c -> j < size c -> void c i = void c j }.

Section Spec.
Context {V E : Type}.
Notation event := (event V E).
Notation comp := (comp V E).
Notation outcome := (outcome V E).

(** The children that finished, with their outcomes, in order of finishing. *)
Fixpoint finished (tr : list event) : list (nat * comp) :=
  match tr with
  | [] => []
  | EDone i x :: t => (i, x) :: finished t
  | _ :: t => finished t
  end.

(** The children that were started, in order. *)
Fixpoint started (tr : list event) : list nat :=
  match tr with [] => [] | EStart i :: t => i :: started t | _ :: t => started t end.

(** What the awaiting coroutine got, each time it continued. *)
Fixpoint resumptions (tr : list event) : list outcome :=
  match tr with [] => [] | EResume r :: t => r :: resumptions t | _ :: t => resumptions t end.

(** Outcome of child [i], if it finished. *)
Fixpoint lookup {A} (l : list (nat * A)) (i : nat) : option A :=
  match l with
  | [] => None
  | (j, x) :: t => if j =? i then Some x else lookup t i
  end.
Definition outcome_of (tr : list event) (i : nat) : option comp := lookup (finished tr) i.

(** A finished child as a [system::result]. *)
Definition as_result (x : comp) : V + E :=
  match x with CVal v => inl v | CErr e | CThrow e => inr e end.
Definition error_of (x : comp) : option E :=
  match x with CVal _ => None | CErr e | CThrow e => Some e end.

(** The error of the child that failed first. *)
Fixpoint first_error (l : list (nat * comp)) : option E :=
  match l with
  | [] => None
  | (_, x) :: t => match error_of x with Some e => Some e | None => first_error t end
  end.

(** Who decides a race: the first child to finish or to begin a transaction. *)
Fixpoint decided_by (tr : list event) : option nat :=
  match tr with
  | [] => None
  | EDone i _ :: _ => Some i
  | ETxBegin i :: _ => Some i
  | _ :: t => decided_by t
  end.
Fixpoint transactions (tr : list event) : list nat :=
  match tr with [] => [] | ETxBegin i :: t => i :: transactions t | _ :: t => transactions t end.

(** Signals sent to / interruptions of child [i]. *)
Fixpoint signals (i : nat) (tr : list event) : list ctype :=
  match tr with
  | [] => []
  | EEmit j t _ :: r => if j =? i then t :: signals i r else signals i r
  | _ :: r => signals i r
  end.
Fixpoint interrupts (i : nat) (tr : list event) : nat :=
  match tr with
  | [] => 0
  | EInterrupt j :: r => (if j =? i then 1 else 0) + interrupts i r
  | _ :: r => interrupts i r
  end.
(** Calls of await_ready on child [i] / destructions of its fork. *)
Fixpoint probes (i : nat) (tr : list event) : nat :=
  match tr with [] => 0 | EProbe j :: r => (if j =? i then 1 else 0) + probes i r | _ :: r => probes i r end.
Fixpoint frees (i : nat) (tr : list event) : nat :=
  match tr with [] => 0 | EFree j :: r => (if j =? i then 1 else 0) + frees i r | _ :: r => frees i r end.

(** The child suspended, or it was started after some child had suspended. *)
Definition late (j : nat) (tr : list event) : Prop :=
  In (ESusp j) tr \/ exists a b k, tr = a ++ EStart j :: b /\ In (ESusp k) a.

(** Calm runs: from the moment a child is started until its await_suspend returned
    or it finished, no other child finishes and no transaction begins.  The
    window is the child currently being started; [None] means the run is not calm. *)
Definition window_step (w : option (option nat)) (e : event) : option (option nat) :=
  match w with
  | None => None
  | Some cur =>
      match e with
      | EStart i => match cur with None => Some (Some i) | Some _ => None end
      | ESusp i => Some None
      | EDone i _ => match cur with
                     | None => Some None
                     | Some j => if j =? i then Some None else None
                     end
      | ETxBegin _ => match cur with None => Some None | Some _ => None end
      | _ => Some cur
      end
  end.
Definition window (tr : list event) : option (option nat) := fold_left window_step tr (Some None).
Definition calm (tr : list event) : Prop := window tr <> None.

(** The signal a combinator sends on its own account. *)
Definition own c : ctype := if is_race c then rct c else ct_all.
Definition is_throw (x : comp) : bool := match x with CThrow _ => true | _ => false end.
(** The awaiting coroutine was never cancelled / no exception escaped as_result
    in a child of a race. *)
Definition uncancelled (tr : list event) : Prop := forall t, ~ In (ECancelled t) tr.
Definition nothrow (tr : list event) : Prop := forall i x, In (i, x) (finished tr) -> is_throw x = false.

(** A child that was started and has not finished. *)
Definition unfinished (tr : list event) (i : nat) : Prop := In i (started tr) /\ ~ In i (map fst (finished tr)).

(** Control is back in the event loop: no library or user code is running. *)
Definition at_rest (s : state V E) : Prop := stk s = [].

(** Children complete only from the event loop, never from inside the combinator
    or another child's code. *)
Fixpoint orderly (c : cfg) (s : state V E) (ls : list (label V E)) : Prop :=
  match ls with
  | [] => True
  | l :: t =>
      match l with LComplete _ _ => at_rest s | _ => True end /\
      match step c l s with Some (s1, _) => orderly c s1 t | None => True end
  end.
(** The awaiting coroutine is not cancelled any more once the combinator resumed it. *)
Definition cancelled_in_time (tr : list event) : Prop :=
  forall a u b, tr = a ++ ECancelled u :: b -> resumptions a = [].

(** What a race should give when child [w] decided it and finished with [x]. *)
Definition race_outcome (c : cfg) (w : nat) (x : comp) : outcome :=
  match x with
  | CVal v => RWin w (if void c w then None else Some v)
  | CErr e | CThrow e => RThrow e
  end.

Definition dangling (tr : list event) : Prop := In EDangling tr.

Lemma finished_app a b : finished (a ++ b) = finished a ++ finished b.
Proof. induction a as [|[] a IH]; cbn; rewrite ?IH; auto. Qed.
Lemma started_app a b : started (a ++ b) = started a ++ started b.
Proof. induction a as [|[] a IH]; cbn; rewrite ?IH; auto. Qed.
Lemma resumptions_app a b : resumptions (a ++ b) = resumptions a ++ resumptions b.
Proof. induction a as [|[] a IH]; cbn; rewrite ?IH; auto. Qed.
Lemma transactions_app a b : transactions (a ++ b) = transactions a ++ transactions b.
Proof. induction a as [|[] a IH]; cbn; rewrite ?IH; auto. Qed.
Lemma decided_app a b : decided_by (a ++ b) = match decided_by a with Some i => Some i | None => decided_by b end.
Proof. induction a as [|[] a IH]; cbn; rewrite ?IH; auto. Qed.
Lemma signals_app i a b : signals i (a ++ b) = signals i a ++ signals i b.
Proof. induction a as [|[] a IH]; cbn; rewrite ?IH; auto. destruct (i0 =? i); auto. Qed.
Lemma interrupts_app i a b : interrupts i (a ++ b) = interrupts i a + interrupts i b.
Proof. induction a as [|[] a IH]; cbn; rewrite ?IH; auto with arith. Qed.
Lemma probes_app i a b : probes i (a ++ b) = probes i a + probes i b.
Proof. induction a as [|[] a IH]; cbn; rewrite ?IH; auto with arith. Qed.
Lemma frees_app i a b : frees i (a ++ b) = frees i a + frees i b.
Proof. induction a as [|[] a IH]; cbn; rewrite ?IH; auto with arith. Qed.
Lemma lookup_app {A} (a b : list (nat * A)) i :
  lookup (a ++ b) i = match lookup a i with Some x => Some x | None => lookup b i end.
Proof. induction a as [|[j x] a IH]; cbn; auto. destruct (j =? i); auto. Qed.
Lemma first_error_app a b :
  first_error (a ++ b) = match first_error a with Some e => Some e | None => first_error b end.
Proof. induction a as [|[j x] a IH]; cbn; auto. destruct (error_of x); auto. Qed.


Lemma window_none (ev : list event) : fold_left window_step ev None = None.
Proof. induction ev; cbn; auto. Qed.
Lemma window_app a b : window (a ++ b) = fold_left window_step b (window a).
Proof. unfold window. now rewrite fold_left_app. Qed.
Lemma calm_app a b : calm (a ++ b) -> calm a.
Proof. unfold calm. rewrite window_app. destruct (window a); [discriminate|]. now rewrite window_none. Qed.

End Spec.
