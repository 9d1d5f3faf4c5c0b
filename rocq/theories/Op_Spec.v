(** * Specification vocabulary for awaited operations, read off the trace *)
From Coq Require Import List Bool Arith Lia.
From Verif Require Import Op_Model.
Import ListNotations.

(** the arguments the handler was invoked with *)
Definition calls (tr : list event) : list args :=
  flat_map (fun e => match e with ECalled a => [a] | _ => [] end) tr.

(** what co_await gave *)
Definition results (tr : list event) : list outcome :=
  flat_map (fun e => match e with EResult o => [o] | _ => [] end) tr.

Definition count (P : event -> bool) (tr : list event) : nat := length (filter P tr).
Definition is_resume e := match e with EResume => true | _ => false end.
Definition is_suspend e := match e with ESuspend => true | _ => false end.
Definition is_continue e := match e with EContinue => true | _ => false end.

(** The user respects asio's rules. *)
Definition no_misuse (tr : list event) : Prop := ~ In EMisuse tr.

(** The initiation is over at some point of the trace. *)
Definition init_over (tr : list event) : Prop := In EReturned tr \/ exists e, In (EThrew e) tr.

(** Nothing happens to the coroutine while the initiation is on the stack. *)
Definition coro_event (e : event) : bool :=
  match e with ESuspend | EContinue | EResume | EResult _ | EDestroyed => true | _ => false end.

(** What happens before the initiation is over, and after. *)
Fixpoint during (tr : list event) : list event :=
  match tr with
  | [] => []
  | EReturned :: _ | EThrew _ :: _ => []
  | e :: r => e :: during r
  end.

Fixpoint after (tr : list event) : list event :=
  match tr with
  | [] => []
  | EReturned :: r | EThrew _ :: r => r
  | _ :: r => after r
  end.

(** ** Tame initiations

    Excluded: an exception inside a function run by the immediate executor;
    and, inside such a function, invoking the handler after another such
    function has returned. *)
Fixpoint no_throw (p : prog) : Prop :=
  match p with
  | Done => True
  | Throw _ => False
  | Call _ k | Hand k | Drop k => no_throw k
  | Imm b k | Try b k => no_throw b /\ no_throw k
  end.

(** [direct_call p]: p may invoke the handler itself, outside further functions
    given to the immediate executor. *)
Fixpoint no_direct_call (p : prog) : Prop :=
  match p with
  | Done | Throw _ => True
  | Call _ _ => False
  | Hand k | Drop k => no_direct_call k
  | Imm _ k => no_direct_call k
  | Try b k => no_direct_call b /\ no_direct_call k
  end.

Fixpoint has_imm (p : prog) : bool :=
  match p with
  | Done | Throw _ => false
  | Call _ k | Hand k | Drop k => has_imm k
  | Imm _ _ => true
  | Try b k => has_imm b || has_imm k
  end.

(** [tame inside p] *)
Fixpoint tame (inside : bool) (p : prog) : Prop :=
  match p with
  | Done => True
  | Throw _ => inside = false
  | Call _ k | Hand k | Drop k => tame inside k
  | Imm b k => tame true b /\ tame inside k /\ (inside = true -> no_direct_call k)
  | Try b k => tame inside b /\ tame inside k /\
               (inside = true -> has_imm b = true -> no_direct_call k)
  end.
