(** Vocabulary for C80: a promise, task or generator made from [noop].

    The English: what is made from [noop{v}] can be used like what a coroutine that
    returns [v] at once gives.  For a promise and a generator "at once" is before the
    function returns; for a task it is as soon as the task is started. *)
From Coq Require Import List Bool Arith.
From Verif Require Import Promise_Model Task_Model.
Import ListNotations.

(** No undefined behaviour and no failed assertion among the events of a promise. *)
Definition sound {V E} (es : list (Promise_Model.event V E)) : Prop := forall b, ~ In (Promise_Model.EBad b) es.

Section Task.
Context {V E : Type}.
Notation event := (Task_Model.event V E).
Notation label := (Task_Model.label V E).

(** The steps of the coroutine [c], which returns [v]. *)
Definition inner (c : nat) (v : V) (l : label) : Prop := l = LBegin c \/ l = LReturn c v \/ l = LFinal c.
(** What others than the coroutine [c] itself see. *)
Definition shown (c : nat) (e : event) : bool :=
  match e with EBegin d | EFinal d | EDiscard d => negb (d =? c) | EReturn d _ => negb (d =? c) | _ => true end.
Definition visible (c : nat) (es : list event) : list event := filter (shown c) es.

(** Which task a step uses, and which one it leaves moved from. *)
Definition uses (l : label) : option nat :=
  match l with LAwait _ h | LSpawn _ _ h | LMove _ h => Some h | _ => None end.
Definition moves (l : label) : option nat :=
  match l with LSpawn _ _ h | LMove _ h => Some h | _ => None end.
Definition add (o : option nat) (M : list nat) : list nat := match o with Some h => h :: M | None => M end.
(** No task is used after it was moved from ([M]: those moved from before). *)
Fixpoint keeps (M : list nat) (ls : list label) : Prop :=
  match ls with
  | [] => True
  | l :: r => (forall h, uses l = Some h -> ~ In h M) /\ keeps (add (moves l) M) r
  end.

(** The second history is the first with steps of the coroutine put in. *)
Inductive filled (c : nat) (v : V) : list label -> list label -> Prop :=
| filled_nil : filled c v [] []
| filled_keep l r r' : filled c v r r' -> filled c v (l :: r) (l :: r')
| filled_more l r r' : inner c v l -> filled c v r r' -> filled c v r (l :: r').
End Task.
