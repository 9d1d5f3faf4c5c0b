(** * Reading a trace of task operations (for C23 and C37)

    [view_of tr] is what an outside observer knows after the events [tr]. *)
From Coq Require Import List Bool Arith.
From Verif Require Import Task_Model.
Import ListNotations.

Section Spec.
Context {V E : Type}.
Notation event := (event V E).

Inductive ending := FRet (v : V) | FThrow (e : E) | FKill.

Record view := mkV {
  own : nat -> option nat;         (* the coroutine a handle stands for *)
  gave : list nat;                 (* coroutines whose value was handed out intact *)
  waits : nat -> option nat;       (* the handle a coroutine or a completion handler waits on *)
  fate : nat -> option ending;     (* how a coroutine ended *)
  born : nat -> bool;              (* created *)
  begun : nat -> bool;             (* its body has started *)
  asked : nat -> bool;             (* a handle standing for it was awaited or spawned *)
  over : nat -> bool;              (* frame destroyed *)
  called : list nat }.             (* completion handlers called *)

Definition v0 : view :=
  mkV (fun _ => None) [] (fun _ => None) (fun _ => None) (fun _ => false) (fun _ => false) (fun _ => false) (fun _ => false) [].

Definition v_own f v := mkV f (gave v) (waits v) (fate v) (born v) (begun v) (asked v) (over v) (called v).
Definition v_waits w x v := mkV (own v) (gave v) (upd (waits v) w x) (fate v) (born v) (begun v) (asked v) (over v) (called v).
Definition v_fate c x v := mkV (own v) (gave v) (waits v) (upd (fate v) c (Some x)) (born v) (begun v) (asked v) (over v) (called v).
Definition v_born c v := mkV (own v) (gave v) (waits v) (fate v) (upd (born v) c true) (begun v) (asked v) (over v) (called v).
Definition v_begun c v := mkV (own v) (gave v) (waits v) (fate v) (born v) (upd (begun v) c true) (asked v) (over v) (called v).
Definition v_asked h v :=
  match own v h with
  | Some c => mkV (own v) (gave v) (waits v) (fate v) (born v) (begun v) (upd (asked v) c true) (over v) (called v)
  | None => v
  end.
Definition v_over c v := mkV (own v) (gave v) (waits v) (fate v) (born v) (begun v) (asked v) (upd (over v) c true) (called v).
Definition v_called w v := mkV (own v) (gave v) (waits v) (fate v) (born v) (begun v) (asked v) (over v) (called v ++ [w]).
(** The handle [h] hands out [r]. *)
Definition v_give h (r : outcome V E) v :=
  match r, own v h with
  | RVal (Fresh _), Some c => mkV (own v) (gave v ++ [c]) (waits v) (fate v) (born v) (begun v) (asked v) (over v) (called v)
  | _, _ => v
  end.
Definition v_move g h v := v_own (upd (upd (own v) g (own v h)) h None) v.

Definition observe (v : view) (e : event) : view :=
  match e with
  | ECreate c h => v_born c (v_own (upd (own v) h (Some c)) v)
  | EBegin c => v_begun c v
  | EReturn c x => v_fate c (FRet x) v
  | EThrow c x => v_fate c (FThrow x) v
  | EKill c | EDiscard c => v_over c (v_fate c FKill v)
  | EFinal c => v_over c v
  | EAwait w h => v_waits w (Some h) (v_asked h v)
  | ESpawn w g h => v_waits w (Some g) (v_move g h (v_asked h v))
  | EResult w h r => v_waits w None (v_give h r v)
  | EHandler w h r => v_called w (v_waits w None (v_own (upd (own v) h None) (v_give h r v)))
  | EKilled w => v_waits w None v
  | EMove g h => v_move g h v
  | EDestroy h => v_own (upd (own v) h None) v
  | _ => v
  end.
Definition view_of (tr : list event) : view := fold_left observe tr v0.

(** What a handle that stands for a coroutine with this fate should give. *)
Definition answers (v : view) (c : nat) (r : outcome V E) : Prop :=
  match fate v c with
  | Some (FRet x) => r = RVal (Fresh x) /\ ~ In c (gave v) \/ r = RVal Hollow /\ In c (gave v)
  | Some (FThrow e) => r = RExc (XUser e)
  | Some FKill => r = RExc XUnexpected
  | None => False
  end.
(** What one that stands for nothing gives. *)
Definition hollow_answer (r : outcome V E) : Prop := r = RExc XMoved \/ r = RVal Hollow.

(** ** Correct use *)
Notation state := (state V E).
(** Moved from after its coroutine had thrown: nothing in it. *)
Definition empty (s : state) h :=
  done (hs s h) && match exc (hs s h), res (hs s h) with None, None => true | _, _ => false end.
Definition awaited (s : state) h := match aw (hs s h) with Some _ => true | None => false end.
(** Its coroutine has returned and is destroying its local variables. *)
Definition returning (s : state) h :=
  match pr (hs s h) with
  | Some c => match cs (co s c), rec (co s c) with Returning, Some h' => h' =? h | _, _ => false end
  | None => false
  end.
(** Its coroutine has not been started. *)
Definition unstarted (s : state) h :=
  match pr (hs s h) with
  | Some c => match cs (co s c) with Ready => true | _ => false end
  | None => false
  end.

(** Correct use of a task, as far as the implementation supports it:
    - a task is awaited or spawned when it has not been started, or is finished;
      one moved from after its coroutine threw is neither;
    - a handle is not moved, spawned or destroyed while a coroutine awaits it, nor
      from a destructor that runs between co_return and the end of its coroutine. *)
Definition ok (s : state) (l : label V E) : bool :=
  let free h := negb (awaited s h) && negb (returning s h) in
  match l with
  | LAwait w h => (done (hs s h) || unstarted s h) && negb (empty s h)
  | LSpawn w g h => (done (hs s h) || unstarted s h) && negb (empty s h) && free h
  | LMove g h => free h
  | LDestroy h => free h
  | _ => true
  end.
Fixpoint correct (s : state) (ls : list (label V E)) : Prop :=
  match ls with
  | [] => True
  | l :: t => ok s l = true /\ match step l s with Some (s1, _) => correct s1 t | None => True end
  end.
Definition undefined (tr : list event) : Prop := exists b, In (EBad b) tr.
End Spec.
Arguments view V E : clear implicits.
