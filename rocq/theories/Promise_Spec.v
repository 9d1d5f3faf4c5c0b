(** * Reading a trace of promise operations (for C20-C22)

    [view_of tr] is what an outside observer knows after the events [tr]. *)
From Coq Require Import List Bool Arith.
From Verif Require Import Promise_Model.
Import ListNotations.

Section Spec.
Context {V E : Type}.
Notation event := (event V E).

Inductive ending := FRet (v : V) | FThrow (e : E) | FKill.

Record view := mkV {
  own : nat -> option nat;         (* the coroutine a handle stands for *)
  attd : nat -> bool;              (* attached() *)
  gave : list nat;                 (* coroutines whose value was handed out intact *)
  waits : nat -> option nat;       (* the handle a coroutine is waiting on *)
  fate : nat -> option ending;     (* how a coroutine ended *)
  born : nat -> bool;              (* started *)
  over : nat -> bool }.            (* frame destroyed *)

Definition v0 : view := mkV (fun _ => None) (fun _ => false) [] (fun _ => None) (fun _ => None) (fun _ => false) (fun _ => false).

Definition v_own f v := mkV f (attd v) (gave v) (waits v) (fate v) (born v) (over v).
Definition v_att f v := mkV (own v) f (gave v) (waits v) (fate v) (born v) (over v).
Definition v_waits f v := mkV (own v) (attd v) (gave v) f (fate v) (born v) (over v).
Definition v_fate c x v := mkV (own v) (attd v) (gave v) (waits v) (upd (fate v) c (Some x)) (born v) (over v).
Definition v_over c v := mkV (own v) (attd v) (gave v) (waits v) (fate v) (born v) (upd (over v) c true).
Definition v_born c v := mkV (own v) (attd v) (gave v) (waits v) (fate v) (upd (born v) c true) (over v).
(** The handle [h] hands out [r]. *)
Definition v_give h (r : outcome V E) v :=
  match r, own v h with
  | RVal (Fresh _), Some c => mkV (own v) (attd v) (gave v ++ [c]) (waits v) (fate v) (born v) (over v)
  | _, _ => v
  end.

Definition observe (v : view) (e : event) : view :=
  match e with
  | EStart c h => v_born c (v_att (upd (attd v) h true) (v_own (upd (own v) h (Some c)) v))
  | EReturn c x => v_fate c (FRet x) v
  | EThrow c x => v_fate c (FThrow x) v
  | EKill c => v_over c (v_fate c FKill v)
  | EFinal c => v_over c v
  | EAwait w h => v_waits (upd (waits v) w (Some h)) v
  | EResult w h r => v_waits (upd (waits v) w None) (v_give h r v)
  | EGet h r => v_give h r v
  | EKilled w => v_waits (upd (waits v) w None) v
  | EMove g h | EAssign g h =>
      v_att (upd (upd (attd v) g (attd v h)) h false) (v_own (upd (upd (own v) g (own v h)) h None) v)
  | EDestroy h => v_own (upd (own v) h None) v
  | EAttach h b => v_att (upd (attd v) h b) v
  | _ => v
  end.
Definition view_of (tr : list event) : view := fold_left observe tr v0.

(** The coroutine runs: started, neither returned, thrown nor destroyed. *)
Definition running (v : view) c : Prop := born v c = true /\ fate v c = None.

(** What a handle that stands for a coroutine with this fate should give. *)
Definition answers (v : view) (c : nat) (r : outcome V E) : Prop :=
  match fate v c with
  | Some (FRet x) => r = RVal (Fresh x) /\ ~ In c (gave v) \/ r = RVal Hollow /\ In c (gave v)
  | Some (FThrow e) => r = RExc (XUser e)
  | Some FKill => r = RExc XUnexpected
  | None => False
  end.

(** ** Correct use *)
Notation state := (state V E).
(** Moved from by assignment while its coroutine ran: still "not done". *)
Definition zombie (s : state) h := negb (done (hs s h)) && match exc (hs s h) with Some XMoved => true | _ => false end.
(** Moved from after its coroutine had thrown: nothing in it. *)
Definition empty (s : state) h :=
  done (hs s h) && match exc (hs s h), res (hs s h) with None, None => true | _, _ => false end.
Definition awaited (s : state) h := match aw (hs s h) with Some _ => true | None => false end.
(** Its coroutine has returned and is destroying its local variables. *)
Definition returning (s : state) h :=
  match ref (hs s h) with
  | Some c => match cs (co s c), rec (co s c) with Returning, Some h' => h' =? h | _, _ => false end
  | None => false
  end.
(** The frame the handle refers to still exists. *)
Definition has_frame (s : state) h := match ref (hs s h) with Some c => frame s c | None => false end.

(** Correct use of a promise, as far as the implementation supports it:
    - a handle is not moved or destroyed while a coroutine awaits it, nor from a
      destructor that runs between co_return and the end of its coroutine;
    - a promise is not assigned to when its coroutine has finished;
    - a handle that was moved from by assignment is only destroyed, and that before
      its coroutine ends; one moved from after its coroutine threw is not awaited;
    - get() is called on finished promises only. *)
Definition ok (s : state) (l : label V E) : bool :=
  let free h := negb (awaited s h) && negb (returning s h) in
  let safe h := done (hs s h) || has_frame s h in
  match l with
  | LAwait w h => negb (zombie s h) && negb (empty s h)
  | LGet h => done (hs s h) && negb (empty s h)
  | LMove g h => negb (zombie s h) && free h
  | LCancel h _ | LAssign1 h _ | LDestroy1 h => safe h
  | LAssign2 g =>
      match from (hs s g) with
      | Some h => negb (zombie s h) && free h && free g && (match ref (hs s g) with None => true | Some c => frame s c end)
      | None => true
      end
  | LDestroy2 h => free h && safe h
  | _ => true
  end.
Fixpoint correct (s : state) (ls : list (label V E)) : Prop :=
  match ls with
  | [] => True
  | l :: t => ok s l = true /\ match step l s with Some (s1, _) => correct s1 t | None => True end
  end.
(** The handle [h] is moved from, moved into or destroyed. *)
Definition leaves (e : event) h := match e with EMove g k | EAssign g k => g = h \/ k = h | EDestroy k => k = h | _ => False end.
(** Somebody gets the outcome [r] from the handle [h]. *)
Definition tells (e : event) h r := match e with EResult _ k q | EGet k q => k = h /\ q = r | _ => False end.
Definition undefined (tr : list event) : Prop := exists b, In (EBad b) tr.
End Spec.
Arguments view V E : clear implicits.
