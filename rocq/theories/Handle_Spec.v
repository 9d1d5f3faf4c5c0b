(** * What is asked of unique_handle, on histories *)
From Coq Require Import List Bool Arith.
From Verif Require Import Handle_Model.
Import ListNotations.

(** how often a handle took, destroyed, gave away a frame *)
Definition adopted (f : frame) (es : list event) : nat :=
  length (filter (fun e => match e with EAdopt g => f =? g | _ => false end) es).
Definition destroyed (f : frame) (es : list event) : nat :=
  length (filter (fun e => match e with EDestroy g => f =? g | _ => false end) es).
Definition given (f : frame) (es : list event) : nat :=
  length (filter (fun e => match e with EGiven g => f =? g | _ => false end) es).
(** the frame is destroyed by a handle or destroys itself *)
Definition gone (f : frame) (es : list event) : nat :=
  length (filter (fun e => match e with EDestroy g | EEnd g => f =? g | _ => false end) es).

(** how many handles hold it *)
Definition holds (f : frame) (o : option frame) : bool := match o with Some g => f =? g | None => false end.
Definition holders (f : frame) (s : state) : nat := length (filter (holds f) (handles s)).

(** the caller's part: a frame given to a handle exists and is nobody else's; a raw handle is
    used only for a frame that exists and no handle owns; a coroutine resumed through an lvalue handle
    does not destroy itself (it stops at its final suspension point) *)
Definition may_adopt (s : state) (o : option frame) : Prop :=
  match o with Some f => alive s f = true /\ holders f s = 0 | None => True end.
Definition allowed (s : state) (l : label) : Prop :=
  match l with
  | LNew o | LReset _ o => may_adopt s o
  | LResume _ ends => ends = false
  | LRaw f _ => alive s f = true /\ holders f s = 0
  | _ => True
  end.
Fixpoint correct (typed : bool) (s : state) (ls : list label) : Prop :=
  match ls with
  | [] => True
  | l :: r => allowed s l /\ match step typed s l with Some (s1, _) => correct typed s1 r | None => True end
  end.

(** every handle is empty *)
Definition all_empty (s : state) : Prop := forall o, In o (handles s) -> o = None.
