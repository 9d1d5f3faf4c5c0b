(** * What a user of io::resolver and io::lookup relies on *)
From Coq Require Import List Bool Arith Lia.
From Verif Require Import Sock_Model Rsv_Model.
Import ListNotations.

(** content of string [k] after [ls] *)
Fixpoint text_after (k : nat) (ls : list label) (t : option nat) : option nat :=
  match ls with
  | [] => t
  | LText j n :: ls' => text_after k ls' (if j =? k then Some n else t)
  | LFree j :: ls' => text_after k ls' (if j =? k then None else t)
  | _ :: ls' => text_after k ls' t
  end.

(** resolver and strings of operation [o] after [ls], and whether it is a lookup *)
Fixpoint oper_after (o : nat) (ls : list label) (t : option (nat * nat * nat * bool)) : option (nat * nat * nat * bool) :=
  match ls with
  | [] => t
  | LOp p x h v :: ls' => oper_after o ls' (if p =? o then Some (x, h, v, false) else t)
  | LLookup p x h v :: ls' => oper_after o ls' (if p =? o then Some (x, h, v, true) else t)
  | LDrop p :: ls' => oper_after o ls' (if p =? o then None else t)
  | _ :: ls' => oper_after o ls' t
  end.

(** the label ends queries of resolver [x] that have not begun; [ls]: what happened before *)
Definition stops (x : nat) (ls : list label) (l : label) : Prop :=
  l = LCancel x \/ l = LDestroy x \/ (exists o h v, l = LDrop o /\ oper_after o ls None = Some (x, h, v, true)).

(** the awaits that an event begins, or ends *)
Definition begins (e : event) : list nat := match e with EBegun i _ _ _ => [i] | _ => [] end.
Definition ends (e : event) : list nat := match e with EGot i _ | EGone i => [i] | _ => [] end.
Definition begun_in (es : list event) : list nat := flat_map begins es.
Definition ended_in (es : list event) : list nat := flat_map ends es.

(** the endpoints are those of the answer, in its order, for both internet families *)
Inductive delivers : list entry -> list ep -> Prop :=
| d_nil : delivers [] []
| d_v4 : forall ty a l r, delivers l r -> delivers (I AF_INET ty a :: l) (E (P AF_INET 0 0) a :: r)
| d_v6 : forall ty a l r, delivers l r -> delivers (I AF_INET6 ty a :: l) (E (P AF_INET6 0 0) a :: r)
| d_unix : forall ty a l r, delivers l r -> delivers (I AF_UNIX ty a :: l) r
| d_other : forall ty a l r, delivers l r -> delivers (I AF_OTHER ty a :: l) r.

(** the result that belongs to what the system said *)
Definition matches (a : answer) (r : outcome) : Prop :=
  match a, r with
  | AOk l, ROk d => delivers l d
  | AErr e, ROk _ => False
  | AErr e, RErr e' => e = e'
  | _, _ => False
  end.

(** await [i] of resolver [x] is queued, or in getaddrinfo *)
Definition queued (i x : nat) (s : state) : Prop := exists j, In j (queue s) /\ j_id j = i /\ j_res j = x.
Definition looking (i : nat) (s : state) : Prop := In i (map j_id (active s)).

(** nothing that the user does: steps of workers and context *)
Definition automatic (l : label) : Prop := match l with LBegin | LReply _ _ | LRun false => True | _ => False end.
Definition is_reply (l : label) : Prop := match l with LReply _ _ => True | _ => False end.
