(** * Model of the destruction of a channel
    /repo/include/boost/cobalt/impl/channel.hpp lines 41-50 (~channel),
    /repo/src/channel.cpp lines 14-22 (channel<void>), on top of Channel_Model;
    /repo/include/boost/cobalt/detail/fork.hpp lines 29-58 (shared_state) and
    104-120 for operations that are children of race, join or gather.

    The destructor resets [awaited_from] of the first linked operation until no
    operation is linked.  Resetting it destroys a coroutine:
    - if a coroutine awaits the operation directly, the operation is part of
      that coroutine's frame, and its hook unlinks it (channel.hpp:71);
    - if the operation is a child of a combinator, the coroutine is the
      combinator's helper, and the operation is part of the frame of the
      coroutine that awaits the combinator.  That one is destroyed only with
      the last helper (fork.hpp:52-56).

    Simplifications: the destructors that run when a frame is destroyed do not
    use the channel; a combinator's operations are all destroyed with it. *)
From Coq Require Import List Bool Arith Lia.
From Verif Require Import Channel_Model.
Import ListNotations.

Inductive opid := R (i : nat) | W (j : nat).

(** Who awaits an operation: a coroutine, or a helper of combinator [g]. *)
Inductive awaiter := Plain | Fork (g : nat).

Inductive dev :=
| Killed (o : opid)        (** the coroutine awaiting [o] is destroyed *)
| HelperKilled (o : opid)  (** a combinator's helper is destroyed, the combinator is still awaited *)
| GroupKilled (g : nat).   (** the coroutine awaiting combinator [g] is destroyed *)

Section Destroy.
Context {V : Type}.
Notation state := (state V).

Record dst := mkD
  { ch : state;
    who : opid -> awaiter;
    outst : nat -> nat }.     (** fork::shared_state::use_count of a combinator, fork.hpp:49 *)

Definition set_ch (s : state) (d : dst) : dst := mkD s (who d) (outst d).

Definition is_group (d : dst) (g : nat) (o : opid) : bool :=
  match who d o with Fork g' => Nat.eqb g' g | Plain => false end.

Definition r_dead (o : rop V) : rop V := mkR Destroyed (r_cancelled o) (r_direct o) false false.
Definition w_dead (o : wop V) : wop V := mkW Destroyed (w_cancelled o) (w_direct o) (w_closed o) false false (w_val o).

(** The operation object is destroyed: auto_unlink, channel.hpp:71, 109. *)
Definition kill_op (o : opid) (s : state) : state :=
  match o with
  | R i => set_rq (unlink i (rq s)) (set_r i (r_dead (rops s i)) s)
  | W j => set_wq (unlink j (wq s)) (set_w j (w_dead (wops s j)) s)
  end.

(** All operations of combinator [g] are destroyed. *)
Definition kill_group (g : nat) (d : dst) : dst :=
  let s := ch d in
  set_ch (mkS (is_void s) (limit s) (closed s) (buf s)
              (filter (fun i => negb (is_group d g (R i))) (rq s))
              (filter (fun j => negb (is_group d g (W j))) (wq s))
              (fun i => if is_group d g (R i) then r_dead (rops s i) else rops s i)
              (fun j => if is_group d g (W j) then w_dead (wops s j) else wops s j)
              (posted s) (bad s)) d.

Definition handle (o : opid) (s : state) : bool :=
  match o with R i => r_handle (rops s i) | W j => w_handle (wops s j) end.

Definition drop_handle (o : opid) (s : state) : state :=
  match o with
  | R i => set_r i (r_set_handle false (rops s i)) s
  | W j => set_w j (w_set_handle false (wops s j)) s
  end.

(** awaited_from.reset(): unique_handle.hpp:216 destroys the coroutine, if
    there is one.  For a helper: its promise releases the shared state
    (fork.hpp:120, 52-56). *)
Definition reset (o : opid) (d : dst) : dst * list dev :=
  if handle o (ch d) then
    match who d o with
    | Plain => (set_ch (kill_op o (ch d)) d, [Killed o])
    | Fork g =>
        let d1 := mkD (drop_handle o (ch d)) (who d) (upd (outst d) g (outst d g - 1)) in
        if Nat.eqb (outst d g) 1 then (kill_group g d1, [GroupKilled g])
        else (d1, [HelperKilled o])
    end
  else (d, []).

(** The head of the queue the destructor is emptying, impl/channel.hpp:44-48. *)
Definition front (s : state) : option opid :=
  match rq s with
  | i :: _ => Some (R i)
  | [] => match wq s with j :: _ => Some (W j) | [] => None end
  end.

(** n rounds of the loops. *)
Fixpoint rounds (n : nat) (d : dst) : dst * list dev :=
  match n with
  | O => (d, [])
  | S n' =>
      match front (ch d) with
      | None => (d, [])
      | Some o => let '(d1, e1) := reset o d in let '(d2, e2) := rounds n' d1 in (d2, e1 ++ e2)
      end
  end.

(** What can happen once the channel is gone.  [None] is a use of the
    destroyed channel. *)
Definition dead_step (s : state) (l : label V) : option (state * list (event V)) :=
  match l with
  | Run k =>
      match nth_error (posted s) k with
      | None => Some (s, [])
      | Some (JR i) => None                     (* impl/channel.hpp:169, src/channel.cpp:53 *)
      | Some (JW j) =>
          (* impl/channel.hpp:281-294: the channel is not used if the write was closed or cancelled *)
          let o := wops s j in
          match w_val o with
          | None => None
          | Some v =>
              if w_closed o || w_cancelled o
              then Some (set_w j (w_finish o) (set_posted (remove_nth k (posted s)) s),
                         [EWrite j v (if w_closed o then WBroken else WAborted)])
              else None
          end
      end
  | CancelR i =>
      (* impl/channel.hpp:84-93: chn is used if there is a coroutine to post *)
      if r_slot (rops s i) then
        if r_handle (rops s i) then None else Some (read_cancel s i, [])
      else Some (s, [])
  | CancelW j =>
      if w_slot (wops s j) then
        if w_handle (wops s j) then None else Some (write_cancel s j, [])
      else Some (s, [])
  | InterruptR i =>
      match r_stage (rops s i) with
      | Made | Awaited =>
          if is_some (r_direct (rops s i)) then Some (s, [])
          else if r_handle (rops s i) then None
          else Some (read_interrupt s i)
      | _ => Some (s, [])
      end
  | InterruptW j =>
      match w_stage (wops s j) with
      | Made | Awaited =>
          if w_direct (wops s j) then Some (s, [])
          else if w_handle (wops s j) then None
          else Some (write_interrupt s j)
      | _ => Some (s, [])
      end
  | DestroyR _ | DestroyW _ => Some (step_ok s l)
  | MkRead _ | MkWrite _ _ | Close => None
  | AwRead i _ => match r_stage (rops s i) with Made => None | _ => Some (s, []) end
  | AwWrite j _ => match w_stage (wops s j) with Made => None | _ => Some (s, []) end
  end.

Fixpoint dead_run (s : state) (ls : list (label V)) : option (state * list (event V)) :=
  match ls with
  | [] => Some (s, [])
  | l :: ls' =>
      match dead_step s l with
      | Some (s1, e1) => match dead_run s1 ls' with Some (s2, e2) => Some (s2, e1 ++ e2) | None => None end
      | None => None
      end
  end.

End Destroy.
Arguments dst : clear implicits.
