(** * Vocabulary for timers and sleep, on the events only *)
From Coq Require Import List Bool Arith ZArith Lia.
From Verif Require Import Tim_Model.
Import ListNotations.
Open Scope Z_scope.

Definition happens (c0 : Z) (tr : list event) : Prop :=
  exists ls s, run (init c0) ls = Some (s, tr).

(** What the clock shows after [tr]. *)
Fixpoint now (c0 : Z) (tr : list event) : Z :=
  match tr with
  | [] => c0
  | ENow t :: tr' => now t tr'
  | _ :: tr' => now c0 tr'
  end.

(** The time an argument means: a duration counts from now.  A timer's expiry
    is at most the last time there is. *)
Definition meant (now : Z) (a : arg) : Z :=
  match a with At tp => tp | For du => now + du end.

Definition first_time : Z := - 2 ^ 63.
Definition last_time : Z := 2 ^ 63 - 1.
Definition clamp (z : Z) : Z := Z.max first_time (Z.min last_time z).

(** The expiry that [k] was given last in [tr]. *)
Fixpoint expiry (c0 : Z) (k : key) (acc : option Z) (tr : list event) : option Z :=
  match tr with
  | [] => acc
  | ENow t :: tr' => expiry t k acc tr'
  | ENew k' a :: tr' =>
      expiry c0 k (if key_eqb k' k
                   then Some (match k, a with
                              | Tm _, For du => clamp (meant c0 a)
                              | _, _ => meant c0 a end)
                   else acc) tr'
  | EReset i a :: tr' =>
      expiry c0 k (if key_eqb (Tm i) k
                   then Some (match a with For du => clamp (meant c0 a) | _ => meant c0 a end)
                   else acc) tr'
  | _ :: tr' => expiry c0 k acc tr'
  end.

Definition expires (c0 : Z) (tr : list event) (k : key) (e : Z) : Prop :=
  expiry c0 k None tr = Some e.

(** The clock never goes back. *)
Definition steady (c0 : Z) (tr : list event) : Prop :=
  forall a t b, tr = a ++ ENow t :: b -> now c0 a <= t.

(** [ev] ends the waits pending on [k], or the wait [w]: reset, cancel and
    destruction of the timer; cancellation of the coroutine; and a new await of
    the same sleep object that has to wait. *)
Definition ends (w : nat) (k : key) (ev : event) : Prop :=
  match ev with
  | EReset i _ | ECancel i => k = Tm i
  | EDestroy k' => k = k'
  | ESignal w' => w = w'
  | ESuspend w' (Sl i) => k = Sl i /\ w <> w'
  | _ => False
  end.

Definition is_sched (l : label) : Prop :=
  match l with LFire _ | LRun => True | _ => False end.

(** Nothing is left for the scheduler to do: no completion is queued, and no
    step of it would queue one. *)
Definition idle (s : st) : Prop :=
  forall ls s' ev, Forall is_sched ls -> run s ls = Some (s', ev) -> ev = [].

Fixpoint ndone (w : nat) (tr : list event) : nat :=
  match tr with
  | [] => O
  | EDone w' _ :: tr' => (if Nat.eqb w' w then S (ndone w tr') else ndone w tr')
  | _ :: tr' => ndone w tr'
  end.
