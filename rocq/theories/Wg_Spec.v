(** * Specification vocabulary for wait_group, read off the trace *)
From Coq Require Import List Bool Arith Lia.
From Verif Require Import Wg_Model.
Import ListNotations.

Definition mem (p : pid) (l : list pid) : bool := existsb (fun q => q =? p) l.
Definition without (rm l : list pid) : list pid := filter (fun p => negb (mem p rm)) l.

(** what an event takes out of the group *)
Definition removed (e : event) : list pid :=
  match e with EOne _ rm | EAll rm | EReap rm => rm | _ => [] end.

Definition gstep (g : list pid) (e : event) : list pid :=
  match e with EPush p => g ++ [p] | _ => without (removed e) g end.

(** the group after a trace: what was pushed and not removed, in order *)
Definition group (tr : list event) : list pid := fold_left gstep tr [].

Definition finished (tr : list event) (p : pid) : bool :=
  existsb (fun e => match e with EFinish q _ => q =? p | _ => false end) tr.

(** somebody has taken p's result: a wait_one that reported it, or a wait that
    began when p was in the group *)
Definition consumed (tr : list event) (p : pid) : bool :=
  existsb (fun e => match e with
                    | EOne (Some (q, _)) _ => q =? p
                    | EAllBegin ps => mem p ps
                    | _ => false end) tr.

(** p got a cancellation signal *)
Definition signalled (tr : list event) (p : pid) (ct : ctype) : Prop := In (ECancel p ct) tr.

(** the wait_one / wait that is pending at the end of the trace, with the group
    it began with *)
Definition wstep (gw : list pid * wait) (e : event) : list pid * wait :=
  (gstep (fst gw) e,
   match e with
   | EOneBegin => WOne (fst gw)
   | EAllBegin _ => WAll (fst gw)
   | EOne _ _ | EAll _ => NoWait
   | _ => snd gw
   end).

Definition open_wait (tr : list event) : wait := snd (fold_left wstep tr ([], NoWait)).
