(** * What coroutines that wait for the same promises rely on *)
From Coq Require Import List Bool Arith Lia.
From Verif Require Import Paw_Model.
Import ListNotations.

(** Histories in which nobody gets in the way of a coroutine that already waits:
    a race is not started over an awaited promise, the promises of the group are
    only awaited through the group, one coroutine at a time waits on the group, and
    only a gather all of whose children wait is interrupted.  Plain co_await and
    gather of a promise that somebody else awaits are allowed. *)
Definition polite (s : state) (l : label) : Prop :=
  match l with
  | LAwait c p => ~ In p (group s)
  | LGather c ps => forall p, In p ps -> ~ In p (group s)
  | LRace c l => forall p, In p (map snd l) -> ~ In p (group s) /\ awr s p = None
  | LWait _ | LWaitOne _ _ => forall c k l, co s c <> Busy k true l
  | LInterrupt c => forall k g l h, co s c = Busy k g l -> In h l -> hs h = HWait
  | LPush _ | LFinish _ _ => True
  end.

Fixpoint polite_run (s : state) (ls : list label) : Prop :=
  match ls with
  | [] => True
  | l :: r => polite s l /\ match step s l with Some (s1, _) => polite_run s1 r | None => True end
  end.

(** The result of one awaited promise is right: its outcome if it has one; an
    error if somebody else awaited it; interruption only within combinators. *)
Definition right (s : state) (k : kind) (h : helper) : Prop :=
  match hs h with
  | HEnd ROk => done s (hp h) = Some true
  | HEnd RErr => done s (hp h) = Some false
  | HEnd RAlready => k <> KRace
  | HEnd RDetached => k <> KDirect
  | HEnd RUnfinished | HWait | HLost => False
  end.

Definition proper (s : state) (e : event) : Prop :=
  match e with
  | EGot c k l => forall h, In h l -> right s k h
  | EGone _ | EUb => False
  end.
