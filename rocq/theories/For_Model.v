(** * Model of BOOST_COBALT_FOR over a generator
    /repo/include/boost/cobalt/async_for.hpp lines 10-15, with the generator of Gen_Model.v.

    The loop is the only user of the generator (which takes no pushed values:
    co_await of the generator itself is only there then, generator.hpp:71-72); it is consumer
    number 0.  The body may suspend, so everything else can happen while it runs; it may
    leave the loop.  The generator is destroyed after the loop only (it is bound to the
    reference of line 11). *)
From Coq Require Import List Bool Arith.
From Verif Require Import Gen_Model.
Import ListNotations.

Section For.
Context {Y E : Type}.
Notation gstate := (Gen_Model.state Y unit E).
Notation gevent := (Gen_Model.event Y unit E).
Notation glabel := (Gen_Model.label Y unit E).
Notation exn := (Gen_Model.exn E).

Inductive pc :=
| Body        (** in the body, or before the first turn *)
| Waiting     (** suspended in the co_await of line 12 *)
| Left        (** behind the loop *)
| Threw       (** the co_await threw *)
| Killed.     (** destroyed while suspended *)

Record state := mk { gen : gstate; at_ : pc }.

Inductive event :=
| G (e : gevent)     (** what the generator does *)
| Visit (y : Y)      (** the body starts with this value *)
| Leave              (** the condition was false *)
| Throw (x : exn).   (** the loop is left with an exception *)

Inductive label :=
| FGen (l : glabel)   (** the generator's coroutine goes on, or it is cancelled, or destroyed *)
| FNext               (** the end of the body, and line 11's condition, and the start of line 12 *)
| FBreak.             (** the body leaves the loop *)

(** operator bool: generator.hpp:84-88 *)
Definition condition (g : gstate) : bool := negb (done g) || is_some (res g) || is_some (exc g).

(** the co_await of line 12 gives its result to the loop *)
Definition react (e : gevent) : list event :=
  G e :: match e with
         | EResult 0 (RVal y) => [Visit y]
         | EResult 0 (RExc x) => [Throw x]
         | EReject 0 => [Throw XAlready]
         | _ => []
         end.
(** ... and the loop's coroutine goes on *)
Definition move (p : pc) (e : gevent) : pc :=
  match e with
  | EResult 0 (RVal _) => Body
  | EResult 0 (RExc _) | EReject 0 => Threw
  | EKilled 0 => Killed
  | _ => p
  end.

(** what can happen to the generator besides the loop *)
Definition besides (p : pc) (l : glabel) : bool :=
  match l with
  | LAwait _ _ | LInterrupt _ | LGet => false
  | LSignal w _ => w =? 0
  | LDestroy1 | LDestroy2 => match p with Left | Threw | Killed => true | _ => false end
  | _ => true
  end.

Definition apply (s : state) (p : pc) (l : glabel) : option (state * list event) :=
  match step true l (gen s) with
  | None => None
  | Some (g, es) => Some (mk g (fold_left move es p), flat_map react es)
  end.

Definition fstep (s : state) (l : label) : option (state * list event) :=
  match l, at_ s with
  | FGen l, p => if besides p l then apply s p l else None
  | FNext, Body =>
      if condition (gen s) then apply s Waiting (LAwait 0 tt) else Some (mk (gen s) Left, [Leave])
  | FBreak, Body => Some (mk (gen s) Left, [])
  | _, _ => None
  end.

Definition finit : state := mk init Body.

(** a history; None: not possible *)
Fixpoint frun (s : state) (ls : list label) : option (state * list event) :=
  match ls with
  | [] => Some (s, [])
  | l :: r => match fstep s l with
              | None => None
              | Some (s1, e1) => match frun s1 r with None => None | Some (s2, e2) => Some (s2, e1 ++ e2) end
              end
  end.
End For.
Arguments state Y E : clear implicits.
Arguments event Y E : clear implicits.
Arguments label Y E : clear implicits.
