(** C85: what a user relies on about the life time of memory.  Written against labels, events and what the state
    shows; no operation of the model is used. *)
From Coq Require Import List Bool Arith.
From Verif Require Import Mrs_Model.
Import ListNotations.

(** The memory resource [r] is [c] or above it. *)
Inductive above (s : state) : nat -> nat -> Prop :=
| above_refl : forall c, above s c c
| above_up : forall c r, above s (r_up (res s c)) r -> above s c r.

(** The pools of the calls of run that thread [t] is in, innermost first, and then the pool of the thread itself if the
    library made it. *)
Definition pools (s : state) (t : nat) : list nat :=
  map s_res (scopes s t) ++ match ph s t with Plain | Absent | Ended => [] | _ => [tres s t] end.

(** The global resource or one of these. *)
Definition mine (s : state) (t r : nat) : Prop := r = 0 \/ In r (pools s t).

(** Histories: what was destroyed, allocated where, freed. *)
Definition gone (es : list event) (r : nat) : Prop := In (EGone r) es.
Definition born (es : list event) (o r : nat) : Prop := exists t, In (EAlloc t o r) es.
Definition freed (es : list event) (o : nat) : Prop := exists t, In (EFree t o) es.
Definition touches (e : event) (o : nat) : Prop := exists t, e = EFree t o \/ e = EUse t o.

(** Something is touched after it was destroyed, or after its resource was; or memory is asked from a resource
    that is destroyed. *)
Definition too_late (es : list event) : Prop :=
  exists es1 e es2, es = es1 ++ e :: es2 /\
    ((exists o, touches e o /\ (freed es1 o \/ exists r, born es1 o r /\ gone es1 r)) \/
     (exists t o r, e = EAlloc t o r /\ gone es1 r)).

(** The rule for users, one step at a time:
    - a thread touches only living objects whose memory is global or from a run it is in or its own pool;
    - an operation of a context takes only objects from that context's own pool or further out;
    - a thread object is given up before the thread's loop ends, unless nothing but global memory is pending then. *)
Definition polite (s : state) (l : label) : Prop :=
  match l with
  | Free t o | Use t o | Hand t o _ => o_live (obj s o) = true /\ mine s t (o_res (obj s o))
  | AllocAt t _ r => mine s t r
  | Queue t o c =>
      o_res (obj s o) = 0 \/ exists l1 l2, pools s t = l1 ++ c :: l2 /\ In (o_res (obj s o)) (c :: l2)
  | DropObj t t' => ph s t' = Looping \/ forall o, In o (queued s (tres s t')) -> o_res (obj s o) = 0
  | _ => True
  end.
Definition orderly (ls : list label) : Prop :=
  forall ls1 l ls2 s es, ls = ls1 ++ l :: ls2 -> run init ls1 = Some (s, es) -> polite s l.

(** A piece of a history that leaves thread [t] in the same call of run it was in: every run called is left, and none
    is left that was not called. *)
Fixpoint depth (t : nat) (ls : list label) (d : nat) : option nat :=
  match ls with
  | [] => Some d
  | RunEnter t1 :: ls' => depth t ls' (if Nat.eqb t1 t then S d else d)
  | RunLeave t1 :: ls' => if Nat.eqb t1 t then match d with 0 => None | S d' => depth t ls' d' end else depth t ls' d
  | Start _ t1 _ :: ls' => if Nat.eqb t1 t then None else depth t ls' d
  | _ :: ls' => depth t ls' d
  end.
Definition balanced (t : nat) (ls : list label) : Prop := depth t ls 0 = Some 0.

(** Nobody touches what was destroyed before. *)
Definition careful (es : list event) : Prop := forall es1 e es2 o, es = es1 ++ e :: es2 -> touches e o -> ~ freed es1 o.

(** The whole property: a careful program never touches memory that is gone. *)
Definition memory_outlives : Prop := forall ls s es, run init ls = Some (s, es) -> careful es -> ub s = false.
