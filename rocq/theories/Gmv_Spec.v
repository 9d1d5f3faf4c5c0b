(** * Reading a trace of generators that are moved (for C66) *)
From Coq Require Import List Bool Arith.
From Verif Require Import Gen_Model Gmv_Model.
Import ListNotations.

Section Spec.
Context {Y P E : Type}.
Notation mst := (mst Y P E).
Notation mevent := (mevent Y P E).
Notation mlabel := (mlabel Y P E).

(** What happened to generator [g], whichever object it was in. *)
Definition history (g : nat) : list mevent -> list (event Y P (xt E)) :=
  flat_map (fun e => match e with Ev (Some g') x => if g' =? g then [x] else [] | _ => [] end).

(** Which generator is in which object, read from what the program did: a new generator is where it was
    made, moving takes it from one object to the other, destroying an object destroys it. *)
Definition place1 (f : nat -> option nat) (l : mlabel) : nat -> option nat :=
  fun o => match l with
           | MNew a g | MNoop a g _ => if o =? a then Some g else f o
           | MOb a LDestroy2 => if o =? a then None else f o
           | MMove a b | MAssign2 b a => if o =? b then f a else if o =? a then None else f o
           | _ => f o
           end.
Definition place (ls : list mlabel) : nat -> option nat := fold_left place1 ls (fun _ => None).
(** The generator in object [o]. *)
Definition gid_at (m : mst) (o : nat) : option nat := match robj m o with Some r => r_gid r | None => None end.
(** Nobody is interrupted and get() is not used. *)
Definition quiet (tr : list (event Y P (xt E))) : Prop := forall e, In e tr -> match e with EInterrupt _ | EGet _ => False | _ => True end.

(** Something undefined happened. *)
Definition mundefined (tr : list mevent) : Prop := exists g b, In (Ev g (EBad b)) tr.

(** The coroutine of the object still exists, or there never was one (a generator made from a value). *)
Definition has_coroutine (m : mst) (o : nat) : bool :=
  match robj m o with
  | Some r => match r_ref r with Some c => cframe m c | None => true end
  | None => false
  end.
(** Some coroutine is suspended in an await of the object. *)
Definition awaited (m : mst) (o : nat) : bool :=
  match robj m o with Some r => is_some (r_aw r) | None => false end.

(** ** Correct use
    As for a generator that is not moved ([ok] in Gen_Spec.v), and
    - a generator is not moved while somebody awaits it;
    - nothing is assigned to a generator whose coroutine has ended. *)
Definition mok (m : mst) (l : mlabel) : bool :=
  match l with
  | MCo c LInitial => negb (cini m c) && match crecp m c with Some o => negb (awaited m o) | None => true end
  | MOb o LGet =>
      match robj m o with
      | Some r => (is_some (r_exc r) || is_some (r_res r)) && (r_lazy r || negb (is_some (r_yf r)))
      | None => true
      end
  | MMove o _ => negb (awaited m o)
  | MAssign2 o' o => negb (awaited m o) && has_coroutine m o'
  | _ => true
  end.
Fixpoint mcorrect (mf : Y -> Y) (mfp : P -> P) (nv : bool) (m : mst) (ls : list mlabel) : Prop :=
  match ls with
  | [] => True
  | l :: t => mok m l = true /\ match mstep mf mfp nv l m with Some (m1, _) => mcorrect mf mfp nv m1 t | None => True end
  end.
End Spec.
