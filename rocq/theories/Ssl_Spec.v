(** * What users of sockets and of ssl::stream rely on *)
From Coq Require Import List Bool Arith Lia.
From Verif Require Import Ssl_Model.
Import ListNotations.

(** Whether a handshake has succeeded on object [o] (or on the object that it was moved from) and
    no shutdown since, from the history of calls and results, oldest first *)
Fixpoint secured (h : list (label * out)) (f : nat -> bool) : nat -> bool :=
  match h with
  | [] => f
  | x :: r =>
      secured r
        match x with
        | (LNew o _, _) => upd f o false
        | (LMove o o', _) => upd (upd f o false) o' (f o)
        | (LHandshake o _, OOk) => upd f o true
        | (LShutdown o, OOk) => upd f o false
        | _ => f
        end
  end.

Definition is_ssl (s : state) (o : nat) : Prop := exists x, obs s o = Some x /\ kd x = KSsl.
(** The descriptor that reading and writing use *)
Definition desc (s : state) (o : nat) : option nat := match obs s o with Some x => fd x | None => None end.

(** A stream does what it should in this step: [sec] tells which are secured. *)
Definition keeps (sec : nat -> bool) (s : state) (l : label) (r : out) (s' : state) : Prop :=
  match l with
  | LWrite o b => is_ssl s o -> forall d, desc s o = Some d ->
      r = OOk /\ sent s' d = sent s d ++ [if sec o then Cipher b else Clear b]
  | LRead o => is_ssl s o -> forall d b t, desc s o = Some d ->
      inbox s d = (if sec o then Cipher b else Clear b) :: t -> r = OData b /\ inbox s' d = t
  | LSecure o => r = OBool (sec o)
  | LHandshake o ok => if sec o then r = OErr already_started else r <> OErr already_started
  | LShutdown o => if sec o then r = OOk else r = OErr no_protocol_option
  | _ => True
  end.

(** The socket interface acts on the object's own descriptor. *)
Definition own (s : state) (l : label) (r : out) (s' : state) : Prop :=
  match l with
  | LOpen o => (desc s o = None -> r = OOk /\ desc s' o <> None) /\ (desc s o <> None -> r = OErr already_started /\ desc s' o = desc s o)
               /\ forall q, q <> o -> desc s' q = desc s q
  | LClose o => r = OOk /\ desc s' o = None /\ forall q, q <> o -> desc s' q = desc s q
  | LIsOpen o => (r = OBool true /\ desc s o <> None) \/ (r = OBool false /\ desc s o = None)
  | _ => True
  end.

Definition subject (l : label) : option nat :=
  match l with LOpen o | LClose o | LIsOpen o => Some o | _ => None end.

(** No ssl::stream is moved *)
Fixpoint unmoved (s : state) (ls : list label) : Prop :=
  match ls with
  | [] => True
  | l :: r =>
      match l with LMove o _ => ~ is_ssl s o | _ => True end /\
      match step s l with Some (s1, _) => unmoved s1 r | None => True end
  end.
