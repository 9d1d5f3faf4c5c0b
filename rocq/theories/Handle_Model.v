(** * Model of unique_handle: /repo/include/boost/cobalt/unique_handle.hpp

    Any number of handle variables (numbered) and coroutine frames (numbered).  A handle holds
    a std::unique_ptr whose deleter destroys the frame (lines 127-133, 224-230).
    [typed] is true for unique_handle<T> and false for unique_handle<void>.

    Simplifications: a frame is a number and its being alive; what a coroutine does
    when it is resumed is reduced to whether it ends and destroys itself.  The source
    location of handler tracking is left out.  unique_handle<noop_coroutine_promise> (243-272) owns nothing
    and is not modelled. *)
From Coq Require Import List Bool Arith.
Import ListNotations.

Definition frame := nat.

Record state := mk
  { handles : list (option frame);   (** handle_ of the handle variables, lines 140, 237 *)
    dead : list frame }.             (** destroyed frames, most recent first *)

Inductive label :=
| LNew (o : option frame)          (** unique_handle(p), unique_handle(nullptr), from_promise, from_address *)
| LMove (h g : nat)                (** h = std::move(g) *)
| LReset (h : nat) (o : option frame)
| LDestroy (h : nat)               (** destroy(), and the destructor *)
| LRelease (h : nat)               (** the caller gets the raw handle *)
| LResume (h : nat) (ends : bool)      (** h.resume(), h() *)
| LResumeMoved (h : nat) (ends : bool) (** std::move(h).resume(), std::move(h)() *)
| LUse (h : nat)                   (** promise(), operator*, done() *)
| LRaw (f : frame) (ends : bool).  (** the holder of a raw handle resumes (ends: or destroys) it *)

Inductive event :=
| EAdopt (f : frame)      (** a handle takes a frame from the caller *)
| EDestroy (f : frame)    (** a handle destroys a frame *)
| EGiven (f : frame)      (** a handle gives a frame away: to the caller, or to itself by running it *)
| ERun (f : frame)
| EEnd (f : frame)        (** the frame destroys itself at its end *)
| ENull                   (** undefined: an empty handle is used *)
| EDead (f : frame).      (** undefined: a destroyed frame is used *)

Definition alive (s : state) (f : frame) : bool := negb (existsb (Nat.eqb f) (dead s)).
Definition get (s : state) (h : nat) : option frame := nth h (handles s) None.
Fixpoint upd (l : list (option frame)) (h : nat) (o : option frame) : list (option frame) :=
  match l, h with
  | [], _ => []
  | _ :: r, 0 => o :: r
  | x :: r, S k => x :: upd r k o
  end.
Definition put (s : state) (h : nat) (o : option frame) : state := mk (upd (handles s) h o) (dead s).

(** the deleter: 129-132, 226-229 *)
Definition destroy (s : state) (o : option frame) : state * list event :=
  match o with
  | None => (s, [])
  | Some f => (mk (handles s) (f :: dead s), if alive s f then [EDestroy f] else [EDestroy f; EDead f])
  end.
(** the frame goes on, and perhaps ends *)
Definition resume (s : state) (f : frame) (ends : bool) : state * list event :=
  if alive s f then
    if ends then (mk (handles s) (f :: dead s), [ERun f; EEnd f]) else (s, [ERun f])
  else (s, [EDead f]).
Definition adopt (o : option frame) : list event := match o with Some f => [EAdopt f] | None => [] end.

Section Typed.
Variable typed : bool.

(** release() of an empty handle: 30-33 dereferences the pointer, 157-160 does not *)
Definition release (s : state) (h : nat) : state * list event :=
  match get s h with
  | None => (s, if typed then [ENull] else [])
  | Some f => (put s h None, [EGiven f])
  end.

Definition step (s : state) (l : label) : option (state * list event) :=
  match l with
  (* 21-28, 38-54, 82-99, 149-156, 162-180 *)
  | LNew o => Some (mk (handles s ++ [o]) (dead s), adopt o)
  | _ =>
  let h := match l with LNew _ | LRaw _ _ => 0 | LMove h _ | LReset h _ | LDestroy h | LRelease h
                      | LResume h _ | LResumeMoved h _ | LUse h => h end in
  if match l with LRaw _ _ => false | LMove _ g => negb (g <? length (handles s)) | _ => false end then None else
  if match l with LRaw _ _ => false | _ => negb (h <? length (handles s)) end then None else
  match l with
  | LNew _ => None
  (* the implicit move assignment: unique_ptr's, reset(g.release()) *)
  | LMove _ g =>
      let s1 := put s g None in
      let old := get s1 h in
      Some (destroy (put s1 h (get s g)) old)
  (* 111-119, 208-217 *)
  | LReset _ o => let '(s1, e) := destroy (put s h o) (get s h) in Some (s1, adopt o ++ e)
  (* 60, 203 *)
  | LDestroy _ => Some (destroy (put s h None) (get s h))
  | LRelease _ => Some (release s h)
  (* 62-69, 185-192 *)
  | LResume _ ends => Some (match get s h with None => (s, [ENull]) | Some f => resume s f ends end)
  (* 71-78, 194-201 *)
  | LResumeMoved _ ends =>
      Some (match get s h with
            | None => (s, [ENull])
            | Some f => let '(s1, e) := release s h in let '(s2, e2) := resume s1 f ends in (s2, e ++ e2)
            end)
  (* 57, 80, 101-102, 183 *)
  | LUse _ => Some (match get s h with
                    | None => (s, [ENull])
                    | Some f => (s, if alive s f then [] else [EDead f])
                    end)
  | LRaw f ends => Some (resume s f ends)
  end
  end.

Definition init : state := mk [] [].

(** a history *)
Fixpoint run (s : state) (ls : list label) : option (state * list event) :=
  match ls with
  | [] => Some (s, [])
  | l :: r => match step s l with
              | None => None
              | Some (s1, e1) => match run s1 r with None => None | Some (s2, e2) => Some (s2, e1 ++ e2) end
              end
  end.
End Typed.
