(** * Model of moving generators

    Sources (paths relative to /repo/include/boost/cobalt): detail/generator.hpp, generator.hpp.  Line
    numbers without a file name are those of detail/generator.hpp.

    Gen_Model.v has one generator that is never moved.  Here there are any number of generator
    objects (numbered) and coroutines (numbered); a coroutine has a pointer to the object it belongs to
    (generator_promise::receiver, 447), an object a pointer to that pointer (reference, 158), and an
    awaitable a pointer to the object it was made from (self, 181).  The code is the same as
    in Gen_Model.v, every access goes through these pointers; new are the move
    constructor, the move assignment and objects that have been moved from.

    - [mf], [mfp]: what is left of a value that has been moved from: a moved-from optional stays engaged.
    - A moved-from exception_ptr is null, a moved-from unique_handle empty.
    - [r_gid] is a ghost: which generator the object currently is ([None]: moved from).
    - Interrupting an awaiter of a generator that was moved meanwhile is not modelled.
    - A step that accesses an object or a coroutine that does not exist any more is the
      last one ([ub]). *)
From Coq Require Import List Bool Arith.
From Verif Require Import Gen_Model.
Import ListNotations.

Section Gmv.
Context {Y P E : Type} (mf : Y -> Y) (mfp : P -> P) (novalue : bool).

(** Exceptions: those of the user and moved_from_exception(). *)
Inductive xt := User (e : E) | MovedFrom.
Notation exn := (exn xt).
Notation event := (event Y P xt).
Notation label := (label Y P xt).

(** generator_receiver (72-107, 158-159). *)
Record recv := mkR {
  r_gid : option nat;
  r_res : option Y; r_buf : option Y; r_exc : option exn; r_done : bool;
  r_aw : option nat;               (* awaited_from *)
  r_yf : option nat;               (* yield_from *)
  r_lazy : bool; r_pushed : option P;
  r_ref : option nat }.            (* reference and cancel_signal: in the frame of this coroutine *)

(** An object: not there; there; in its destructor; in its move assignment; gone. *)
Inductive ostate := OAbsent | OLive (r : recv) | ODying (r : recv) | OAssign (r : recv) | OGone.
(** An awaiting coroutine: suspended in an awaitable of object [o], cancellation forwarded to coroutine [c]. *)
Inductive mw := MIdle | MSusp (o c : nat) (tp : option P) | MKilled.

(** All objects, coroutines and awaiters (generator_receiver 72-342, generator_promise 344-493). *)
Record mst := mkM {
  objs : nat -> ostate;
  ccst : nat -> cstate;            (* coroutines, as in Gen_Model.v *)
  crecp : nat -> option nat;       (* 447: generator_promise::receiver *)
  cini : nat -> bool;              (* ghost: has awaited this_coro::initial *)
  mws : nat -> mw;
  ub : bool }.
(** Nothing exists. *)
Definition minit : mst := mkM (fun _ => OAbsent) (fun _ => NotYet) (fun _ => None) (fun _ => false) (fun _ => MIdle) false.

(** What can be observed. *)
Inductive mevent :=
| Ev (g : option nat) (e : event)   (* something happens to generator g; None: to an object that has been moved from *)
| EvMove (o o' : nat).              (* o is moved to o' *)

(** The receiver in object [o] (generator.hpp:61: receiver_), if there is an object. *)
Definition robj (m : mst) (o : nat) : option recv :=
  match objs m o with OLive r | ODying r | OAssign r => Some r | _ => None end.
(** Assignments to the members of objects, coroutine promises and awaiters (75-93, 158-159, 447); [crash]: an access to something that is not there. *)
Definition set_obj o x m := mkM (upd (objs m) o x) (ccst m) (crecp m) (cini m) (mws m) (ub m).
Definition put o r m :=
  match objs m o with
  | OLive _ => set_obj o (OLive r) m
  | ODying _ => set_obj o (ODying r) m
  | OAssign _ => set_obj o (OAssign r) m
  | _ => m
  end.
Definition set_ccst c x m := mkM (objs m) (upd (ccst m) c x) (crecp m) (cini m) (mws m) (ub m).
Definition set_recp c x m := mkM (objs m) (ccst m) (upd (crecp m) c x) (cini m) (mws m) (ub m).
Definition set_ini c m := mkM (objs m) (ccst m) (crecp m) (upd (cini m) c true) (mws m) (ub m).
Definition set_mw w x m := mkM (objs m) (ccst m) (crecp m) (cini m) (upd (mws m) w x) (ub m).
Definition crash (g : option nat) (b : bad) m : mst * list mevent :=
  (mkM (objs m) (ccst m) (crecp m) (cini m) (mws m) true, [Ev g (EBad b)]).

(** Assignments to the members of a receiver (44, 60, 75-93). *)
Definition sr_vals x y r := mkR (r_gid r) x y (r_exc r) (r_done r) (r_aw r) (r_yf r) (r_lazy r) (r_pushed r) (r_ref r).
Definition sr_exc x r := mkR (r_gid r) (r_res r) (r_buf r) x (r_done r) (r_aw r) (r_yf r) (r_lazy r) (r_pushed r) (r_ref r).
Definition sr_done x r := mkR (r_gid r) (r_res r) (r_buf r) (r_exc r) x (r_aw r) (r_yf r) (r_lazy r) (r_pushed r) (r_ref r).
Definition sr_aw x r := mkR (r_gid r) (r_res r) (r_buf r) (r_exc r) (r_done r) x (r_yf r) (r_lazy r) (r_pushed r) (r_ref r).
Definition sr_yf x r := mkR (r_gid r) (r_res r) (r_buf r) (r_exc r) (r_done r) (r_aw r) x (r_lazy r) (r_pushed r) (r_ref r).
Definition sr_lazy x r := mkR (r_gid r) (r_res r) (r_buf r) (r_exc r) (r_done r) (r_aw r) (r_yf r) x (r_pushed r) (r_ref r).
Definition sr_pushed x r := mkR (r_gid r) (r_res r) (r_buf r) (r_exc r) (r_done r) (r_aw r) (r_yf r) (r_lazy r) x (r_ref r).

(** The frame of coroutine [c] exists (final_suspend, 385-425, and the destruction of a handle end it). *)
Definition cframe (m : mst) (c : nat) : bool :=
  match ccst m c with Running | Yielding | Posted | Returning | Leaked => true | _ => false end.

(** 95 *)
Definition rready (r : recv) : bool := is_some (r_exc r) || is_some (r_res r) || r_done r.
(** 77-88 *)
Definition rget_result (r : recv) : recv := sr_vals (r_buf r) None r.

(** await_resume (267-318) through [self] = [o]. *)
Definition m_await_resume (o w : nat) (tp : option P) (m : mst) : mst * list mevent :=
  match robj m o with
  | None => crash None BFrame m
  | Some r =>
      match r_exc r with
      | Some e => (put o (sr_exc None r) m, [Ev (r_gid r) (EResult w (RExc e))])
      | None =>
          match r_res r with
          | None => (m, [Ev (r_gid r) (EResult w (RExc XVoid))])
          | Some y =>
              let (r1, ev) := match tp with
                              | Some p => (sr_pushed (Some p) r, match r_pushed r with Some q => [EOverwrite q] | None => [] end)
                              | None => (r, [])
                              end in
              let (r2, m2) := match r_yf r1 with
                              | Some c => if r_lazy r1 then (r1, m) else (sr_yf None r1, set_ccst c Posted m)
                              | None => (r1, m)
                              end in
              (put o (rget_result r2) m2, map (Ev (r_gid r)) (ev ++ [EResult w (RVal y)]))
          end
      end
  end.

(** The coroutine awaiting the generator is resumed (525-533, 570-579, 385-425): it goes on in await_resume of its awaitable. *)
Definition m_resume (g : option nat) (w : nat) (m : mst) : mst * list mevent :=
  match mws m w with
  | MSusp o _ tp => m_await_resume o w tp (set_mw w MIdle m)
  | _ => (m, [Ev g (EBad BNull)])
  end.

(** await_resume of the yield awaitable (536-541, 582-586) *)
Definition m_continue (c : nat) (m : mst) : mst * list mevent :=
  match crecp m c with
  | None => crash (Some c) BFrame m
  | Some o =>
      match robj m o with
      | None => crash (Some c) BFrame m
      | Some r =>
          match r_pushed r with
          | Some p => (set_ccst c Running (put o (sr_pushed None r) m), [Ev (Some c) (EPush p)])
          | None => (m, [Ev (Some c) (EBad BNoPush)])
          end
      end
  end.

(** awaited_from is destroyed with the awaiting coroutine in it (90). *)
Definition m_kill (g : option nat) (o : option nat) (m : mst) : mst * list mevent :=
  match o with
  | Some w => (set_mw w MKilled m, [Ev g (EKilled w)])
  | None => (m, [])
  end.

(** 495-588, coroutine [c], which points to the object [o]. *)
Definition m_arrive (c o : nat) (m : mst) : mst * list mevent :=
  match robj m o with
  | None => crash (Some c) BFrame m
  | Some r =>
  if is_some (r_pushed r) && (novalue || negb (is_some (r_res r))) then m_continue c m
  else
    let m1 := set_ccst c Yielding (put o (sr_aw None (sr_yf (Some c) r)) m) in
    match r_aw r with
    | Some w => m_resume (Some c) w m1
    | None => (m1, [])
    end
  end.

(** 166-177 *)
Definition m_store (y : Y) (r : recv) : option recv :=
  match r_res r, r_buf r with
  | None, b => Some (sr_vals (Some y) b r)
  | Some x, None => Some (sr_vals (Some x) (Some y) r)
  | Some _, Some _ => None
  end.

(** 385-425, 482-491, coroutine [c] *)
Definition m_final (c : nat) (m : mst) : mst * list mevent :=
  let m1 := set_ccst c Dead (set_recp c None m) in
  match crecp m c with
  | Some o =>
      match robj m o with
      | None => crash (Some c) BFrame m
      | Some r =>
          let m2 := put o (sr_aw None (sr_done true r)) m1 in
          match r_aw r with
          | None => (m2, [Ev (Some c) EFinal])
          | Some w => let (m3, ev) := m_resume (Some c) w m2 in (m3, Ev (Some c) EFinal :: ev)
          end
      end
  | None => (m1, [Ev (Some c) EFinal])
  end.

(** generator.hpp:90-95 *)
Definition m_cancel (o t : nat) (r : recv) (m : mst) : mst * list mevent :=
  if r_done r then (m, [])
  else match r_ref r with
       | None => crash (r_gid r) BFrame m
       | Some c =>
           if cframe m c then (m, match crecp m c with Some o' => if o' =? o then [Ev (Some c) (ESignal t)] else [] | None => [] end)
           else crash (r_gid r) BFrame m
       end.

(** What is left of an object that has been moved from (100-115, 137-153): [r] before. *)
Definition husk (r : recv) : recv :=
  mkR None (option_map mf (r_res r)) (option_map mf (r_buf r))
      (if r_done r then None else Some (XUser MovedFrom))
      true None None (r_lazy r) (option_map mfp (r_pushed r)) (r_ref r).

(** 109-114, 148-153: the coroutine of [r] now belongs to [o]. *)
Definition take_over (o : nat) (r : recv) (m : mst) : option mst :=
  if r_done r then Some m
  else match r_ref r with
       | Some c => if cframe m c then Some (set_recp c (Some o) m) else None
       | None => None
       end.

(** yield_from and awaited_from are destroyed (90-91, 142-143). *)
Definition release (r : recv) (m : mst) : mst * list mevent :=
  let (m1, ev1) := match r_yf r with Some c => (set_ccst c Dead m, [Ev (r_gid r) EDiscard]) | None => (m, []) end in
  let (m2, ev2) := m_kill (r_gid r) (r_aw r) m1 in
  (m2, ev1 ++ ev2).

(** 119-120, 132-134: if *reference == this, then *reference = nullptr *)
Definition unref (o c : nat) (m : mst) : mst :=
  match crecp m c with Some o' => if o' =? o then set_recp c None m else m | None => m end.

(** What the coroutine [c] does, which points to [x] (generator_promise, 344-493). *)
Definition mco (c : nat) (l : label) (x : option (nat * recv)) (m : mst) : option (mst * list mevent) :=
  match l, ccst m c with
  | LInitial, Running =>                                        (* 449-458 *)
      match x with
      | Some (o, r) => let (m1, ev) := m_arrive c o (put o (sr_lazy true r) (set_ini c m)) in Some (m1, Ev (Some c) EInitial :: ev)
      | None => Some (set_ccst c Dead (set_ini c m), [Ev (Some c) EDiscard])
      end
  | LYield y, Running =>                                        (* 460-471 *)
      match x with
      | Some (o, r) =>
          match m_store y r with
          | None => Some (m, [Ev (Some c) (EBad BBuffer)])
          | Some r1 => let (m2, ev) := m_arrive c o (put o r1 m) in Some (m2, Ev (Some c) (EYield y) :: ev)
          end
      | None => Some (set_ccst c Dead m, [Ev (Some c) (ELost y); Ev (Some c) EDiscard])
      end
  | LReturn y, Running =>                                       (* 435-445 *)
      match x with
      | Some (o, r) =>
          match m_store y r with
          | None => Some (m, [Ev (Some c) (EBad BBuffer)])
          | Some r1 => Some (set_ccst c Returning (put o r1 m), [Ev (Some c) (EReturn y)])
          end
      | None => Some (set_ccst c Returning m, [Ev (Some c) (ELost y)])
      end
  | LThrow e, Running =>                                        (* 427-433 *)
      match x with
      | Some (o, r) => let (m1, ev) := m_final c (put o (sr_exc (Some (XUser e)) r) m) in Some (m1, Ev (Some c) (EThrow e) :: ev)
      | None => Some (set_ccst c Leaked m, [Ev (Some c) (EThrow e); Ev (Some c) (EEscape e)])
      end
  | LFinal, Returning => Some (m_final c m)
  | LKill, Running =>                                           (* 482-491 *)
      let m1 := set_ccst c Dead (set_recp c None m) in
      match x with
      | Some (o, r) =>
          let x := match r_done r, r_exc r with false, None => Some XUnexpected | _, x => x end in
          let (m2, ev) := m_kill (Some c) (r_aw r) (put o (sr_aw None (sr_exc x (sr_done true r))) m1) in
          Some (m2, Ev (Some c) EKill :: ev)
      | None => Some (m1, [Ev (Some c) EKill])
      end
  | LJob, Posted =>                                             (* 310-314 *)
      match x with
      | Some _ => Some (m_continue c m)
      | None => Some (set_ccst c Dead m, [Ev (Some c) EDiscard])
      end
  | _, _ => None
  end.

(** What can happen: see the lines cited in [mstep]. *)
Inductive mlabel :=
| MNew (o g : nat) | MNoop (o g : nat) (y : Y)
| MCo (c : nat) (l : label)           (* what the coroutine c does *)
| MOb (o : nat) (l : label)           (* what is done to the object o *)
| MInt (w : nat) | MSig (w t : nat)
| MMove (o o' : nat)                  (* generator o'(std::move(o)) *)
| MAssign1 (o' : nat)                 (* o' = std::move(o): first cancel() (generator.hpp:115), then the receiver (116) *)
| MAssign2 (o' o : nat).

(** One step; nothing happens after undefined behaviour.  Simplification: self-assignment is left out. *)
Definition mstep (l : mlabel) (m : mst) : option (mst * list mevent) :=
  if ub m then None else
  match l with
  (* 123-127 *)
  | MNew o g =>
      match objs m o, ccst m g with
      | OAbsent, NotYet =>
          Some (set_obj o (OLive (mkR (Some g) None None None false None None false None (Some g))) (set_ccst g Running (set_recp g (Some o) m)), [])
      | _, _ => None
      end
  (* 97 *)
  | MNoop o g y =>
      match objs m o, ccst m g with
      | OAbsent, NotYet =>
          Some (set_obj o (OLive (mkR (Some g) (Some y) None None true None None false None None)) (set_ccst g Dead m),
                [Ev (Some g) (EReturn y); Ev (Some g) EFinal])
      | _, _ => None
      end
  | MCo c l =>
      match crecp m c with
      | None => mco c l None m
      | Some o =>
          match robj m o with
          | Some r => mco c l (Some (o, r)) m
          | None => match ccst m c with Running | Returning | Posted => Some (crash (Some c) BFrame m) | _ => None end
          end
      end
  | MOb o l =>
      match l, objs m o with
      | LAwait w p, OLive r =>                                      (* 200-250 *)
          match mws m w with
          | MIdle =>
              if rready r then let (m1, ev) := m_await_resume o w (Some p) m in Some (m1, Ev (r_gid r) (EAwait w p) :: ev)
              else match r_aw r, r_ref r with
                   | Some _, _ => Some (m, [Ev (r_gid r) (EReject w)])
                   | None, Some c =>
                       let push := r_lazy r && negb (is_some (r_pushed r)) in
                       let r1 := sr_aw (Some w) (if push then sr_pushed (Some p) r else r) in
                       let m1 := set_mw w (MSusp o c (if push then None else Some p)) m in
                       let (m2, ev) := match r_yf r with
                                       | Some c' => m_continue c' (put o (sr_yf None r1) m1)
                                       | None => (put o r1 m1, [])
                                       end in
                       Some (m2, Ev (r_gid r) (EAwait w p) :: ev)
                   | None, None => None
                   end
          | _ => None
          end
      | LGet, OLive r =>                                            (* generator.hpp:100-106 *)
          match r_exc r, r_res r with
          | Some e, _ => Some (m, [Ev (r_gid r) (EGet (RExc e))])
          | None, Some y => Some (put o (rget_result r) m, [Ev (r_gid r) (EGet (RVal y))])
          | None, None => Some (m, [Ev (r_gid r) (EBad BEmpty)])
          end
      | LCancel t, OLive r => Some (m_cancel o t r m)
      | LDestroy1, OLive r =>                                       (* generator.hpp:108-109 *)
          let (m1, ev) := m_cancel o ct_all r m in Some (set_obj o (ODying r) m1, ev)
      | LDestroy2, ODying r =>                                      (* 117-121, then the members *)
          let x := if r_done r then Some m
                   else match r_ref r with
                        | Some c => if cframe m c then Some (unref o c m) else None
                        | None => None
                        end in
          match x with
          | None => Some (crash (r_gid r) BFrame m)
          | Some m1 =>
              let (m2, ev2) := release r m1 in
              Some (set_obj o OGone m2, Ev (r_gid r) EDestroy :: ev2)
          end
      | _, _ => None
      end
  (* 320-328 *)
  | MInt w =>
      match mws m w with
      | MSusp o c _ =>
          match robj m o with
          | Some r =>
              match r_aw r with
              | Some w' => if w' =? w then Some (put o (sr_aw None r) (set_mw w MIdle m), [Ev (r_gid r) (EInterrupt w); Ev (r_gid r) (EResult w (RExc XDetached))])
                           else None
              | None => None
              end
          | None => None
          end
      | _ => None
      end
  (* 219-221 *)
  | MSig w t =>
      match mws m w with
      | MSusp _ c _ => Some (m, [Ev (Some c) (if cframe m c then ESignal t else EBad BFrame)])
      | _ => None
      end
  (* 100-115 *)
  | MMove o o' =>
      match objs m o, objs m o' with
      | OLive r, OAbsent =>
          match take_over o' r m with
          | Some m1 => Some (set_obj o' (OLive r) (set_obj o (OLive (husk r)) m1), [EvMove o o'])
          | None => Some (crash (r_gid r) BFrame m)
          end
      | _, _ => None
      end
  (* generator.hpp:115 *)
  | MAssign1 o' =>
      match objs m o' with
      | OLive r => let (m1, ev) := m_cancel o' ct_all r m in Some (set_obj o' (OAssign r) m1, ev)
      | _ => None
      end
  (* 130-156 *)
  | MAssign2 o' o =>
      match objs m o', objs m o with
      | OAssign r', OLive r =>
          let x := match r_ref r' with                              (* 132-135: whatever done is *)
                   | Some c => if cframe m c then Some (unref o' c m) else None
                   | None => Some m
                   end in
          match x with
          | None => Some (crash (r_gid r') BFrame m)
          | Some m1 =>
              let (m2, ev2) := release r' m1 in
              match take_over o' r m2 with
              | Some m3 => Some (set_obj o' (OLive r) (set_obj o (OLive (husk r)) m3), Ev (r_gid r') EDestroy :: ev2 ++ [EvMove o o'])
              | None => Some (crash (r_gid r) BFrame m)
              end
          end
      | _, _ => None
      end
  end.

(** Any sequence of steps. *)
Fixpoint mrun (m : mst) (ls : list mlabel) : option (mst * list mevent) :=
  match ls with
  | [] => Some (m, [])
  | l :: t =>
      match mstep l m with
      | None => None
      | Some (m1, e1) => match mrun m1 t with None => None | Some (m2, e2) => Some (m2, e1 ++ e2) end
      end
  end.
End Gmv.
Arguments xt : clear implicits.
Arguments mst : clear implicits.
Arguments mevent : clear implicits.
Arguments mlabel : clear implicits.
Arguments recv : clear implicits.
