(** * Model of [cobalt::promise]

    Sources (paths relative to /repo/include/boost/cobalt): detail/promise.hpp,
    promise.hpp.

    Conventions.
    - A handle is a [promise<T>] object together with its [promise_receiver];
      handles, coroutines and awaiting coroutines are numbered.  Numbers are not
      reused, so an access to a destroyed object is visible as [EBad].
    - A step is what happens between two points at which other code can run.  The
      destructor and the move assignment have two steps because they emit a
      cancellation signal first; so does the end of the coroutine, because the
      destructors of its local variables run between return_value and
      final_suspend.
    - The result type is not void.
    - After [EBad] (undefined behaviour) the state is left as it is. *)
From Coq Require Import List Bool Arith.
Import ListNotations.

Section Promise.
Context {V E : Type}.

(** Exceptions an awaiter can see (detail/exception.hpp and the coroutine's own). *)
Inductive exn := XUser (e : E) | XMoved | XDetached | XAlready | XUnexpected.
(** What a [std::optional<T>] holds: a value, or one that was moved from. *)
Inductive content := Fresh (v : V) | Hollow.
Inductive outcome := RVal (x : content) | RExc (x : exn).

Inductive life := Absent | Live | Dying | Gone.

(** promise_receiver (42-69, 90-272) and promise::attached_ (promise.hpp:78). *)
Record handle := mkH {
  life_of : life;
  done : bool;                 (* 110 *)
  exc : option exn;            (* 92 *)
  res : option content;        (* 45 *)
  taken : bool;                (* 46: result_taken *)
  aw : option nat;             (* 111: awaited_from *)
  ref : option nat;            (* 262: reference, the coroutine's receiver pointer *)
  att : bool;
  from : option nat }.         (* move assignment in progress, with its source *)

Inductive cstate :=
| NotYet
| Running
| Returning     (* return_value done, local variables are being destroyed *)
| Dead          (* frame destroyed *)
| Leaked.       (* unhandled_exception threw: suspended for ever at the final point *)

(** cobalt_promise (309-408): [rec] is its member [receiver]. *)
Record coro := mkC { cs : cstate; rec : option nat }.

(** An awaiting coroutine; [WSusp h c]: suspended in the awaitable of handle [h],
    whose cancellation was forwarded to coroutine [c] (170-260). *)
Inductive wstate := WIdle | WSusp (h : nat) (c : option nat) | WKilled.

Inductive bad :=
| BFrame       (* access to a destroyed coroutine frame *)
| BHandle      (* access to a destroyed handle *)
| BNull        (* null pointer *)
| BEmpty       (* empty optional dereferenced (BOOST_ASSERT, line 51) *)
| BNotReady    (* get() of an unfinished promise (BOOST_ASSERT, promise.hpp:54) *)
| BMisplaced.  (* interrupt_await of an awaiter whose handle was moved away *)

Inductive event :=
| EStart (c h : nat)                        (* coroutine c started, handle h returned *)
| EReturn (c : nat) (v : V)
| EThrow (c : nat) (e : E)
| EKill (c : nat)                           (* suspended coroutine destroyed from outside *)
| EFinal (c : nat)                          (* the coroutine's frame is destroyed *)
| EEscape (c : nat) (e : E)                 (* exception leaves the coroutine's resume() *)
| EAwait (w h : nat)
| EResult (w h : nat) (r : outcome)         (* w continues with r *)
| EGet (h : nat) (r : outcome)              (* get() *)
| EInterrupt (w : nat)
| EKilled (w : nat)                         (* an awaiting coroutine is destroyed *)
| ESignal (c t : nat)                       (* cancellation delivered to coroutine c *)
| EMove (g h : nat)                         (* g(std::move(h)) *)
| EAssign (g h : nat)                       (* g = std::move(h) *)
| EDestroy (h : nat)
| EAttach (h : nat) (b : bool)
| EBad (b : bad).

Inductive label :=
| LStart (c h : nat)
| LNoop (c h : nat) (v : V)                 (* promise(noop<T>): no coroutine; c only names the value *)
| LReturn (c : nat) (v : V)
| LThrow (c : nat) (e : E)
| LFinal (c : nat)
| LKill (c : nat)
| LAwait (w h : nat)
| LGet (h : nat)
| LInterrupt (w : nat)
| LSignal (w t : nat)
| LCancel (h t : nat)
| LMove (g h : nat)
| LAssign1 (g h : nat) | LAssign2 (g : nat)
| LDestroy1 (h : nat) | LDestroy2 (h : nat)
| LAttach (h : nat) (b : bool).

Record state := mkS { hs : nat -> handle; co : nat -> coro; ws : nat -> wstate }.

Definition upd {A} (f : nat -> A) (i : nat) (a : A) : nat -> A :=
  fun j => if j =? i then a else f j.
Definition set_h h x s := mkS (upd (hs s) h x) (co s) (ws s).
Definition set_c c x s := mkS (hs s) (upd (co s) c x) (ws s).
Definition set_w w x s := mkS (hs s) (co s) (upd (ws s) w x).

Definition no_handle := mkH Absent false None None false None None false None.
Definition init : state := mkS (fun _ => no_handle) (fun _ => mkC NotYet None) (fun _ => WIdle).

Definition live s h := match life_of (hs s h) with Live | Dying => true | _ => false end.
(** The memory of the frame exists. *)
Definition frame s c := match cs (co s c) with Running | Returning | Leaked => true | _ => false end.

(** asio::cancellation_type::all *)
Definition ct_all := 7.

(** get_result (93-103, 48-53). *)
Definition get_result h s : state * option outcome :=
  let x := hs s h in
  match exc x with
  | Some e =>
      if done x then (set_h h (mkH (life_of x) (done x) (exc x) (res x) true (aw x) (ref x) (att x) (from x)) s, Some (RExc e))
      else (set_h h (mkH (life_of x) (done x) None (res x) (taken x) (aw x) (ref x) (att x) (from x)) s, Some (RExc e))
  | None =>
      match res x with
      | Some v => (set_h h (mkH (life_of x) (done x) None (Some Hollow) true (aw x) (ref x) (att x) (from x)) s, Some (RVal v))
      | None => (set_h h (mkH (life_of x) (done x) None None true (aw x) (ref x) (att x) (from x)) s, None)
      end
  end.

(** The awaiter [w] continues: await_resume (212-219) through its own pointer to
    the handle. *)
Definition resume w s : state * list event :=
  match ws s w with
  | WSusp h _ =>
      if live s h then
        match get_result h (set_w w WIdle s) with
        | (s1, Some r) => (s1, [EResult w h r])
        | (s1, None) => (s1, [EBad BEmpty])
        end
      else (s, [EBad BHandle])
  | _ => (s, [EBad BNull])
  end.

(** awaited_from.reset(nullptr): destroys the awaiting coroutine. *)
Definition kill_w (o : option nat) s : state * list event :=
  match o with
  | Some w => (set_w w WKilled s, [EKilled w])
  | None => (s, [])
  end.

Definition set_aw o x := mkH (life_of x) (done x) (exc x) (res x) (taken x) o (ref x) (att x) (from x).
Definition set_life l x := mkH l (done x) (exc x) (res x) (taken x) (aw x) (ref x) (att x) (from x).
Definition set_att b x := mkH (life_of x) (done x) (exc x) (res x) (taken x) (aw x) (ref x) b (from x).
Definition set_from o x := mkH (life_of x) (done x) (exc x) (res x) (taken x) (aw x) (ref x) (att x) o.

(** final_suspend (375-405) of coroutine [c], whose handle has its outcome. *)
Definition final c s : state * list event :=
  let s1 := set_c c (mkC Dead None) s in
  match rec (co s c) with
  | None => (s1, [EFinal c])
  | Some h =>
      if live s h then
        match aw (hs s h) with
        | None => (s1, [EFinal c])                       (* await_ready: ~cobalt_promise, 363-373 *)
        | Some w =>
            let (s2, ev) := resume w (set_h h (set_aw None (hs s h)) s1) in (s2, EFinal c :: ev)
        end
      else (s, [EBad BHandle])
  end.

(** promise::cancel (promise.hpp:114-118). *)
Definition cancel h t s : state * list event :=
  let x := hs s h in
  if done x then (s, [])
  else match ref x with
       | None => (s, [EBad BNull])
       | Some c =>
           if frame s c then
             match rec (co s c) with
             | Some h' => if h' =? h then (s, [ESignal c t]) else (s, [])
             | None => (s, [])
             end
           else (s, [EBad BFrame])
       end.

(** [*reference == this] then [*reference = nullptr] (136-139, 160-161). *)
Definition unlink h s : option state :=
  match ref (hs s h) with
  | None => None
  | Some c =>
      if frame s c then
        match rec (co s c) with
        | Some h' => Some (if h' =? h then set_c c (mkC (cs (co s c)) None) s else s)
        | None => Some s
        end
      else None
  end.

Definition hollow (o : option content) : option content :=
  match o with Some _ => Some Hollow | None => None end.

(** What the move constructor (120-132) and the move assignment (141-152) do to
    the pair of handles once the old value of [g] is gone; [fin]: lhs.done = true,
    which only the constructor has. *)
Definition transfer (fin : bool) g h s : state * list event :=
  let x := hs s h in
  let y := mkH Live (done x) (exc x) (res x) (taken x) (aw x) (ref x) (att x) None in
  let x' b e := mkH (life_of x) b e (hollow (res x)) (taken x) None (ref x) false (from x) in
  match done x, exc x with
  | false, None =>
      match ref x with
      | None => (s, [EBad BNull])
      | Some c =>
          if frame s c then
            (set_h g y (set_h h (x' fin (Some XMoved)) (set_c c (mkC (cs (co s c)) (Some g)) s)), [])
          else (s, [EBad BFrame])
      end
  | _, _ => (set_h g y (set_h h (x' (fin || done x) None) s), [])
  end.

Definition is_absent l := match l with Absent => true | _ => false end.
Definition is_live l := match l with Live => true | _ => false end.
Definition is_dying l := match l with Dying => true | _ => false end.

Definition step (l : label) (s : state) : option (state * list event) :=
  match l with
  (* the coroutine is created and starts: 164-168, 309-353; promise.hpp:73-75 *)
  | LStart c h =>
      match cs (co s c) with
      | NotYet =>
          if is_absent (life_of (hs s h)) then
            Some (set_h h (mkH Live false None None false None (Some c) true None) (set_c c (mkC Running (Some h)) s), [EStart c h])
          else None
      | _ => None
      end
  (* 67, 119; promise.hpp:68 *)
  | LNoop c h v =>
      match cs (co s c) with
      | NotYet =>
          if is_absent (life_of (hs s h)) then
            Some (set_h h (mkH Live true None (Some (Fresh v)) false None None false None) (set_c c (mkC Dead None) s),
                  [EStart c h; EReturn c v; EFinal c; EAttach h false])
          else None
      | _ => None
      end
  (* co_return v: 55-65, 284-294 *)
  | LReturn c v =>
      match cs (co s c) with
      | Running =>
          match rec (co s c) with
          | None => Some (set_c c (mkC Returning None) s, [EReturn c v])
          | Some h =>
              if live s h then
                let x := hs s h in
                Some (set_h h (mkH (life_of x) true (exc x) (Some (Fresh v)) (taken x) (aw x) (ref x) (att x) (from x))
                        (set_c c (mkC Returning (Some h)) s), [EReturn c v])
              else Some (s, [EBad BHandle])
          end
      | _ => None
      end
  (* unhandled_exception: 104-108, 355-361; final_suspend follows at once *)
  | LThrow c e =>
      match cs (co s c) with
      | Running =>
          match rec (co s c) with
          | None => Some (set_c c (mkC Leaked None) s, [EThrow c e; EEscape c e])
          | Some h =>
              if live s h then
                let x := hs s h in
                let (s1, ev) := final c (set_h h (mkH (life_of x) true (Some (XUser e)) (res x) (taken x) (aw x) (ref x) (att x) (from x)) s) in
                Some (s1, EThrow c e :: ev)
              else Some (s, [EBad BHandle])
          end
      | _ => None
      end
  | LFinal c => match cs (co s c) with Returning => Some (final c s) | _ => None end
  (* ~cobalt_promise, 363-373 *)
  | LKill c =>
      match cs (co s c) with
      | Running =>
          let s1 := set_c c (mkC Dead None) s in
          match rec (co s c) with
          | None => Some (s1, [EKill c])
          | Some h =>
              if live s h then
                let x := hs s h in
                let e := match done x, exc x with false, None => Some XUnexpected | _, e => e end in
                let (s2, ev) := kill_w (aw x) (set_h h (mkH (life_of x) true e (res x) (taken x) None (ref x) (att x) (from x)) s1) in
                Some (s2, EKill c :: ev)
              else Some (s, [EBad BHandle])
          end
      | _ => None
      end
  (* 187-210 *)
  | LAwait w h =>
      match ws s w with
      | WIdle =>
          let x := hs s h in
          if is_live (life_of x) then
            if done x then
              let (s1, r) := get_result h s in
              Some (s1, EAwait w h :: match r with Some r => [EResult w h r] | None => [EBad BEmpty] end)
            else match aw x with
                 | Some _ => Some (s, [EAwait w h; EResult w h (RExc XAlready)])
                 | None => Some (set_w w (WSusp h (ref x)) (set_h h (set_aw (Some w) x) s), [EAwait w h])
                 end
          else None
      | _ => None
      end
  (* promise.hpp:52-56 *)
  | LGet h =>
      let x := hs s h in
      if is_live (life_of x) then
        if done x then
          let (s1, r) := get_result h s in
          Some (s1, match r with Some r => [EGet h r] | None => [EBad BEmpty] end)
        else Some (s, [EBad BNotReady])
      else None
  (* awaitable::interrupt_await, 252-259; an awaiter that is not the one registered
     in the handle is not followed further *)
  | LInterrupt w =>
      match ws s w with
      | WSusp h _ =>
          if live s h then
            match aw (hs s h) with
            | Some w' =>
                if w' =? w then
                  Some (set_w w WIdle (set_h h (set_aw None (hs s h)) s), [EInterrupt w; EResult w h (RExc XDetached)])
                else Some (s, [EInterrupt w; EBad BMisplaced])
            | None => Some (s, [EInterrupt w; EBad BMisplaced])
            end
          else Some (s, [EInterrupt w; EBad BHandle])
      | _ => None
      end
  (* forward_cancellation, 204-206 *)
  | LSignal w t =>
      match ws s w with
      | WSusp h (Some c) => Some (s, if frame s c then [ESignal c t] else [EBad BFrame])
      | WSusp h None => Some (s, [EBad BNull])
      | _ => None
      end
  | LCancel h t => if is_live (life_of (hs s h)) then Some (cancel h t s) else None
  (* promise.hpp:87-90 *)
  | LMove g h =>
      if is_absent (life_of (hs s g)) && is_live (life_of (hs s h)) then
        let (s1, ev) := transfer true g h s in Some (s1, EMove g h :: ev)
      else None
  (* promise.hpp:94-101: cancel, then the receiver's move assignment *)
  | LAssign1 g h =>
      if is_live (life_of (hs s g)) && is_live (life_of (hs s h)) && negb (g =? h) then
        match from (hs s g) with
        | None =>
            let (s1, ev) := if att (hs s g) then cancel g ct_all s else (s, []) in
            Some (set_h g (set_from (Some h) (hs s1 g)) s1, ev)
        | Some _ => None
        end
      else None
  | LAssign2 g =>
      match from (hs s g) with
      | Some h =>
          if is_live (life_of (hs s g)) && is_live (life_of (hs s h)) && negb (g =? h) then
            match match ref (hs s g) with None => Some s | Some _ => unlink g s end with
            | None => Some (s, [EBad BFrame])
            | Some s1 =>
                let (s2, ev2) := kill_w (aw (hs s g)) s1 in
                let (s3, ev3) := transfer false g h s2 in
                Some (s3, EAssign g h :: ev2 ++ ev3)
            end
          else None
      | None => None
      end
  (* promise.hpp:62-66, then ~promise_receiver 158-162 *)
  | LDestroy1 h =>
      if is_live (life_of (hs s h)) then
        let (s1, ev) := if att (hs s h) then cancel h ct_all s else (s, []) in
        Some (set_h h (set_life Dying (hs s1 h)) s1, ev)
      else None
  | LDestroy2 h =>
      if is_dying (life_of (hs s h)) then
        match (if done (hs s h) then Some s else unlink h s) with
        | None => Some (s, [EBad BFrame])
        | Some s1 =>
            let (s2, ev) := kill_w (aw (hs s h)) s1 in
            Some (set_h h (set_life Gone (set_aw None (hs s2 h))) s2, EDestroy h :: ev)
        end
      else None
  (* promise.hpp:131-140 *)
  | LAttach h b =>
      if is_live (life_of (hs s h)) then Some (set_h h (set_att b (hs s h)) s, [EAttach h b]) else None
  end.

Fixpoint run (s : state) (ls : list label) : option (state * list event) :=
  match ls with
  | [] => Some (s, [])
  | l :: t =>
      match step l s with
      | None => None
      | Some (s1, e1) =>
          match run s1 t with
          | None => None
          | Some (s2, e2) => Some (s2, e1 ++ e2)
          end
      end
  end.

End Promise.
Arguments state V E : clear implicits.
Arguments event V E : clear implicits.
Arguments label V E : clear implicits.
Arguments outcome V E : clear implicits.
Arguments exn E : clear implicits.
Arguments content V : clear implicits.
Arguments handle V E : clear implicits.
