(** * Model of [cobalt::task] and [spawn]

    Sources (paths relative to /repo/include/boost/cobalt): detail/task.hpp, task.hpp,
    detail/spawn.hpp, detail/wrapper.hpp (post_coroutine).

    Conventions.
    - A handle is a [task<T>] object together with its [task_receiver]; spawn moves
      the receiver into a shared one of its own, which is a handle with [priv] set:
      no program can name it.
    - Handles, coroutines and waiters are numbered; numbers are not reused, so an
      access to a destroyed object is visible as [EBad].  A waiter is an awaiting
      coroutine or the completion handler of a spawn.
    - A step is what happens between two points at which other code can run; the
      end of a coroutine has two, because the destructors of its local variables
      run between return_value and final_suspend.
    - The result type is not void.  [result_taken], which is never read, is left out.
    - After [EBad] (undefined behaviour) the state is left as it is. *)
From Coq Require Import List Bool Arith.
Import ListNotations.

Section Task.
Context {V E : Type}.

Inductive exn := XUser (e : E) | XMoved | XDetached | XUnexpected.
(** A value, one that was moved from, or a value-initialised one. *)
Inductive content := Fresh (v : V) | Hollow | Default.
Inductive outcome := RVal (x : content) | RExc (x : exn).

Inductive life := Absent | Live | Gone.

(** task_receiver (41-66, 89-249 of detail/task.hpp). *)
Record handle := mkH {
  life_of : life;
  done : bool;                 (* 111 *)
  exc : option exn;            (* 92 *)
  res : option content;        (* 44 *)
  aw : option nat;             (* 112: awaited_from *)
  pr : option nat;             (* 239: promise *)
  priv : option nat }.         (* the spawn that owns it *)

Inductive cstate :=
| NotYet
| Ready         (* created, suspended at the initial point: started = false *)
| Queued        (* the same, and its start was dispatched by spawn *)
| Running
| Returning     (* return_value done, local variables are being destroyed *)
| Dead          (* frame destroyed *)
| Leaked.       (* unhandled_exception threw *)

(** task_promise (285-406): [rec] is its member [receiver]. *)
Record coro := mkC { cs : cstate; rec : option nat }.

Inductive wstate :=
| WIdle
| WAwait (h : nat)     (* coroutine suspended in the awaitable of [h] *)
| WSpawn (h : nat)     (* completion handler inside the post_coroutine *)
| WPosted (h : nat)    (* completion handler posted or dispatched *)
| WOver | WKilled.

Inductive bad :=
| BFrame       (* access to a destroyed coroutine frame *)
| BHandle      (* access to a destroyed handle *)
| BNull        (* null pointer *)
| BEmpty       (* empty optional dereferenced (BOOST_ASSERT, line 50) *)
| BResumed     (* a coroutine that was started already is resumed as if it was not *)
| BMisplaced.  (* interrupt_await of an awaiter whose handle was moved away *)

Inductive event :=
| ECreate (c h : nat)                       (* coroutine c created, handle h returned *)
| EBegin (c : nat)                          (* the body starts *)
| EReturn (c : nat) (v : V)
| EThrow (c : nat) (e : E)
| EKill (c : nat)                           (* suspended coroutine destroyed from outside *)
| EDiscard (c : nat)                        (* destroyed before its body started *)
| EFinal (c : nat)                          (* the coroutine's frame is destroyed *)
| EEscape (c : nat) (e : E)                 (* exception leaves the coroutine's resume() *)
| EAwait (w h : nat)
| ESpawn (w g h : nat)                      (* spawn(ex, std::move(h), w), g: its receiver *)
| EResult (w h : nat) (r : outcome)         (* awaiting coroutine w continues with r *)
| EHandler (w h : nat) (r : outcome)        (* completion handler w called with r *)
| EInterrupt (w : nat)
| EKilled (w : nat)                         (* awaiting coroutine or handler destroyed *)
| ESignal (c t : nat)                       (* cancellation delivered to coroutine c *)
| EMove (g h : nat)                         (* g(std::move(h)) *)
| EDestroy (h : nat)
| EBad (b : bad).

Inductive label :=
| LCreate (c h : nat)
| LNoop (c h : nat) (v : V)                 (* task(noop<T>): no coroutine; c only names the value *)
| LBegin (c : nat) | LDrop (c : nat)        (* the dispatched start runs / is destroyed *)
| LReturn (c : nat) (v : V)
| LThrow (c : nat) (e : E)
| LFinal (c : nat)
| LKill (c : nat)
| LAwait (w h : nat)
| LSpawn (w g h : nat)
| LHandler (w : nat)
| LInterrupt (w : nat)
| LSignal (w t : nat)
| LMove (g h : nat)
| LDestroy (h : nat).

Record state := mkS { hs : nat -> handle; co : nat -> coro; ws : nat -> wstate }.

Definition upd {A} (f : nat -> A) (i : nat) (a : A) : nat -> A :=
  fun j => if j =? i then a else f j.
Definition set_h h x s := mkS (upd (hs s) h x) (co s) (ws s).
Definition set_c c x s := mkS (hs s) (upd (co s) c x) (ws s).
Definition set_w w x s := mkS (hs s) (co s) (upd (ws s) w x).

Definition no_handle := mkH Absent false None None None None None.
Definition init : state := mkS (fun _ => no_handle) (fun _ => mkC NotYet None) (fun _ => WIdle).

Definition live s h := match life_of (hs s h) with Live => true | _ => false end.
Definition absent s h := match life_of (hs s h) with Absent => true | _ => false end.
(** A handle the program can name. *)
Definition user s h := live s h && match priv (hs s h) with None => true | Some _ => false end.
(** The memory of the frame exists. *)
Definition frame s c := match cs (co s c) with Ready | Queued | Running | Returning | Leaked => true | _ => false end.

(** get_result (93-103, 47-52). *)
Definition get_result h s : state * option outcome :=
  let x := hs s h in
  match exc x with
  | Some e =>
      if done x then (s, Some (RExc e))
      else (set_h h (mkH (life_of x) (done x) None (res x) (aw x) (pr x) (priv x)) s, Some (RExc e))
  | None =>
      match res x with
      | Some v => (set_h h (mkH (life_of x) (done x) None (Some Hollow) (aw x) (pr x) (priv x)) s, Some (RVal v))
      | None => (s, None)
      end
  end.

(** The waiter [w] is resumed.  A coroutine continues in await_resume (197-203)
    through its own pointer to the handle; the post_coroutine of a spawn posts the
    completion handler (wrapper.hpp 78-104). *)
Definition resume w s : state * list event :=
  match ws s w with
  | WAwait h =>
      if live s h then
        match get_result h (set_w w WIdle s) with
        | (s1, Some r) => (s1, [EResult w h r])
        | (s1, None) => (s1, [EBad BEmpty])
        end
      else (s, [EBad BHandle])
  | WSpawn h => (set_w w (WPosted h) s, [])
  | _ => (s, [EBad BNull])
  end.

(** awaited_from.reset(...): destroys the waiter that was registered. *)
Definition kill_w (o : option nat) s : state * list event :=
  match o with
  | Some w => (set_w w WKilled s, [EKilled w])
  | None => (s, [])
  end.

Definition set_aw o x := mkH (life_of x) (done x) (exc x) (res x) o (pr x) (priv x).
Definition set_life l x := mkH l (done x) (exc x) (res x) (aw x) (pr x) (priv x).

(** final_suspend (349-385) and ~task_promise (395-404) of coroutine [c], whose
    handle has its outcome. *)
Definition final c s : state * list event :=
  let s1 := set_c c (mkC Dead None) s in
  match rec (co s c) with
  | None => (s1, [EFinal c])
  | Some h =>
      if live s h then
        match aw (hs s h) with
        | None => (s1, [EFinal c])
        | Some w =>
            let (s2, ev) := resume w (set_h h (set_aw None (hs s h)) s1) in (s2, EFinal c :: ev)
        end
      else (s, [EBad BHandle])
  end.

(** ~task_promise (395-404) of a coroutine destroyed from outside. *)
Definition destroyed c e s : option (state * list event) :=
  let s1 := set_c c (mkC Dead None) s in
  match rec (co s c) with
  | None => Some (s1, [e])
  | Some h =>
      if live s h then
        let x := hs s h in
        let ex := match done x, exc x with false, None => Some XUnexpected | _, ex => ex end in
        let (s2, ev) := kill_w (aw x) (set_h h (mkH (life_of x) true ex (res x) None (pr x) (priv x)) s1) in
        Some (s2, e :: ev)
      else Some (s, [EBad BHandle])
  end.

Definition hollow (o : option content) : option content :=
  match o with Some _ => Some Hollow | None => None end.

(** The move constructor (127-139) of a receiver. *)
Definition transfer p g h s : state * list event :=
  let x := hs s h in
  let y := mkH Live (done x) (exc x) (res x) (aw x) (pr x) p in
  let x' e := mkH (life_of x) true e (hollow (res x)) None (pr x) (priv x) in
  match done x, exc x with
  | false, None =>
      match pr x with
      | None => (s, [EBad BNull])
      | Some c =>
          if frame s c then
            (set_h g y (set_h h (x' (Some XMoved)) (set_c c (mkC (cs (co s c)) (Some g)) s)), [])
          else (s, [EBad BFrame])
      end
  | _, _ => (set_h g y (set_h h (x' None) s), [])
  end.

Definition step (l : label) (s : state) : option (state * list event) :=
  match l with
  (* 303-306, 151-155 *)
  | LCreate c h =>
      match cs (co s c) with
      | NotYet =>
          if absent s h then
            Some (set_h h (mkH Live false None None None (Some c) None) (set_c c (mkC Ready (Some h)) s), [ECreate c h])
          else None
      | _ => None
      end
  (* 65, 125; task.hpp:37 *)
  | LNoop c h v =>
      match cs (co s c) with
      | NotYet =>
          if absent s h then
            Some (set_h h (mkH Live true None (Some (Fresh v)) None None None) (set_c c (mkC Dead None) s),
                  [ECreate c h; EReturn c v; EFinal c])
          else None
      | _ => None
      end
  (* detail/spawn.hpp:97; 337-340 *)
  | LBegin c =>
      match cs (co s c) with
      | Queued => Some (set_c c (mkC Running (rec (co s c))) s, [EBegin c])
      | _ => None
      end
  (* the unique_handle given to dispatch is destroyed *)
  | LDrop c => match cs (co s c) with Queued => destroyed c (EDiscard c) s | _ => None end
  (* 54-63, 260-269 *)
  | LReturn c v =>
      match cs (co s c) with
      | Running =>
          match rec (co s c) with
          | None => Some (set_c c (mkC Returning None) s, [EReturn c v])
          | Some h =>
              if live s h then
                let x := hs s h in
                Some (set_h h (mkH (life_of x) true (exc x) (Some (Fresh v)) (aw x) (pr x) (priv x))
                        (set_c c (mkC Returning (Some h)) s), [EReturn c v])
              else Some (s, [EBad BHandle])
          end
      | _ => None
      end
  (* 105-109, 387-393; final_suspend follows at once *)
  | LThrow c e =>
      match cs (co s c) with
      | Running =>
          match rec (co s c) with
          | None => Some (set_c c (mkC Leaked None) s, [EThrow c e; EEscape c e])
          | Some h =>
              if live s h then
                let x := hs s h in
                let (s1, ev) := final c (set_h h (mkH (life_of x) true (Some (XUser e)) (res x) (aw x) (pr x) (priv x)) s) in
                Some (s1, EThrow c e :: ev)
              else Some (s, [EBad BHandle])
          end
      | _ => None
      end
  | LFinal c => match cs (co s c) with Returning => Some (final c s) | _ => None end
  | LKill c => match cs (co s c) with Running => destroyed c (EKill c) s | _ => None end
  (* 173-195 *)
  | LAwait w h =>
      match ws s w with
      | WIdle =>
          let x := hs s h in
          if user s h then
            if done x then
              let (s1, r) := get_result h s in
              Some (s1, EAwait w h :: match r with Some r => [EResult w h r] | None => [EBad BEmpty] end)
            else match pr x with
                 | None => Some (s, [EAwait w h; EBad BNull])
                 | Some c =>
                     match cs (co s c) with
                     | Ready =>
                         let (s1, ev) := kill_w (aw x) s in
                         Some (set_w w (WAwait h) (set_h h (set_aw (Some w) x) (set_c c (mkC Running (rec (co s c))) s1)),
                               EAwait w h :: ev ++ [EBegin c])
                     | Dead | NotYet => Some (s, [EAwait w h; EBad BFrame])
                     | _ => Some (s, [EAwait w h; EBad BResumed])
                     end
                 end
          else None
      | _ => None
      end
  (* spawn.hpp:35-98: the argument [task<T> a] is move constructed, and from it the
     shared receiver; both are one move here *)
  | LSpawn w g h =>
      match ws s w with
      | WIdle =>
          if absent s g && user s h then
            let (s1, ev) := transfer (Some w) g h s in
            match ev with
            | _ :: _ => Some (s1, ESpawn w g h :: ev)
            | [] =>
                let x := hs s1 g in
                if done x then                          (* 38-41 *)
                  match exc x, res x with
                  | None, None => Some (s1, [ESpawn w g h; EBad BEmpty])
                  | _, _ => Some (set_w w (WPosted g) s1, [ESpawn w g h])
                  end
                else match pr x with
                     | None => Some (s1, [ESpawn w g h; EBad BNull])
                     | Some c =>
                         match cs (co s1 c) with
                         | Ready =>
                             let (s2, ev2) := kill_w (aw x) s1 in
                             Some (set_w w (WSpawn g) (set_h g (set_aw (Some w) x) (set_c c (mkC Queued (rec (co s1 c))) s2)),
                                   ESpawn w g h :: ev2)
                         | Dead | NotYet => Some (s1, [ESpawn w g h; EBad BFrame])
                         | _ => Some (s1, [ESpawn w g h; EBad BResumed])
                         end
                     end
            end
          else None
      | _ => None
      end
  (* spawn.hpp:79-89, or 38-41 when the task was done at once *)
  | LHandler w =>
      match ws s w with
      | WPosted g =>
          let x := hs s g in
          if live s g then
            Some (set_w w WOver (set_h g (set_life Gone x) s),
                  [EHandler w g (match exc x with
                                 | Some e => RExc e
                                 | None => match res x with Some v => RVal v | None => RVal Default end
                                 end)])
          else Some (s, [EBad BHandle])
      | _ => None
      end
  (* awaitable::interrupt_await, 229-236; an awaiter that is not the one registered
     in the handle is not followed further *)
  | LInterrupt w =>
      match ws s w with
      | WAwait h =>
          if live s h then
            match aw (hs s h) with
            | Some w' =>
                if w' =? w then
                  Some (set_w w WIdle (set_h h (set_aw None (hs s h)) s), [EInterrupt w; EResult w h (RExc XDetached)])
                else Some (s, [EInterrupt w; EBad BMisplaced])
            | None => Some (s, [EInterrupt w; EBad BMisplaced])
            end
          else Some (s, [EInterrupt w; EBad BHandle])
      | _ => None
      end
  (* forward_cancellation, 182-184; spawn.hpp:52-58 and cancel, 119-123, run by
     the executor at any later time *)
  | LSignal w t =>
      match ws s w with
      | WAwait h =>
          match pr (hs s h) with
          | Some c => Some (s, if frame s c then [ESignal c t] else [EBad BFrame])
          | None => Some (s, [EBad BNull])
          end
      | WSpawn h | WPosted h =>
          if done (hs s h) then Some (s, [])
          else match pr (hs s h) with
               | Some c => Some (s, if frame s c then [ESignal c t] else [EBad BFrame])
               | None => Some (s, [EBad BNull])
               end
      | WOver => Some (s, [])        (* the shared receiver is done *)
      | _ => None
      end
  | LMove g h =>
      if absent s g && user s h then
        let (s1, ev) := transfer None g h s in Some (s1, EMove g h :: ev)
      else None
  (* 141-149 *)
  | LDestroy h =>
      if user s h then
        let x := hs s h in
        let gone s := set_h h (set_life Gone (set_aw None (hs s h))) s in
        if done x then
          let (s1, ev) := kill_w (aw x) s in Some (gone s1, EDestroy h :: ev)
        else match pr x with
             | None => let (s1, ev) := kill_w (aw x) s in Some (gone s1, EDestroy h :: ev)
             | Some c =>
                 if frame s c then
                   match rec (co s c) with
                   | Some h' =>
                       if h' =? h then
                         match cs (co s c) with
                         | Ready | Queued =>
                             let (s1, ev) := kill_w (aw x) (set_c c (mkC Dead None) s) in
                             Some (gone s1, EDestroy h :: EDiscard c :: ev)
                         | _ =>
                             let (s1, ev) := kill_w (aw x) (set_c c (mkC (cs (co s c)) None) s) in
                             Some (gone s1, EDestroy h :: ev)
                         end
                       else let (s1, ev) := kill_w (aw x) s in Some (gone s1, EDestroy h :: ev)
                   | None => let (s1, ev) := kill_w (aw x) s in Some (gone s1, EDestroy h :: ev)
                   end
                 else Some (s, [EBad BFrame])
             end
      else None
  end.

Fixpoint run (s : state) (ls : list label) : option (state * list event) :=
  match ls with
  | [] => Some (s, [])
  | l :: t =>
      match step l s with
      | None => None
      | Some (s1, e1) =>
          match run s1 t with
          | None => None
          | Some (s2, e2) => Some (s2, e1 ++ e2)
          end
      end
  end.

End Task.
Arguments state V E : clear implicits.
Arguments event V E : clear implicits.
Arguments label V E : clear implicits.
Arguments outcome V E : clear implicits.
Arguments exn E : clear implicits.
Arguments content V : clear implicits.
Arguments handle V E : clear implicits.
