(** * Model of [gather], [join], [race] and [left_race]

    Sources modelled (paths relative to /repo/include/boost/cobalt):
      detail/fork.hpp    (the coroutine wrapped around every child, its use count
                          and the resumption of the awaiting coroutine)
      detail/gather.hpp  (variadic 38-218, ranged 220-416)
      detail/join.hpp    (variadic 37-280, ranged 282-539)
      detail/race.hpp    (variadic 86-376, ranged 379-688), race.hpp (empty ranges)

    Conventions.
    - The control state of the running thread is an explicit stack [stk]; one
      step executes the piece of library code on top of the stack up to the next
      call into user code.  [KUser] on the stack stands for user code that is
      running (a child's await_ready, await_suspend, interrupt_await, or the
      handler of a cancellation signal); while it is on top, or when the stack
      is empty (event loop), the environment may do anything: complete any
      waiting child, begin a transaction, cancel or interrupt the combinator.
      So all re-entrant executions are covered.
    - [LTau] lets the library code on top of the stack run ([KUser] returns).
    - Children are the indices [0 .. n-1]; the environment decides how each one
      behaves ([begin], [comp]).
    - A label that cannot happen in a state has no step ([None]).
    - [fork::done()] on a finished fork is taken to be true although the C++
      calls it on a destroyed frame (see [EFree]). *)
From Coq Require Import List Bool Arith.
Import ListNotations.

(** Cancellation types; [ct_all] is asio::cancellation_type::all. *)
Definition ctype := nat.
Definition ct_all : ctype := 7.

Section Comb.
Context {V E : Type}.

(** How the await of a child ends: a value, an error (an exception, or an error
    code when the child supports as_result), or, for race, which awaits its
    children through as_result, an exception that escapes as_result
    (await_ready, await_suspend or operator co_await throwing). *)
Inductive comp := CVal (v : V) | CErr (e : E) | CThrow (e : E).

(** What happens when a fork reaches the child's await_ready. *)
Inductive begin :=
| BReady (x : comp)   (* await_ready is true; await_resume gives x *)
| BThrow (e : E)      (* operator co_await or await_ready throws *)
| BPark.              (* await_ready is false *)

Inductive kind := Gather | Join | Race.
(** Completion form of the co_await expression. *)
Inductive mode := Plain | AsTuple | AsResult.

Record cfg := mkCfg {
  knd : kind;
  ranged : bool;          (* range overload instead of the variadic one *)
  ord : list nat;         (* children in the order they are started: 0..n-1
                             shuffled for race (race.hpp:109-110, 469-470) *)
  void : nat -> bool;     (* child's result type is void *)
  intr : nat -> bool;     (* child can be interrupted (interrupt_await) *)
  rct : ctype;            (* template argument Ct of race *)
  md : mode }.

Definition size c := length (ord c).
Definition idxs c := seq 0 (size c).
(** race.hpp:125, join.hpp:65 *)
Definition all_void c := forallb (void c) (idxs c).

(** Life of the fork of a child. *)
Inductive phase :=
| Idle       (* not created *)
| Starting   (* running, before await_ready returned *)
| Parked     (* waiting for [wired_up] (fork.hpp:208-224) *)
| Entering   (* the child's await_suspend is on the stack *)
| Susp       (* suspended in the child *)
| Ending     (* the child finished; the fork runs its epilogue *)
| Gone.      (* final suspend reached, frame destroyed *)

(** Pieces of library code on the stack. *)
Inductive item :=
| KUser                     (* user code *)
| KRdy                      (* await_ready: loop (gather/join) or first child (race) *)
| KRdyChk (i : nat)         (* await_ready: last_forked.done()? *)
| KGo (i : nat)             (* await_suspend: last_forked.release().resume() *)
| KOut (i : nat)            (* ... has returned *)
| KStart                    (* await_suspend: loop over the remaining children *)
| KBeg (i : nat)            (* the fork of child i gets the result of await_ready *)
| KChk (i : nat)            (* await_suspend: the call impls[i]() has returned *)
| KArm                      (* await_suspend: after the loop *)
| KArm2                     (* ... after join's second cancel_all *)
| KProbe (i : nat)          (* constructor of a ranged gather/join: await_ready *)
| KResume                   (* the awaiting coroutine runs: await_resume, then
                               the awaitable is destroyed *)
| KInt (i : nat)            (* race interrupt_await loop, one element *)
| KIntG (i : nat)           (* gather/join interrupt_await loop, one element *)
| KEmit (i : nat)           (* cancel_all loop, one element *)
| KFwd (i : nat) (t : ctype)(* forwarding a cancellation, one element *)
| KTx (i : nat)             (* end of the transaction function: commit *)
| KFin (i : nat)            (* working[i] = nullptr *)
| KEnd (i : nat).           (* final_suspend of fork i *)

(** Result of the co_await expression. *)
Inductive outcome :=
| RAll (xs : list (V + E))         (* gather: one result per child *)
| RVals (vs : list V)              (* join *)
| RWin (i : nat) (v : option V)    (* race: index, and value unless void *)
| RThrow (e : E)                   (* exception, or error in as_result/as_tuple *)
| RUndef.                          (* an empty optional is dereferenced (UB) *)

Inductive event :=
| EStart (i : nat)                 (* the fork of child i is created *)
| EProbe (i : nat)                 (* await_ready called on child i *)
| EDone (i : nat) (x : comp)       (* child i finished *)
| EInterrupt (i : nat)             (* interrupt_await called on child i *)
| EEmit (i : nat) (t : ctype) (early : bool)
                                   (* signal t sent to child i; early: its
                                      await_suspend has not returned yet *)
| ESusp (i : nat)                  (* child i's await_suspend returned, it waits *)
| EWait                            (* the awaiting coroutine is suspended *)
| EResume (r : outcome)            (* it continues with r *)
| ETxBegin (i : nat) | ETxReject (i : nat) | ETxCommit (i : nat)
| ECancelled (t : ctype)           (* the awaiting coroutine is cancelled *)
| EInterrupted                     (* interrupt_await is called on the combinator *)
| EFree (i : nat)                  (* coroutine_handle::destroy() on fork i *)
| EDangling                        (* destroyed combinator is accessed (UB) *)
| ENull.                           (* null handle is released (UB) *)

Inductive label :=
| LTau
| LBegin (b : begin)
| LComplete (i : nat) (x : comp)
| LTransact (i : nat)
| LCancel (t : ctype)              (* cancellation of the awaiting coroutine *)
| LInterrupt.                      (* interrupt_await on the combinator *)

Record state := mkS {
  ph : nat -> phase;
  todo : list nat;                 (* not yet started: last_index / loop position *)
  idx : option nat;                (* race: index (SIZE_MAX = None) *)
  win : option (nat * V);          (* race: result *)
  slot : nat -> option (V + E);    (* gather/join: result[i] *)
  err : option E;                  (* join/race: error *)
  canc : nat -> bool;              (* join/race: cancel[i] != nullptr *)
  work : nat -> bool;              (* race: working[i] != nullptr *)
  uc : nat;                        (* fork::shared_state::use_count *)
  wired : bool;                    (* exec.has_value() *)
  coro : bool;                     (* shared_state::coro set *)
  armed : bool;                    (* our handler sits in the awaiter's slot *)
  fin : bool;                      (* await_resume returned, awaitable destroyed *)
  lastf : option nat;              (* fork owned by last_forked *)
  stk : list item }.

Definition upd {A} (f : nat -> A) (i : nat) (a : A) : nat -> A :=
  fun j => if j =? i then a else f j.

Definition set_ph i p s := mkS (upd (ph s) i p) (todo s) (idx s) (win s) (slot s) (err s) (canc s) (work s) (uc s) (wired s) (coro s) (armed s) (fin s) (lastf s) (stk s).
Definition set_todo l s := mkS (ph s) l (idx s) (win s) (slot s) (err s) (canc s) (work s) (uc s) (wired s) (coro s) (armed s) (fin s) (lastf s) (stk s).
Definition set_idx i s := mkS (ph s) (todo s) i (win s) (slot s) (err s) (canc s) (work s) (uc s) (wired s) (coro s) (armed s) (fin s) (lastf s) (stk s).
Definition set_win w s := mkS (ph s) (todo s) (idx s) w (slot s) (err s) (canc s) (work s) (uc s) (wired s) (coro s) (armed s) (fin s) (lastf s) (stk s).
Definition set_slot i x s := mkS (ph s) (todo s) (idx s) (win s) (upd (slot s) i (Some x)) (err s) (canc s) (work s) (uc s) (wired s) (coro s) (armed s) (fin s) (lastf s) (stk s).
Definition set_err e s := mkS (ph s) (todo s) (idx s) (win s) (slot s) e (canc s) (work s) (uc s) (wired s) (coro s) (armed s) (fin s) (lastf s) (stk s).
Definition set_canc i b s := mkS (ph s) (todo s) (idx s) (win s) (slot s) (err s) (upd (canc s) i b) (work s) (uc s) (wired s) (coro s) (armed s) (fin s) (lastf s) (stk s).
Definition set_work i b s := mkS (ph s) (todo s) (idx s) (win s) (slot s) (err s) (canc s) (upd (work s) i b) (uc s) (wired s) (coro s) (armed s) (fin s) (lastf s) (stk s).
Definition set_uc n s := mkS (ph s) (todo s) (idx s) (win s) (slot s) (err s) (canc s) (work s) n (wired s) (coro s) (armed s) (fin s) (lastf s) (stk s).
Definition set_wired b s := mkS (ph s) (todo s) (idx s) (win s) (slot s) (err s) (canc s) (work s) (uc s) b (coro s) (armed s) (fin s) (lastf s) (stk s).
Definition set_coro b s := mkS (ph s) (todo s) (idx s) (win s) (slot s) (err s) (canc s) (work s) (uc s) (wired s) b (armed s) (fin s) (lastf s) (stk s).
Definition set_armed b s := mkS (ph s) (todo s) (idx s) (win s) (slot s) (err s) (canc s) (work s) (uc s) (wired s) (coro s) b (fin s) (lastf s) (stk s).
Definition set_fin b s := mkS (ph s) (todo s) (idx s) (win s) (slot s) (err s) (canc s) (work s) (uc s) (wired s) (coro s) (armed s) b (lastf s) (stk s).
Definition set_lastf o s := mkS (ph s) (todo s) (idx s) (win s) (slot s) (err s) (canc s) (work s) (uc s) (wired s) (coro s) (armed s) (fin s) o (stk s).
Definition set_stk l s := mkS (ph s) (todo s) (idx s) (win s) (slot s) (err s) (canc s) (work s) (uc s) (wired s) (coro s) (armed s) (fin s) (lastf s) l.
Definition push l s := set_stk (l ++ stk s) s.

Definition is_race c := match knd c with Race => true | _ => false end.

(** Before the awaitable is constructed (gather.hpp:258-291, join.hpp:336-369: the
    range overloads call await_ready on every child first) and await_ready runs. *)
Definition init c : state :=
  mkS (fun _ => Idle) (ord c) None None (fun _ => None) None (fun _ => false) (fun _ => false)
      0 false false false false None
      ((if ranged c && negb (is_race c) then map KProbe (idxs c) else []) ++ [KRdy]).

(** race.hpp:135-141 and 473-479 (interrupt_await, then emit to every non-null
    [cancel]); join.hpp:76-91 and 373-378 (no interrupt).
    The arguments of [cancel_all] do not include the child that calls it. *)
Definition cancel_all c : list item :=
  (if is_race c then map KInt (idxs c) else []) ++ map KEmit (idxs c).

Definition same (o : option nat) (i : nat) : bool :=
  match o with Some j => j =? i | None => false end.

(** race.hpp:150-166, 489-505: assign_error / emplace of the result. *)
Definition store (i : nat) (x : comp) (s : state) : state :=
  match x with
  | CVal v => set_win (Some (i, v)) s
  | CErr e | CThrow e => set_err (Some e) s
  end.
Definition is_err (x : comp) : bool := match x with CVal _ => false | _ => true end.

(** race: the fork of child [i] after the child delivered [x] through as_result.
    [rd]: the ready branch.
    - suspended, void: race.hpp:216-228 (variadic), 540-549 (ranged)
    - suspended, non-void: 229-241, 550-562
    - ready, void: 246-258 (variadic), 567-574 (ranged: the error is assigned
      without looking at [index])
    - ready, non-void: 259-271, 575-587
    then cancel[i] = nullptr; cancel_all(); working[i] = nullptr (242-275, 563-593). *)
Definition race_result c i (rd : bool) x s : state :=
  let s1 := match idx s with None => set_idx (Some i) s | Some _ => s end in
  let mine := same (idx s1) i in
  let s2 :=
    if void c i then
      if rd then
        if ranged c then (if is_err x then store i x s1 else s1)
        else (if mine then store i x s1 else s1)
      else
        let s2 := match idx s with None => if is_err x then store i x s1 else s1 | Some _ => s1 end in
        if negb (ranged c) && negb (all_void c) && mine && negb (is_err x) then store i x s2 else s2
    else if mine then store i x s1 else s1 in
  push (cancel_all c ++ [KFin i; KEnd i]) (set_canc i false s2).

(** race: the catch branch, race.hpp:277-284 and 595-603: no cancel_all, and
    cancel[i] keeps its value. *)
Definition race_throw i e s : state :=
  let s1 := match idx s with None => set_idx (Some i) s | Some _ => s end in
  let s2 := if same (idx s1) i then set_err (Some e) s1 else s1 in
  push [KEnd i] (set_work i false s2).

(** join.hpp:118-161 and 396-425. *)
Definition join_result c i x s : state :=
  match x with
  | CVal v => push [KEnd i] (set_slot i (inl v) s)
  | CErr e | CThrow e =>
      push (cancel_all c ++ [KEnd i])
        (match err s with None => set_err (Some e) s | Some _ => s end)
  end.

(** gather.hpp:95-132 and 304-337. *)
Definition gather_result i x s : state :=
  push [KEnd i] (set_slot i (match x with CVal v => inl v | CErr e | CThrow e => inr e end) s).

(** The child of fork [i] finished with [x]. *)
Definition finish c i rd x s : state :=
  let s0 := set_ph i Ending s in
  match knd c with
  | Gather => gather_result i x s0
  | Join => join_result c i x s0
  | Race => match x with CThrow e => race_throw i e s0 | _ => race_result c i rd x s0 end
  end.

(** Creation of the fork of child [i] (fork.hpp:110-116 takes a reference;
    race.hpp:169-194 and 507-518 set working[i]) up to its call of await_ready. *)
Definition create c i s : state :=
  let s1 := set_uc (S (uc s)) (set_ph i Starting s) in
  if is_race c then set_work i true s1 else s1.

(** The fork continues with the result of await_ready (race.hpp:205-213, 529-537;
    gather.hpp:100-107, 308-312; join.hpp:123-131, 400-405): when not ready, cancel[i] is set and
    the fork waits for the executor if that is not known yet. *)
Definition got_ready c i b s : state * list event :=
  match b with
  | BReady x => (finish c i true x s, [EDone i x])
  | BThrow e => (finish c i true (CThrow e) s, [EDone i (CThrow e)])
  | BPark =>
      let s1 := match knd c with Gather => s | _ => set_canc i true s end in
      if wired s1 then (push [KUser] (set_ph i Entering s1), [])
      else (set_ph i Parked s1, [])
  end.

Fixpoint all_some {A} (l : list (option A)) : option (list A) :=
  match l with
  | [] => Some []
  | Some a :: t => option_map (cons a) (all_some t)
  | None :: _ => None
  end.
Definition left_of {A B} (x : option (A + B)) : option A :=
  match x with Some (inl a) => Some a | _ => None end.

(** await_resume: gather.hpp:193-214, 388-413; join.hpp:222-276, 481-535
    (values of void children are included here as well);
    race.hpp:343-371, 654-682.  as_tuple of a race dereferences [result] even
    when there is an error, unless the race returns only an index. *)
Definition only_index c := if ranged c then void c 0 else all_void c.
Definition result c (s : state) : outcome :=
  match knd c with
  | Gather => match all_some (map (slot s) (idxs c)) with Some l => RAll l | None => RUndef end
  | Join =>
      match err s with
      | Some e => RThrow e
      | None => match all_some (map (fun i => left_of (slot s i)) (idxs c)) with
                | Some l => RVals l | None => RUndef end
      end
  | Race =>
      if only_index c then
        match err s with
        | Some e => RThrow e
        | None => match idx s with Some i => RWin i None | None => RUndef end
        end
      else
        match md c, err s, win s with
        | AsTuple, _, None => RUndef
        | _, Some e, _ => RThrow e
        | _, None, Some (i, v) =>
            (* variadic: the variant's index; ranged: (index, result) *)
            if ranged c then match idx s with Some j => RWin j (Some v) | None => RUndef end
            else if void c i then RWin i None else RWin i (Some v)
        | _, None, None => RUndef
        end
  end.

Definition gone s i : bool := match ph s i with Gone => true | _ => false end.
Definition running s i : bool := match ph s i with Entering | Susp => true | _ => false end.
Definition entering s i : bool := match ph s i with Entering => true | _ => false end.

(** A signal is sent to child [i]: it has an effect only while the child runs
    (a finished fork has cleared its slot, fork.hpp:168-173). *)
Definition emit i t s : state * list event :=
  if running s i then (push [KUser] s, [EEmit i t (entering s i)]) else (s, []).

(** await_suspend of child [i] has returned. *)
Definition settle i s : state * list event :=
  if entering s i then (set_ph i Susp s, [ESusp i]) else (s, []).

(** Library code [k] (already popped from the stack of [s]). *)
Definition exec c (k : item) (s : state) : option (state * list event) :=
  match k with
  | KUser => Some (s, [])
  (* gather.hpp:144-154, 342-352; join.hpp:173-183, 430-440; race.hpp:296-300, 608-613.
     Assigning last_forked destroys the fork it owned. *)
  | KRdy =>
      match todo s with
      | [] => match lastf s with
              | None => Some (s, [ENull])                (* last_forked.release() on null *)
              | Some _ => Some (push [KResume] (set_lastf None s), [])
              end
      | i :: l => Some (push [KUser; KBeg i; KRdyChk i] (create c i (set_todo l s)), [EStart i; EProbe i])
      end
  | KRdyChk i =>
      let free := match lastf s with Some j => [EFree j] | None => [] end in
      let s1 := set_lastf (Some i) s in
      if gone s i then
        match knd c with
        | Race => Some (push [KResume] s1, free)
        | _ => Some (push [KRdy] s1, free)
        end
      else Some (push [KGo i] s1, free)
  (* gather.hpp:167-168, 365-367; join.hpp:196-197, 454-456; race.hpp:309-310, 620-621 *)
  | KGo i => Some (push [KUser; KOut i] (set_ph i Entering (set_lastf None (set_wired true s))), [])
  | KOut i =>
      let (s1, ev) := settle i s in
      match knd c with
      | Race => Some (push [if uc s1 =? 0 then KResume else KStart] s1, ev)    (* race.hpp:312-313, 623-624 *)
      | _ => Some (push [KStart] s1, ev)
      end
  (* gather.hpp:169-170, 368-369; join.hpp:198-199, 457-458; race.hpp:315-323, 626-634 *)
  | KStart =>
      match todo s with
      | [] => Some (push [KArm] s, [])
      | i :: l => Some (push [KUser; KBeg i; KChk i] (create c i (set_todo l s)), [EStart i; EProbe i])
      end
  | KBeg _ => None                                                             (* see LBegin *)
  | KChk i =>
      let (s1, ev) := settle i s in
      match knd c with
      | Race => Some (push [if gone s1 i then KArm else KStart] s1, ev)
      | _ => Some (push [KStart] s1, ev)
      end
  (* gather.hpp:172-185, 371-384; join.hpp:201-218, 460-477; race.hpp:325-340, 636-651 *)
  | KArm =>
      match knd c, err s with
      | Join, Some _ => Some (push (cancel_all c ++ [KArm2]) s, [])            (* join.hpp:201-202, 460-461 *)
      | _, _ => Some (push [KArm2] s, [])
      end
  | KArm2 =>
      if uc s =? 0 then Some (push [KResume] s, [])
      else Some (set_coro true (set_armed true s), [EWait])
  (* gather.hpp:276-285, join.hpp:354-363 *)
  | KProbe i => Some (push [KUser] s, [EProbe i])
  | KResume =>
      Some (set_lastf None (set_fin true s),
            EResume (result c s) :: match lastf s with Some j => [EFree j] | None => [] end)
  (* race.hpp:143-148, 480-486 *)
  | KInt i =>
      if fin s then Some (s, [EDangling])
      else if work s i && intr c i then Some (push [KUser] s, [EInterrupt i]) else Some (s, [])
  (* gather.hpp:72-92, 293-302; join.hpp:95-115, 380-393 (ranged: [idx] stays 0) *)
  | KIntG i =>
      if fin s then Some (s, [EDangling])
      else if intr c i && match knd c with Join => canc s (if ranged c then 0 else i) | _ => true end
      then Some (push [KUser] s, [EInterrupt i]) else Some (s, [])
  | KEmit i =>
      if fin s then Some (s, [EDangling])
      else if canc s i then Some (emit i (if is_race c then rct c else ct_all) (set_canc i false s))
      else Some (s, [])
  (* gather.hpp:176-182, 375-381; join.hpp:208-215, 467-474; race.hpp:329-336, 640-647 *)
  | KFwd i t =>
      if fin s then Some (s, [EDangling])
      else if match knd c with Gather => true | _ => canc s i end then Some (emit i t s) else Some (s, [])
  | KTx i => Some (s, [ETxCommit i])
  | KFin i => Some (set_work i false s, [])
  (* fork.hpp:139-173 *)
  | KEnd i =>
      let s1 := set_uc (uc s - 1) (set_ph i Gone s) in
      if uc s =? 1 then
        if coro s then Some (push [KResume] (set_coro false s1), [EFree i]) else Some (s1, [EFree i])
      else Some (s1, [EFree i])
  end.

(** User code can run: event loop or [KUser] on top. *)
Definition user s : bool := match stk s with [] | KUser :: _ => true | _ => false end.

(** race.hpp:196-203, 520-527: the transaction function; the commit takes effect
    after it returned. *)
Definition transact c i s : option (state * list event) :=
  if is_race c && running s i then
    match idx s with
    | Some _ => Some (s, [ETxReject i])
    | None => Some (push (cancel_all c ++ [KTx i]) (set_idx (Some i) (set_canc i false s)), [ETxBegin i])
    end
  else None.

Definition step c (l : label) (s : state) : option (state * list event) :=
  match l with
  | LTau => match stk s with [] => None | k :: t => exec c k (set_stk t s) end
  | LBegin b => match stk s with
                | KBeg i :: t => Some (got_ready c i b (set_stk t s))
                | _ => None end
  | LComplete i x =>
      if user s && running s i then Some (finish c i false x s, [EDone i x]) else None
  | LTransact i => if user s then transact c i s else None
  | LCancel t =>
      if user s && armed s then
        if fin s then Some (s, [ECancelled t; EDangling])
        else Some (push (map (fun i => KFwd i t) (idxs c)) s, [ECancelled t])
      else None
  | LInterrupt =>
      if user s && coro s then
        Some (push (map (if is_race c then KInt else KIntG) (idxs c)) s, [EInterrupted])
      else None
  end.

Fixpoint run c (s : state) (ls : list label) : option (state * list event) :=
  match ls with
  | [] => Some (s, [])
  | l :: t =>
      match step c l s with
      | None => None
      | Some (s1, e1) =>
          match run c s1 t with
          | None => None
          | Some (s2, e2) => Some (s2, e1 ++ e2)
          end
      end
  end.

End Comb.
Arguments state V E : clear implicits.
Arguments event V E : clear implicits.
Arguments label V E : clear implicits.
Arguments comp V E : clear implicits.
Arguments outcome V E : clear implicits.
Arguments begin V E : clear implicits.
