(** * Model of the three ways to look at what was awaited
    /repo/include/boost/cobalt/result.hpp lines 35-81 (interpret_as_result), 86-141 (as_result_t),
    199-282 (as_tuple_t), and every await_resume that takes as_result_tag or as_tuple_tag:
    op.hpp 86-112, detail/promise.hpp 48-53, 93-103, 212-251, detail/task.hpp 47-52, 93-103, 197-227,
    detail/generator.hpp 252-276, impl/channel.hpp 145-161, 266-276, src/channel.cpp 81-89, 126-135,
    detail/race.hpp 342-370, 653-681, detail/join.hpp 221-274, 481-536, detail/thread.hpp 166-200.

    A source is what the awaitable holds when the coroutine is resumed.  Each of the three
    forms is what co_await x, co_await as_result(x) and co_await as_tuple(x) then do.

    Simplifications: values are numbers, a default constructed value is 0; moving a value out
    is reading it; the error_code of a result and the system_error that value() throws for it
    are identified; effects of the resumption other than its result are in the
    models of the parts (Promise, Gen, Channel, ...).  Combinations that do not
    compile (join of values with as_result, join of a range of void) are left out. *)
From Coq Require Import List Bool Arith ZArith.
Import ListNotations.

Definition exn := nat.
Inductive out (A : Type) := Ret (a : A) | Thr (e : exn) | Ub.
Arguments Ret {A} a. Arguments Thr {A} e. Arguments Ub {A}.

(** one argument of a completion handler; AErr: an error_code or exception_ptr, None: no error *)
Inductive arg := AVal (v : Z) | AErr (e : option exn).

(** system::result<V, E> *)
Inductive res (V : Type) := Ok (v : V) | Err (e : exn).
Arguments Ok {V} v. Arguments Err {V} e.

(** what co_await gives: the arguments that make up the value *)
Definition val := list arg.
(** what as_tuple gives: a std::tuple, or something bare that is none *)
Record tup := mkt { bare : bool; elems : list arg }.

(** result.hpp:35-81 *)
Definition interpret_as_result (args : list arg) : res val :=
  match args with
  | [] => Ok []                                     (* 35-38 *)
  | [AErr (Some e)] => Err e                        (* 45-46 *)
  | [AErr None] => Ok []                            (* 47-48 *)
  | [AVal v] => Ok [AVal v]                         (* 51-52 *)
  | AVal v :: r => Ok (AVal v :: r)                 (* 55-60 *)
  | AErr (Some e) :: r => Err e                     (* 62-67, 74-78 *)
  | AErr None :: r => Ok r                          (* 68-71, 80 *)
  end.

(** system::result::value() *)
Definition value {V} (r : res V) : out V := match r with Ok v => Ret v | Err e => Thr e end.
(** system::result::error(): an empty error if there is none *)
Definition error {V} (r : res V) : option exn := match r with Err e => Some e | Ok _ => None end.

Inductive kind := Void | Single | Tuple (n : nat).
(** T{} *)
Definition default (k : kind) : val :=
  match k with Void => [] | Single => [AVal 0] | Tuple n => repeat (AVal 0) n end.

(** what is stored by promise and task: lines 43-110 of detail/promise.hpp, 42-112 of detail/task.hpp *)
Record recv := mkr { exception : option exn; done : bool; stored : option val }.
(** detail/promise.hpp:93-103, detail/task.hpp:93-103 *)
Definition get_result (k : kind) (r : recv) : out (res val) :=
  match exception r with
  | Some e => Ret (Err e)
  | None => match k, stored r with
            | Void, _ => Ret (Ok [])
            | _, Some v => Ret (Ok v)
            | _, None => Ub
            end
  end.

Inductive source :=
| SOp (init_ep : option exn) (result : option (list arg))
| SGeneric (k : kind) (noexc : bool) (o : res val)            (** an awaitable without special forms *)
| SPromise (k : kind) (ex : option exn) (r : recv)
| STask (k : kind) (r : recv)
| SGenerator (ex exc : option exn) (result : option val)
| SChannel (k : kind) (r : res val)       (** what the form with as_result_tag computed: impl/channel.hpp:163-201, 278-323, channel.cpp:45-79, 92-123 *)
| SRace (all_void : bool) (error : option exn) (index : Z) (result : option val)
| SJoin (all_void : bool) (error : option exn) (results : list (option arg)) (** detail/join.hpp:38-280 *)
| SJoinRange (error : option exn) (results : list (option arg))                  (** detail/join.hpp:282-539 *)
| SThread (r : option (option exn)).

Section Current.
(** what std::current_exception() gives: not null if the coroutine is resumed below a catch block *)
Variable current : option exn.

Fixpoint all_of (l : list (option arg)) : out val :=
  match l with
  | [] => Ret []
  | Some a :: r => match all_of r with Ret v => Ret (a :: v) | Thr e => Thr e | Ub => Ub end
  | None :: _ => Ub
  end.

Definition lift {A B} (f : A -> B) (o : out A) : out B := match o with Ret a => Ret (f a) | Thr e => Thr e | Ub => Ub end.
Definition bind {A B} (o : out A) (f : A -> out B) : out B := match o with Ret a => f a | Thr e => Thr e | Ub => Ub end.

(** co_await x *)
Definition plain (s : source) : out val :=
  match s with
  | SOp (Some e) _ => Thr e                                                        (* op.hpp:89-90 *)
  | SOp None (Some args) => value (interpret_as_result args)                       (* op.hpp:91 *)
  | SOp None None => Ub
  | SGeneric _ _ o => value o
  | SPromise _ (Some e) _ => Thr e                                                 (* promise.hpp:216-217 *)
  | SPromise k None r => bind (get_result k r) value                               (* promise.hpp:218 *)
  | STask k r => bind (get_result k r) value                                       (* task.hpp:202 *)
  | SGenerator (Some e) _ _ => Thr e                                               (* generator.hpp:254, 271-272 *)
  | SGenerator None (Some e) _ => Thr e                                            (* generator.hpp:273-274 *)
  | SGenerator None None (Some v) => Ret v
  | SGenerator None None None => Thr 0                                             (* generator.hpp:275-276 *)
  | SChannel _ r => value r                                                        (* impl/channel.hpp:148, 275; channel.cpp:83, 128 *)
  | SRace _ (Some e) _ _ => Thr e                                                  (* race.hpp:345-346, 656-657 *)
  | SRace true None i _ => Ret [AVal i]                                            (* race.hpp:347-348, 658-659 *)
  | SRace false None i (Some v) => Ret (AVal i :: v)                               (* race.hpp:350, 661 *)
  | SRace false None _ None => Ub
  | SJoin _ (Some e) _ | SJoinRange (Some e) _ => Thr e                            (* join.hpp:224-225, 522-523 *)
  | SJoin true None _ => Ret []
  | SJoin false None l | SJoinRange None l => all_of l                             (* join.hpp:226-233, 531-534 *)
  | SThread None => Ret []                                                         (* thread.hpp:172-173 *)
  | SThread (Some (Some e)) => Thr e                                               (* thread.hpp:174-175 *)
  | SThread (Some None) => Ret []
  end.

(** co_await as_result(x) *)
Definition with_result (s : source) : out (res val) :=
  match s with
  | SOp (Some e) _ => Thr e                                                        (* op.hpp:109-110 *)
  | SOp None (Some args) => Ret (interpret_as_result args)                         (* op.hpp:111 *)
  | SOp None None => Ub
  | SGeneric _ _ (Ok v) => Ret (Ok v)                                              (* result.hpp:115-116, 129 *)
  | SGeneric _ _ (Err e) => Ret (Err e)                                            (* result.hpp:118-121, 131-134 *)
  | SPromise _ (Some e) _ => Ret (Err e)                                           (* promise.hpp:225-226 *)
  | SPromise k None r => get_result k r                                            (* promise.hpp:227 *)
  | STask k r => get_result k r                                                    (* task.hpp:209 *)
  | SGenerator (Some e) _ _ => Ret (Err e)
  | SGenerator None (Some e) _ => Ret (Err e)
  | SGenerator None None (Some v) => Ret (Ok v)
  | SGenerator None None None => Ret (Err 0)
  | SChannel _ r => Ret r
  | SRace _ (Some e) _ _ => Ret (Err e)                                            (* race.hpp:364-365, 675-676 *)
  | SRace true None i _ => Ret (Ok [AVal i])
  | SRace false None i (Some v) => Ret (Ok (AVal i :: v))
  | SRace false None _ None => Ub
  | SJoin _ (Some e) _ | SJoinRange (Some e) _ => Ret (Err e)                      (* join.hpp:261-262, 508-509 *)
  | SJoin true None _ => Ret (Ok [])                                               (* join.hpp:273 *)
  | SJoin false None l | SJoinRange None l => lift Ok (all_of l)                   (* join.hpp:510-515 *)
  | SThread None => Ret (Ok [])                                                    (* thread.hpp:184-185 *)
  | SThread (Some (Some e)) => Ret (Err e)
  | SThread (Some None) => Ret (Ok [])
  end.

(** co_await as_tuple(x) *)
Definition with_tuple (s : source) : out tup :=
  match s with
  | SOp (Some e) _ => Thr e                                                        (* op.hpp:99-100 *)
  | SOp None (Some args) => Ret (mkt false args)                                   (* op.hpp:101 *)
  | SOp None None => Ub
  | SGeneric _ true (Ok v) => Ret (mkt false v)                                    (* result.hpp:222-232 *)
  | SGeneric _ true (Err e) => Thr e
  | SGeneric _ false (Ok v) => Ret (mkt false (AErr None :: v))                    (* result.hpp:239-240, 252 *)
  | SGeneric k false (Err e) => Ret (mkt false (AErr (Some e) :: default k))       (* result.hpp:244, 256 *)
  | SPromise Void (Some e) _ => Ret (mkt true [AErr (Some e)])                     (* promise.hpp:237-238 *)
  | SPromise Void None r => lift (fun x => mkt true [AErr (error x)]) (get_result Void r)   (* promise.hpp:239 *)
  | SPromise k (Some e) _ => Ret (mkt false (AErr (Some e) :: default k))          (* promise.hpp:243-244 *)
  | SPromise k None r =>                                                           (* promise.hpp:245-249 *)
      lift (fun x => match x with
                     | Err e => mkt false (AErr (Some e) :: default k)
                     | Ok v => mkt false (AErr None :: v)
                     end) (get_result k r)
  | STask Void r => lift (fun x => mkt true [AErr (error x)]) (get_result Void r)  (* task.hpp:217-218 *)
  | STask k r =>                                                                   (* task.hpp:221-224 *)
      lift (fun x => match x with
                     | Err e => mkt false (AErr (Some e) :: default k)
                     | Ok v => mkt false (AErr None :: v)
                     end) (get_result k r)
  | SGenerator (Some e) _ _ | SGenerator None (Some e) _ => Ret (mkt false [AErr (Some e); AVal 0])  (* generator.hpp:260-262 *)
  | SGenerator None None (Some v) => Ret (mkt false (AErr None :: v))              (* generator.hpp:264 *)
  | SGenerator None None None => Ret (mkt false [AErr (Some 0); AVal 0])
  | SChannel Void r => Ret (mkt false [AErr (error r)])                            (* impl/channel.hpp:269; channel.cpp:88, 134 *)
  | SChannel k (Err e) => Ret (mkt false (AErr (Some e) :: default k))             (* impl/channel.hpp:156-157 *)
  | SChannel _ (Ok v) => Ret (mkt false (AErr None :: v))                          (* impl/channel.hpp:159 *)
  | SRace true e i _ => Ret (mkt false [AErr e; AVal i])                           (* race.hpp:355-356, 666-667 *)
  | SRace false e i (Some v) => Ret (mkt false (AErr e :: AVal i :: v))            (* race.hpp:358, 669 *)
  | SRace false _ _ None => Ub                                                     (* race.hpp:358, 669: *result *)
  | SJoin true e _ => Ret (mkt false [AErr e])                                     (* join.hpp:254 *)
  | SJoin false (Some e) l => Ret (mkt false (AErr (Some e) :: repeat (AVal 0) (length l)))   (* join.hpp:241-242 *)
  | SJoin false None l => lift (fun v => mkt false (AErr current :: v)) (all_of l) (* join.hpp:244-251 *)
  | SJoinRange (Some e) _ => Ret (mkt false [AErr (Some e)])                       (* join.hpp:489-490 *)
  | SJoinRange None l => lift (fun v => mkt false (AErr None :: v)) (all_of l)     (* join.hpp:491-496 *)
  | SThread None => Ub                                                             (* thread.hpp:199 *)
  | SThread (Some e) => Ret (mkt false [AErr e])
  end.
End Current.

(** detail/race.hpp, detail/join.hpp, detail/thread.hpp etc.: the states in which they resume the
    coroutine.  A race holds an error or a result; the sources of a noexcept await_resume
    do not fail; a promise is resumed with an exception or a value. *)
Definition possible (s : source) : Prop :=
  match s with
  | SOp None r => r <> None
  | SGeneric _ noexc o => noexc = true -> exists v, o = Ok v
  | SPromise k None r | STask k r => get_result k r <> Ub
  | SRace false None _ r => r <> None
  | SChannel Void (Ok v) => v = []
  | _ => True
  end.
