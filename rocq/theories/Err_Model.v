(** * Model of the library's errors
    /repo/include/boost/cobalt/error.hpp lines 14-60, /repo/src/error.cpp lines 10-19,
    /repo/src/detail/exception.cpp lines 16-65. *)
From Coq Require Import List ZArith String.
Import ListNotations.
Local Open Scope string_scope.
Local Open Scope Z_scope.

(** error.hpp:14-22 *)
Inductive error := moved_from | detached | completed_unexpected | wait_not_ready | already_awaited | allocation_failed.

(** error.hpp:14-22, the numbers of the enumerators; error.cpp:16-19  make_error_code *)
Definition code (e : error) : Z :=
  match e with
  | moved_from => 0 | detached => 1 | completed_unexpected => 2
  | wait_not_ready => 3 | already_awaited => 4 | allocation_failed => 5
  end.

(** error.hpp:35-54  message, for any number *)
Definition message (ev : Z) : string :=
  match ev with
  | 0 => "moved from"
  | 1 => "detached"
  | 2 => "completed unexpected"
  | 3 => "wait not ready"
  | 4 => "already awaited"
  | 5 => "allocation failed"
  | _ => "unknown cobalt error"
  end.

(** boost::system::error_code in a boolean context: the category (error.hpp:25-60) does not
    override error_category::failed, which is ev != 0 *)
Definition failed (ev : Z) : bool := negb (ev =? 0).

(** exception.cpp:16-65: the code of the system_error each function makes *)
Definition exception_of (e : error) : Z :=
  match e with
  | moved_from => code moved_from                         (* exception.cpp:16-22 *)
  | detached => code detached                             (* exception.cpp:24-31 *)
  | completed_unexpected => code completed_unexpected     (* exception.cpp:33-40 *)
  | wait_not_ready => code wait_not_ready                 (* exception.cpp:42-48 *)
  | already_awaited => code already_awaited               (* exception.cpp:50-56 *)
  | allocation_failed => code already_awaited             (* exception.cpp:59-65 *)
  end.
