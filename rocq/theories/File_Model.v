(** * Model of random_access_file and stream_file::seek
    /repo/src/io/random_access_file.cpp lines 15-116, /repo/src/io/stream_file.cpp lines
    43-48 and 105-111, on a file with contents and a position (one open file
    description).

    Simplifications: a regular file, whose reads and writes are done at once and
    completely (up to the end of the file); a file without holes; one operation
    at a time; no other process changes it. *)
From Coq Require Import List Bool Arith ZArith.
Import ListNotations.
Local Open Scope Z_scope.

Record file := mkf { data : list Z; pos : Z }.
Definition fsize (f : file) : Z := Z.of_nat (length (data f)).

Inductive error := EINVAL | ENXIO | Eof.
Inductive outcome (A : Type) := Ok (a : A) | Err (e : error) | Throw (e : error).
Arguments Ok {A}. Arguments Err {A}. Arguments Throw {A}.

(** conversion of a 64 bit number to int *)
Definition to_int (x : Z) : Z := let y := x mod 4294967296 in if y <? 2147483648 then y else y - 4294967296.

Definition SEEK_SET := 0. Definition SEEK_CUR := 1. Definition SEEK_END := 2.
Definition SEEK_DATA := 3. Definition SEEK_HOLE := 4.

(** lseek(2) of Linux on a file without holes *)
Definition lseek (f : file) (off whence : Z) : outcome Z * file :=
  let go p := if p <? 0 then (Err EINVAL, f) else (Ok p, mkf (data f) p) in
  if whence =? SEEK_SET then go off
  else if whence =? SEEK_CUR then go (pos f + off)
  else if whence =? SEEK_END then go (fsize f + off)
  else if whence =? SEEK_DATA then if (off <? 0) || (fsize f <=? off) then (Err ENXIO, f) else go off
  else if whence =? SEEK_HOLE then if (off <? 0) || (fsize f <=? off) then (Err ENXIO, f) else go (fsize f)
  else (Err EINVAL, f).

(** contents from p, at most n bytes *)
Definition bytes_at (f : file) (p : Z) (n : nat) : list Z := firstn n (skipn (Z.to_nat p) (data f)).
(** contents after writing bs at p; a gap is filled with 0 *)
Definition overwritten (f : file) (p : Z) (bs : list Z) : list Z :=
  firstn (Z.to_nat p) (data f) ++ repeat 0 (Z.to_nat p - length (data f)) ++ bs
  ++ skipn (Z.to_nat p + length bs) (data f).

(** read(2), write(2) as async_read_some and async_write_some use them; nothing read into a
    non-empty buffer: asio's eof *)
Definition sys_read (f : file) (n : nat) : outcome (list Z) * file :=
  let r := bytes_at f (pos f) n in
  (match r, n with [], S _ => Err Eof | _, _ => Ok r end, mkf (data f) (pos f + Z.of_nat (length r))).
Definition sys_write (f : file) (bs : list Z) : outcome nat * file :=
  (Ok (length bs),
   mkf (match bs with [] => data f | _ => overwritten f (pos f) bs end) (pos f + Z.of_nat (length bs))).
(** pread(2), pwrite(2): random_access_file of asio *)
Definition sys_pread (f : file) (off : Z) (n : nat) : outcome (list Z) * file :=
  let r := bytes_at f off n in
  (match r, n with [], S _ => Err Eof | _, _ => Ok r end, f).
Definition sys_pwrite (f : file) (off : Z) (bs : list Z) : outcome nat * file :=
  (Ok (length bs), mkf (match bs with [] => data f | _ => overwritten f off bs end) (pos f)).

Section Config.
(** BOOST_ASIO_HAS_FILE (io_uring) *)
Variable has_file : bool.

(** random_access_file.cpp:41-44; 80-92, 107-110: lseek(fd, SEEK_SET, offset) *)
Definition read_some_at (f : file) (offset : Z) (n : nat) : outcome (list Z) * file :=
  if has_file then sys_pread f offset n
  else match lseek f SEEK_SET (to_int offset) with
       | (Err e, f) | (Throw e, f) => (Err e, f)
       | (Ok _, f) => sys_read f n
       end.

(** random_access_file.cpp:45-48; 94-105, 111-114 *)
Definition write_some_at (f : file) (offset : Z) (bs : list Z) : outcome nat * file :=
  if has_file then sys_pwrite f offset bs
  else match lseek f SEEK_SET (to_int offset) with
       | (Err e, f) | (Throw e, f) => (Err e, f)
       | (Ok _, f) => sys_write f bs
       end.

(** stream_file.cpp:43-48: the overload of asio's seek without ec throws; 105-111: return {} *)
Definition seek (f : file) (offset whence : Z) : outcome Z * file :=
  match lseek f offset whence with
  | (Ok n, f) => if has_file then (Ok n, f) else (Ok 0, f)
  | (Err e, f) | (Throw e, f) => if has_file then (Throw e, f) else (Err e, f)
  end.
End Config.
