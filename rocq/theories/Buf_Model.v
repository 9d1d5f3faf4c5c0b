(** * Model of buffer sequences and of the transfer loops
    /repo/include/boost/cobalt/io/buffer.hpp lines 23-257 (mutable_buffer_sequence;
    const_buffer_sequence, 262-503, differs in the constness of the buffers only) and
    /repo/src/io/read.cpp lines 16-54, /repo/src/io/write.cpp lines 14-51.

    Simplifications: BOOST_ASIO_HAS_IO_URING is not defined (no union of head_ and
    registered_); an iterator is compared with iterators of the same sequence
    only.  asio's buffers are a pointer and a size; operator+= of asio clamps. *)
From Coq Require Import List Bool Arith ZArith.
Import ListNotations.

Record buffer := mkb { data : Z; size : nat }.
(** asio::mutable_buffer{} *)
Definition null : buffer := mkb 0 0.
(** asio: mutable_buffer::operator+= moves by min(n, size()) *)
Definition buf_add (b : buffer) (n : nat) : buffer :=
  let k := Nat.min n (size b) in mkb (data b + Z.of_nat k)%Z (size b - k).

(** buffer.hpp:246-256  head_ and tail_ *)
Record bseq := mks { head : buffer; tail : list buffer }.

(** buffer.hpp:25 *)
Definition buffer_count (s : bseq) : nat := length (tail s) + 1.
(** buffer.hpp:36 *)
Definition of_buffer (b : buffer) : bseq := mks b [].
(** buffer.hpp:52-65, 67-77 *)
Definition of_span (l : list buffer) : bseq :=
  match l with [] => mks null [] | h :: t => mks h t end.

(** buffer.hpp:86-88  the loop: what is left of the tail at idx, and n *)
Fixpoint skip (l : list buffer) (n : nat) : list buffer * nat :=
  match l with
  | [] => ([], n)
  | b :: r => if size b <? n then skip r (n - size b) else (l, n)
  end.

(** buffer.hpp:79-105  operator+= *)
Definition advance (s : bseq) (n : nat) : bseq :=
  if n <? size (head s) then mks (buf_add (head s) n) (tail s)
  else match skip (tail s) (n - size (head s)) with
       | ([], _) => mks null []
       | (b :: r, m) => mks (buf_add b m) r
       end.

(** ** Iterators *)
Definition word : Z := (2 ^ 64)%Z.
Definition smax : Z := (word - 1)%Z.
Definition wrap (x : Z) : Z := (x mod word)%Z.
(** static_cast<ptrdiff_t> *)
Definition signed (x : Z) : Z := (if x <? 2 ^ 63 then x else x - word)%Z.

(** buffer.hpp:214-217 *)
Record iter := mki { ihead : buffer; itail : list buffer; ioff : Z }.

(** buffer.hpp:116-118, 221, 223 *)
Definition begin (s : bseq) : iter := mki (head s) (tail s) smax.
Definition iend (s : bseq) : iter := mki (head s) (tail s) (wrap (Z.of_nat (length (tail s)))).

(** tail_[idx]; None: out of bounds *)
Definition at_tail (l : list buffer) (i : Z) : option buffer :=
  if ((0 <=? i) && (i <? Z.of_nat (length l)))%Z then nth_error l (Z.to_nat i) else None.

(** buffer.hpp:121-130 *)
Definition deref (i : iter) : option buffer :=
  if (ioff i =? smax)%Z then Some (ihead i) else at_tail (itail i) (ioff i).
(** buffer.hpp:132-143 *)
Definition next (i : iter) : iter := mki (ihead i) (itail i) (wrap (ioff i + 1)%Z).
(** buffer.hpp:145-156 *)
Definition prev (i : iter) : iter := mki (ihead i) (itail i) (wrap (ioff i - 1)%Z).
(** buffer.hpp:158-163, 172-176 *)
Definition plus (i : iter) (d : Z) : iter := mki (ihead i) (itail i) (wrap (ioff i + d)%Z).
(** buffer.hpp:165-170, 178-182 *)
Definition minus (i : iter) (d : Z) : iter := mki (ihead i) (itail i) (wrap (ioff i - d)%Z).
(** buffer.hpp:184-188 *)
Definition index (i : iter) (n : Z) : option buffer :=
  let idx := wrap (ioff i + n)%Z in if (idx =? smax)%Z then Some (ihead i) else at_tail (itail i) idx.
(** buffer.hpp:190-193 *)
Definition distance (a b : iter) : Z := (signed (ioff a) - signed (ioff b))%Z.
(** buffer.hpp:195-199, 201-211, for iterators of the same sequence *)
Definition less (a b : iter) : bool := (ioff a <? ioff b)%Z.
Definition equal (a b : iter) : bool := (ioff a =? ioff b)%Z.

(** for (auto i = begin(); i != end(); i++) use( *i); None: out of bounds or
    more than [fuel] steps *)
Fixpoint collect (fuel : nat) (i e : iter) : option (list buffer) :=
  if equal i e then Some []
  else match fuel with
       | 0 => None
       | S f => match deref i, collect f (next i) e with
                | Some b, Some r => Some (b :: r)
                | _, _ => None
                end
       end.

(** ** The loops of read.cpp and write.cpp *)
(** what an attempt to transfer gives: an error or not, and the number of bytes *)
Definition err := nat.
Definition answer := (option err * nat)%type.

(** asio::buffer_size: the sum over the sequence *)
Definition buffer_size (s : bseq) : nat := fold_right (fun b n => size b + n) 0 (head s :: tail s).

(** What one iteration meets: whether the coroutine has been cancelled when it
    asks, and the answer of the step. *)
Record turn := mkt { cancelled : bool; reply : answer }.

(** a request: the buffer sequence and the offset given to the step *)
Definition request := (bseq * Z)%type.

Inductive result :=
| Finished (e : option err) (m : nat)    (** co_return {e, m} *)
| Waiting.                               (** for the answer to the last request *)

(** operation_aborted *)
Definition aborted : err := 125.

(** read.cpp:16-33, 35-54 (write.cpp:14-31, 34-52); [at_] chooses the one with an offset.
    [last]: whether the coroutine has been cancelled when it asks after the loop.
    The result, and the requests made. *)
Fixpoint transfer (at_ : bool) (ts : list turn) (last : bool) (s : bseq) (off : Z) (m : nat) : result * list request :=
  let over := (Finished (if last then Some aborted else None) m, []) in
  if 0 <? buffer_size s then
    match ts with
    | [] => (Waiting, [(s, off)])
    | t :: r =>
        if cancelled t then (Finished (Some aborted) m, [])
        else
          let '(e, n) := reply t in
          match e with
          | Some x => (Finished (Some x) (m + n), [(s, off)])
          | None =>
              let '(res, reqs) := transfer at_ r last (advance s n)
                                    (if at_ then wrap (off + Z.of_nat n)%Z else off) (m + n) in
              (res, (s, off) :: reqs)
          end
    end
  else over.
