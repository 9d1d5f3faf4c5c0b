(** * Properties C43, C59: random access, seek *)
From Coq Require Import List Bool Arith ZArith Lia.
From Verif Require Import File_Model File_Spec File_Proofs.
Import ListNotations.
Local Open Scope Z_scope.

(** ** C43: reads and writes at the requested offset *)

(** With asio's files (io_uring): for every offset and position. *)
Theorem C43_read_partial : forall f off n r f', 0 <= off ->
  read_some_at true f off n = (r, f') ->
  f' = f /\
  match r with
  | Ok bs => read_from (data f) (Z.to_nat off) n bs
  | Err e => e = Eof /\ (0 < n)%nat /\ fsize f <= off
  | Throw _ => False
  end.
Proof.
  intros f off n r f' Ho H. unfold read_some_at, sys_pread in H.
  pose proof (bytes_at_spec f off n Ho) as S. injection H as Hr Hf. split; [symmetry; exact Hf|].
  destruct (bytes_at f off n) as [|b bs] eqn:E.
  - destruct n as [|n]; subst r; [exact S|]. split; [reflexivity|]. split; [lia|].
    destruct S as [L _]. cbn [length] in L. unfold fsize. lia.
  - subst r. exact S.
Qed.
Print Assumptions C43_read_partial.

Theorem C43_write_partial : forall f off bs r f', 0 <= off ->
  write_some_at true f off bs = (r, f') ->
  r = Ok (length bs) /\ pos f' = pos f /\ written_to (data f) (Z.to_nat off) bs (data f').
Proof.
  intros f off bs r f' Ho H. unfold write_some_at, sys_pwrite in H. injection H as Hr Hf. subst f'.
  split; [symmetry; exact Hr|]. split; [reflexivity|]. exact (overwritten_spec f off bs Ho).
Qed.
Print Assumptions C43_write_partial.

(** Without: where an access of the fallback takes place, for every offset below 2^31. *)
Theorem C43_fallback_read_partial : forall f off n r f', ok_file f -> 0 <= off < 2147483648 ->
  read_some_at false f off n = (r, f') ->
  match place f off with
  | None => (exists e, r = Err e) /\ f' = f
  | Some p =>
    data f' = data f /\
    match r with
    | Ok bs => read_from (data f) (Z.to_nat p) n bs
    | Err e => e = Eof /\ (0 < n)%nat /\ fsize f <= p
    | Throw _ => False
    end
  end.
Proof.
  intros f off n r f' K Ho H. pose proof (lseek_place f off K Ho) as P. unfold read_some_at in H.
  destruct (place f off) as [p|] eqn:Ep.
  - rewrite P in H. unfold sys_read in H. cbn [data pos] in H.
    assert (0 <= p).
    { revert Ep. unfold place, fsize. unfold ok_file in K.
      repeat match goal with |- context [?x =? ?y] => destruct (x =? y) end; intro Ep; inversion Ep; lia. }
    pose proof (bytes_at_spec f p n H0) as S. unfold bytes_at in *. cbn [data] in *.
    injection H as Hr Hf. subst f'. split; [reflexivity|].
    destruct (firstn n (skipn (Z.to_nat p) (data f))) as [|b bs] eqn:E.
    + destruct n as [|n]; subst r; [exact S|]. split; [reflexivity|]. split; [lia|].
      destruct S as [L _]. cbn [length] in L. unfold fsize. lia.
    + subst r. exact S.
  - destruct P as [e P]. rewrite P in H. injection H as <- <-. split; [exists e; reflexivity | reflexivity].
Qed.
Print Assumptions C43_fallback_read_partial.

Theorem C43_fallback_write_partial : forall f off bs r f', ok_file f -> 0 <= off < 2147483648 ->
  write_some_at false f off bs = (r, f') ->
  match place f off with
  | None => (exists e, r = Err e) /\ f' = f
  | Some p => r = Ok (length bs) /\ written_to (data f) (Z.to_nat p) bs (data f')
  end.
Proof.
  intros f off bs r f' K Ho H. pose proof (lseek_place f off K Ho) as P. unfold write_some_at in H.
  destruct (place f off) as [p|] eqn:Ep.
  - rewrite P in H. unfold sys_write in H. cbn [data pos] in H.
    assert (0 <= p).
    { revert Ep. unfold place, fsize. unfold ok_file in K.
      repeat match goal with |- context [?x =? ?y] => destruct (x =? y) end; intro Ep; inversion Ep; lia. }
    pose proof (overwritten_spec (mkf (data f) p) p bs H0) as S.
    injection H as Hr Hf. subst f'. cbn [data] in *. split; [symmetry; exact Hr|exact S].
  - destruct P as [e P]. rewrite P in H. injection H as <- <-. split; [exists e; reflexivity | reflexivity].
Qed.
Print Assumptions C43_fallback_write_partial.

(** So: every offset from 5 on (and of larger ones, every one whose low 32 bits are not
    below 5) is refused, with EINVAL, whatever the file is. *)
Theorem C43_refused_refuted : forall f off n bs, 5 <= off mod 2 ^ 32 ->
  read_some_at false f off n = (Err EINVAL, f) /\ write_some_at false f off bs = (Err EINVAL, f).
Proof.
  intros f off n bs H. unfold read_some_at, write_some_at. rewrite lseek_zero.
  assert (K : to_int off < 0 \/ 5 <= to_int off).
  { unfold to_int. cbv zeta. change 4294967296 with (2 ^ 32). pose proof (Z.mod_pos_bound off (2 ^ 32) ltac:(lia)).
    destruct (Z.ltb_spec (off mod 2 ^ 32) 2147483648); lia. }
  set (w := to_int off) in *.
  destruct (Z.eqb_spec w 0), (Z.eqb_spec w 1), (Z.eqb_spec w 2), (Z.eqb_spec w 3), (Z.eqb_spec w 4); try lia.
  split; reflexivity.
Qed.
Print Assumptions C43_refused_refuted.
Example C43_refused_nonvacuous : 5 <= 5 mod 2 ^ 32 /\ 5 <= (2 ^ 40 + 2 ^ 31) mod 2 ^ 32.
Proof. split; discriminate. Qed.

(** Offsets that differ by a multiple of 4 GiB are the same place. *)
Theorem C43_wraps_refuted : forall f off k n bs,
  read_some_at false f (off + k * 2 ^ 32) n = read_some_at false f off n /\
  write_some_at false f (off + k * 2 ^ 32) bs = write_some_at false f off bs.
Proof.
  intros f off k n bs. unfold read_some_at, write_some_at.
  replace (to_int (off + k * 2 ^ 32)) with (to_int off); [split; reflexivity|].
  unfold to_int. change 4294967296 with (2 ^ 32). rewrite Z.mod_add by lia. reflexivity.
Qed.
Print Assumptions C43_wraps_refuted.

(** Offset 1 is the current position, offset 2 the end of the file, offset 2^32 its
    start: a write at offset 2 appends, one at 2^32 overwrites the first bytes. *)
Theorem C43_misplaced_refuted :
  let f := mkf [10;11;12;13;14;15] 4 in
  read_some_at false f 1 2 = (Ok [14;15], mkf (data f) 6) /\
  read_some_at false f 2 2 = (Err Eof, mkf (data f) 6) /\
  write_some_at false f 2 [7] = (Ok 1%nat, mkf [10;11;12;13;14;15;7] 7) /\
  write_some_at false f 4294967296 [7] = (Ok 1%nat, mkf [7;11;12;13;14;15] 1).
Proof. repeat split. Qed.
Print Assumptions C43_misplaced_refuted.

Example C43_nonvacuous :
  let f := mkf [10;11;12;13;14;15] 4 in
  ok_file f /\ place f 0 = Some 0 /\
  read_some_at true f 2 3 = (Ok [12;13;14], f) /\ read_some_at false f 0 3 = (Ok [10;11;12], mkf (data f) 3) /\
  write_some_at true f 8 [1;2] = (Ok 2%nat, mkf [10;11;12;13;14;15;0;0;1;2] 4).
Proof. cbv zeta. unfold ok_file. cbn [pos]. split; [lia|]. repeat split. Qed.

(** ** C59: seek reports the new position or an error *)
Theorem C59_seek_moves : forall b f off whence r f', seek b f off whence = (r, f') ->
  whence = 0 \/ whence = 1 \/ whence = 2 ->
  let target := (if whence =? 0 then 0 else if whence =? 1 then pos f else fsize f) + off in
  data f' = data f /\
  (0 <= target -> pos f' = target /\ exists n, r = Ok n) /\
  (target < 0 -> f' = f /\ (r = Err EINVAL \/ r = Throw EINVAL)).
Proof.
  intros b f off whence r f' H W. cbv zeta. unfold seek, lseek, SEEK_SET, SEEK_CUR, SEEK_END in H.
  destruct W as [W|[W|W]]; subst whence; cbn [Z.eqb Pos.eqb] in *; cbv zeta in H;
  match type of H with context [?t <? 0] => destruct (Z.ltb_spec t 0) end;
  destruct b; injection H as <- <-; cbn [data pos] in *;
  (split; [reflexivity|]; split; intro; try lia; split; try reflexivity; try lia; try (eexists; reflexivity); auto).
Qed.
Print Assumptions C59_seek_moves.

(** With asio's files the result is the position ... *)
Theorem C59_seek_result_partial : forall f off whence n f', seek true f off whence = (Ok n, f') -> n = pos f'.
Proof.
  intros f off whence n f' H. unfold seek in H.
  destruct (lseek f off whence) as [[m|e|e] g] eqn:E; try discriminate. injection H as <- <-.
  unfold lseek in E. repeat match type of E with context [if ?b then _ else _] => destruct b end;
    try discriminate; injection E as <- <-; reflexivity.
Qed.
Print Assumptions C59_seek_result_partial.

(** ... but errors are thrown, although the function returns a result ... *)
Theorem C59_seek_throws_refuted : forall f off, off < 0 -> seek true f off SEEK_SET = (Throw EINVAL, f).
Proof. intros f off H. unfold seek, lseek. cbn [Z.eqb SEEK_SET]. destruct (Z.ltb_spec off 0); [reflexivity|lia]. Qed.
Print Assumptions C59_seek_throws_refuted.

(** ... and without them every successful seek reports 0. *)
Theorem C59_seek_zero_refuted : forall f off, 0 <= off ->
  seek false f off SEEK_SET = (Ok 0, mkf (data f) off).
Proof. intros f off H. unfold seek, lseek. cbn [Z.eqb SEEK_SET]. destruct (Z.ltb_spec off 0); [lia|reflexivity]. Qed.
Print Assumptions C59_seek_zero_refuted.

Example C59_nonvacuous :
  let f := mkf [10;11;12;13;14;15] 4 in
  seek true f 1 SEEK_CUR = (Ok 5, mkf (data f) 5) /\ seek true f (-2) SEEK_END = (Ok 4, f) /\
  seek false f 3 SEEK_SET = (Ok 0, mkf (data f) 3) /\ seek false f (-3) SEEK_SET = (Err EINVAL, f).
Proof. repeat split. Qed.
