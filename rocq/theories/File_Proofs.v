(** * Proofs about files *)
From Coq Require Import List Bool Arith ZArith Lia.
From Verif Require Import File_Model File_Spec.
Import ListNotations.
Local Open Scope Z_scope.

Lemma nth_firstn : forall (l : list Z) n i, (i < n)%nat -> nth_error (firstn n l) i = nth_error l i.
Proof.
  induction l as [|x l IH]; intros [|n] [|i] H; cbn; try lia; try reflexivity. apply IH. lia.
Qed.
Lemma nth_skipn : forall (l : list Z) n i, nth_error (skipn n l) i = nth_error l (n + i).
Proof.
  induction l as [|x l IH]; intros [|n] i; cbn [skipn Nat.add nth_error]; try reflexivity.
  - destruct i; reflexivity.
  - apply IH.
Qed.
Lemma bytes_at_spec : forall f p n, 0 <= p -> read_from (data f) (Z.to_nat p) n (bytes_at f p n).
Proof.
  intros f p n H. unfold read_from, bytes_at, byte_at. rewrite firstn_length, skipn_length. split; [lia|].
  intros i Hi. rewrite nth_firstn by lia. apply nth_skipn.
Qed.
Lemma nth_repeat0 : forall k i, (i < k)%nat -> nth_error (repeat 0 k) i = Some 0.
Proof. induction k; intros [|i] H; cbn; try lia; try reflexivity. apply IHk. lia. Qed.

Lemma overwritten_spec : forall f p bs, 0 <= p ->
  written_to (data f) (Z.to_nat p) bs (match bs with [] => data f | _ => overwritten f p bs end).
Proof.
  intros f p bs H. destruct bs as [|b bs].
  - unfold written_to. split; [reflexivity|]. split; [intro K; exfalso; apply K; reflexivity|].
    intro i. cbn [length Nat.eqb negb]. rewrite andb_false_r.
    replace ((Z.to_nat p <=? i) && (i <? Z.to_nat p + 0))%nat with false
      by (symmetry; apply andb_false_iff; destruct (Nat.leb_spec (Z.to_nat p) i); [right; apply Nat.ltb_ge; lia | left; reflexivity]).
    destruct (Nat.ltb_spec i (length (data f))); [reflexivity|]. apply nth_error_None. lia.
  - set (w := b :: bs). set (q := Z.to_nat p). set (d := data f).
    assert (L : length (overwritten f p w) = Nat.max (length d) (q + length w)).
    { unfold overwritten. fold q d. rewrite !app_length, firstn_length, repeat_length, skipn_length. lia. }
    split; [discriminate|]. split; [intros _; exact L|]. intro i. unfold byte_at.
    assert (W : (length w =? 0)%nat = false) by reflexivity. rewrite W. cbn [negb]. rewrite andb_true_r. clear W.
    unfold overwritten. fold q d.
    destruct (Nat.leb_spec q i) as [Q|Q]; cbn [andb].
    + rewrite app_assoc.
      rewrite nth_error_app2 by (rewrite app_length, firstn_length, repeat_length; lia).
      rewrite app_length, firstn_length, repeat_length.
      replace (i - (Nat.min q (length d) + (q - length d)))%nat with (i - q)%nat by lia.
      destruct (Nat.ltb_spec i (q + length w)).
      * rewrite nth_error_app1 by lia. reflexivity.
      * rewrite nth_error_app2 by lia. rewrite nth_skipn.
        replace (q + length w + (i - q - length w))%nat with i by lia.
        destruct (Nat.ltb_spec i (length d)); [reflexivity|].
        destruct (Nat.ltb_spec i q); [lia|]. apply nth_error_None. lia.
    + destruct (Nat.ltb_spec i (length d)).
      * rewrite nth_error_app1 by (rewrite firstn_length; lia). apply nth_firstn. lia.
      * rewrite nth_error_app2 by (rewrite firstn_length; lia). rewrite firstn_length.
        rewrite nth_error_app1 by (rewrite repeat_length; lia).
        rewrite nth_repeat0 by lia. destruct (Nat.ltb_spec i q); [reflexivity|lia].
Qed.

(** ** Where the fallback goes *)
Lemma lseek_zero : forall f w,
  lseek f SEEK_SET w =
  (if w =? 0 then (Ok 0, mkf (data f) 0)
   else if w =? 1 then (if pos f + 0 <? 0 then (Err EINVAL, f) else (Ok (pos f + 0), mkf (data f) (pos f + 0)))
   else if w =? 2 then (if fsize f + 0 <? 0 then (Err EINVAL, f) else (Ok (fsize f + 0), mkf (data f) (fsize f + 0)))
   else if w =? 3 then (if fsize f <=? 0 then (Err ENXIO, f) else (Ok 0, mkf (data f) 0))
   else if w =? 4 then (if fsize f <=? 0 then (Err ENXIO, f) else
                         if fsize f <? 0 then (Err EINVAL, f) else (Ok (fsize f), mkf (data f) (fsize f)))
   else (Err EINVAL, f)).
Proof. intros f w. reflexivity. Qed.

Definition ok_file (f : file) : Prop := 0 <= pos f.

Lemma to_int_small : forall x, 0 <= x < 2147483648 -> to_int x = x.
Proof.
  intros x H. unfold to_int. rewrite Z.mod_small by lia.
  destruct (Z.ltb_spec x 2147483648); [reflexivity|lia].
Qed.

(** the fallback's place for an offset that fits an int: None: an error *)
Definition place (f : file) (offset : Z) : option Z :=
  if offset =? 0 then Some 0 else if offset =? 1 then Some (pos f) else if offset =? 2 then Some (fsize f)
  else if offset =? 3 then (if fsize f =? 0 then None else Some 0)
  else if offset =? 4 then (if fsize f =? 0 then None else Some (fsize f))
  else None.

Lemma lseek_place : forall f off, ok_file f -> 0 <= off < 2147483648 ->
  match place f off with
  | Some p => lseek f SEEK_SET (to_int off) = (Ok p, mkf (data f) p)
  | None => exists e, lseek f SEEK_SET (to_int off) = (Err e, f)
  end.
Proof.
  intros f off K H. rewrite lseek_zero, to_int_small by assumption. unfold place, ok_file in *.
  assert (S : 0 <= fsize f) by (unfold fsize; lia). rewrite !Z.add_0_r.
  destruct (off =? 0); [reflexivity|]. destruct (off =? 1).
  { destruct (Z.ltb_spec (pos f) 0); [lia|reflexivity]. }
  destruct (off =? 2). { destruct (Z.ltb_spec (fsize f) 0); [lia|reflexivity]. }
  destruct (off =? 3).
  { destruct (Z.leb_spec (fsize f) 0), (Z.eqb_spec (fsize f) 0); try lia; [eexists; reflexivity|reflexivity]. }
  destruct (off =? 4).
  { destruct (Z.leb_spec (fsize f) 0), (Z.eqb_spec (fsize f) 0), (Z.ltb_spec (fsize f) 0); try lia; [eexists; reflexivity|reflexivity]. }
  eexists; reflexivity.
Qed.
