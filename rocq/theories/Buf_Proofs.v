(** * Proofs about buffer sequences and transfer loops *)
From Coq Require Import List Bool Arith ZArith Lia.
From Verif Require Import Buf_Model Buf_Spec.
Import ListNotations.

Lemma addresses_length : forall b, length (addresses b) = size b.
Proof. intros b. unfold addresses. rewrite map_length, seq_length. auto. Qed.

Lemma seq_skipn : forall n a k, skipn k (seq a n) = seq (a + k) (n - k).
Proof.
  induction n as [|n IH]; intros a k; cbn.
  - destruct k; reflexivity.
  - destruct k; cbn; [f_equal; auto with arith|]. rewrite IH. f_equal; lia.
Qed.

Lemma addresses_add : forall b n, addresses (buf_add b n) = skipn n (addresses b).
Proof.
  intros [d z] n. unfold addresses, buf_add. cbn [data size].
  rewrite skipn_map, seq_skipn. replace (z - Nat.min n z) with (z - n) by lia. cbn [Nat.add].
  destruct (le_lt_dec z n) as [L|L]; [replace (z - n) with 0 by lia; reflexivity|].
  rewrite Nat.min_l by lia. clear L.
  generalize (z - n). intros k. replace (seq n k) with (map (fun i => n + i) (seq 0 k)).
  - rewrite map_map. apply map_ext. intros i. lia.
  - assert (G : forall k a, map (fun i => n + i) (seq a k) = seq (n + a) k).
    { clear. induction k as [|k IH]; intros a; cbn; auto. f_equal. rewrite IH. f_equal. lia. }
    rewrite G. f_equal. lia.
Qed.

Lemma addresses_nil : forall b, size b = 0 -> addresses b = [].
Proof. intros b H. unfold addresses. rewrite H. reflexivity. Qed.

Lemma skip_bytes : forall l n r m, skip l n = (r, m) ->
  skipn n (flat_map addresses l) = skipn m (flat_map addresses r) /\
  match r with [] => True | b :: _ => m <= size b end.
Proof.
  induction l as [|b l IH]; intros n r m S; cbn [skip] in S.
  - inversion S; subst. auto.
  - destruct (size b <? n) eqn:C.
    + apply Nat.ltb_lt in C. destruct (IH _ _ _ S) as [A B]. split; auto. rewrite <- A. cbn.
      rewrite skipn_app, addresses_length. rewrite skipn_all2 by (rewrite addresses_length; lia). reflexivity.
    + inversion S; subst. split; auto. apply Nat.ltb_ge in C. auto.
Qed.

Theorem advance_bytes : forall s n, bytes (advance s n) = skipn n (bytes s).
Proof.
  intros [h t] n. unfold advance, bytes. cbn [head tail flat_map].
  rewrite skipn_app, addresses_length. destruct (n <? size h) eqn:C; cbn [head tail flat_map].
  - apply Nat.ltb_lt in C. rewrite addresses_add. replace (n - size h) with 0 by lia. reflexivity.
  - apply Nat.ltb_ge in C. rewrite (skipn_all2 (addresses h)) by (rewrite addresses_length; lia).
    destruct (skip t (n - size h)) as [[|b r] m] eqn:S; destruct (skip_bytes _ _ _ _ S) as [A B]; cbn [app head tail flat_map].
    + rewrite A. rewrite skipn_nil. reflexivity.
    + rewrite A. cbn [flat_map]. rewrite skipn_app, addresses_length, addresses_add. replace (m - size b) with 0 by lia. reflexivity.
Qed.

Theorem advance_count : forall s n, buffer_count (advance s n) <= buffer_count s.
Proof.
  intros [h t] n. unfold advance, buffer_count. destruct (n <? _); cbn; auto.
  assert (L : forall l k r m, skip l k = (r, m) -> length r <= length l).
  { induction l as [|b l IH]; intros k r m S; cbn [skip] in S; [inversion S; auto|].
    destruct (size b <? k); [specialize (IH _ _ _ S); cbn; lia|inversion S; auto]. }
  destruct (skip t _) as [[|b r] m] eqn:S; cbn; [lia|]. specialize (L _ _ _ _ S). cbn in L. lia.
Qed.

Lemma size_bytes : forall s, buffer_size s = length (bytes s).
Proof.
  intros [h t]. unfold buffer_size, bytes. cbn [head tail]. generalize (h :: t). induction l as [|b l IH]; cbn; auto.
  rewrite app_length, addresses_length, IH. auto.
Qed.

(** ** Iterators *)
Local Open Scope Z_scope.
Lemma word_val : word = 18446744073709551616. Proof. reflexivity. Qed.
Lemma smax_val : smax = 18446744073709551615. Proof. reflexivity. Qed.

(** the offset of position k (0: the head) *)
Definition off_of (k : Z) : Z := wrap (k - 1).
Definition pos (s : bseq) (k : Z) : iter := mki (head s) (tail s) (off_of k).

Lemma off_of_0 : off_of 0 = smax. Proof. reflexivity. Qed.
Lemma off_of_pos : forall k, 1 <= k < word -> off_of k = k - 1.
Proof. intros k H. unfold off_of, wrap. apply Z.mod_small. lia. Qed.

Lemma begin_pos : forall s, begin s = pos s 0. Proof. reflexivity. Qed.
Lemma end_pos : forall s, sane s -> iend s = pos s (Z.of_nat (buffer_count s)).
Proof.
  intros s H. unfold iend, pos, off_of, buffer_count. do 2 f_equal. lia.
Qed.

Lemma plus_pos : forall s k d, plus (pos s k) d = pos s (k + d).
Proof.
  intros. unfold plus, pos, off_of, wrap. cbn [ioff ihead itail]. f_equal.
  rewrite Zplus_mod_idemp_l. f_equal. lia.
Qed.
Lemma minus_pos : forall s k d, minus (pos s k) d = pos s (k - d).
Proof.
  intros. unfold minus, pos, off_of, wrap. cbn [ioff ihead itail]. f_equal.
  rewrite Zminus_mod_idemp_l. f_equal. lia.
Qed.
Lemma next_pos : forall s k, next (pos s k) = pos s (k + 1).
Proof. intros. apply (plus_pos s k 1). Qed.
Lemma prev_pos : forall s k, prev (pos s k) = pos s (k - 1).
Proof. intros. apply (minus_pos s k 1). Qed.

Lemma deref_pos : forall s k, sane s -> 0 <= k < Z.of_nat (buffer_count s) ->
  deref (pos s k) = nth_error (buffers s) (Z.to_nat k).
Proof.
  intros s k H K. unfold sane in H. unfold buffer_count in K. rewrite Nat2Z.inj_add in K. cbn in K.
  pose proof word_val. pose proof smax_val.
  destruct (Z.eq_dec k 0) as [->|N].
  - reflexivity.
  - unfold deref, pos. cbn [ioff ihead itail]. rewrite off_of_pos by lia.
    destruct (k - 1 =? smax) eqn:C; [lia|].
    unfold at_tail. replace ((0 <=? k - 1) && (k - 1 <? Z.of_nat (length (tail s)))) with true.
    + unfold buffers. replace (Z.to_nat k) with (S (Z.to_nat (k - 1))) by lia. reflexivity.
    + symmetry. apply andb_true_iff. split; [apply Z.leb_le|apply Z.ltb_lt]; lia.
Qed.

Lemma index_deref : forall i n, index i n = deref (plus i n).
Proof. reflexivity. Qed.

Lemma signed_off : forall k, 0 <= k <= 2 ^ 62 -> signed (off_of k) = k - 1.
Proof.
  intros k K. destruct (Z.eq_dec k 0) as [->|N]; [reflexivity|].
  pose proof word_val. assert (2 ^ 62 = 4611686018427387904) by reflexivity.
  rewrite off_of_pos by lia. unfold signed. assert (2 ^ 63 = 9223372036854775808) by reflexivity.
  destruct (k - 1 <? 2 ^ 63) eqn:C; lia.
Qed.

Lemma sane_count : forall s k, sane s -> 0 <= k <= Z.of_nat (buffer_count s) -> 0 <= k <= 2 ^ 62.
Proof. intros s k H K. unfold sane, buffer_count in *. lia. Qed.

Lemma distance_pos : forall s j k, sane s -> 0 <= j <= Z.of_nat (buffer_count s) -> 0 <= k <= Z.of_nat (buffer_count s) ->
  distance (pos s j) (pos s k) = j - k.
Proof.
  intros s j k H J K. unfold distance, pos. cbn [ioff].
  rewrite !signed_off by (eapply sane_count; eauto). lia.
Qed.

Lemma off_inj : forall j k, 0 <= j <= 2 ^ 62 -> 0 <= k <= 2 ^ 62 -> off_of j = off_of k -> j = k.
Proof. intros j k J K E. apply (f_equal signed) in E. rewrite !signed_off in E by auto. lia. Qed.

Lemma equal_pos : forall s j k, sane s -> 0 <= j <= Z.of_nat (buffer_count s) -> 0 <= k <= Z.of_nat (buffer_count s) ->
  equal (pos s j) (pos s k) = (j =? k).
Proof.
  intros s j k H J K. unfold equal, pos. cbn [ioff]. apply sane_count in J; auto. apply sane_count in K; auto.
  destruct (Z.eqb_spec j k) as [->|N]; [apply Z.eqb_refl|]. apply Z.eqb_neq. intros E. apply N. eapply off_inj; eauto.
Qed.

Lemma less_pos : forall s j k, sane s -> 0 <= j <= Z.of_nat (buffer_count s) -> 0 <= k <= Z.of_nat (buffer_count s) ->
  less (pos s j) (pos s k) = if j =? 0 then false else if k =? 0 then true else j <? k.
Proof.
  intros s j k H J K. unfold less, pos. cbn [ioff]. apply sane_count in J; auto. apply sane_count in K; auto.
  pose proof word_val. pose proof smax_val. assert (2 ^ 62 = 4611686018427387904) by reflexivity.
  destruct (Z.eqb_spec j 0) as [->|NJ].
  - rewrite off_of_0. apply Z.ltb_ge. destruct (Z.eq_dec k 0) as [->|NK]; [rewrite off_of_0; lia|rewrite off_of_pos by lia; lia].
  - rewrite (off_of_pos j) by lia. destruct (Z.eqb_spec k 0) as [->|NK].
    + rewrite off_of_0. apply Z.ltb_lt. lia.
    + rewrite off_of_pos by lia. destruct (Z.ltb_spec j k); [apply Z.ltb_lt|apply Z.ltb_ge]; lia.
Qed.

Lemma collect_pos : forall s k fuel, sane s -> (k <= buffer_count s)%nat -> (buffer_count s - k <= fuel)%nat ->
  collect fuel (pos s (Z.of_nat k)) (pos s (Z.of_nat (buffer_count s))) = Some (skipn k (buffers s)).
Proof.
  intros s k fuel H. revert k. induction fuel as [|f IH]; intros k K F; cbn [collect];
    rewrite equal_pos by (auto; lia); destruct (Z.eqb_spec (Z.of_nat k) (Z.of_nat (buffer_count s))) as [E|N].
  - rewrite skipn_all2; auto. unfold buffers. cbn. unfold buffer_count in *. lia.
  - lia.
  - rewrite skipn_all2; auto. unfold buffers. cbn. unfold buffer_count in *. lia.
  - rewrite deref_pos by (auto; lia). rewrite Nat2Z.id.
    rewrite next_pos. replace (Z.of_nat k + 1) with (Z.of_nat (S k)) by lia. rewrite IH by lia.
    destruct (nth_error (buffers s) k) as [b|] eqn:Q.
    + f_equal. clear - Q. revert k Q. induction (buffers s) as [|x l IHl]; intros [|k] Q; cbn in *; try discriminate.
      * injection Q as ->. destruct l; reflexivity.
      * rewrite IHl by auto. reflexivity.
    + apply nth_error_None in Q. unfold buffers, buffer_count in *. cbn in Q. lia.
Qed.

Local Close Scope Z_scope.

(** ** Transfer loops *)
Lemma wrap_add : forall a b, wrap (wrap a + b)%Z = wrap (a + b)%Z.
Proof. intros. unfold wrap. apply Zplus_mod_idemp_l. Qed.

Lemma skipn_skipn' : forall A (l : list A) a b, skipn a (skipn b l) = skipn (b + a) l.
Proof. intros A l. induction l as [|x l IH]; intros a b; [rewrite !skipn_nil; auto|]. destruct b; cbn; auto. Qed.

Lemma transfer_requests : forall at_ last ts s off m res reqs, transfer at_ ts last s off m = (res, reqs) ->
  (at_ = true -> wrap off = off) ->
  forall i si oi, nth_error reqs i = Some (si, oi) ->
    bytes si = skipn (prefix_sum ts i) (bytes s) /\ bytes si <> [] /\
    oi = if at_ then wrap (off + Z.of_nat (prefix_sum ts i))%Z else off.
Proof.
  intros at_ last. induction ts as [|t ts IH]; intros s off m res reqs T W i si oi N; cbn [transfer] in T;
    destruct (0 <? buffer_size s) eqn:B; try (inversion T; subst; destruct i; discriminate).
  - apply Nat.ltb_lt in B. rewrite size_bytes in B. inversion T; subst. destruct i as [|[|]]; inversion N; subst.
    split; [reflexivity|]. split; [intros Z; rewrite Z in B; cbn in B; lia|]. destruct at_; auto. rewrite Z.add_0_r. symmetry; auto.
  - apply Nat.ltb_lt in B. rewrite size_bytes in B.
    assert (Z0 : i = 0 -> nth_error ((s, off) :: reqs) i = Some (si, oi) -> bytes si = skipn (prefix_sum (t :: ts) i) (bytes s) /\ bytes si <> [] /\
       oi = if at_ then wrap (off + Z.of_nat (prefix_sum (t :: ts) i))%Z else off).
    { intros -> Q. inversion Q; subst. split; [reflexivity|]. split; [intros Z; rewrite Z in B; cbn in B; lia|]. destruct at_; auto. cbn. rewrite Z.add_0_r. symmetry; auto. }
    destruct (cancelled t); [inversion T; subst; destruct i; discriminate|].
    destruct (reply t) as [[x|] n] eqn:R.
    + inversion T; subst. destruct i as [|[|]]; [apply Z0; auto|discriminate|discriminate].
    + destruct (transfer at_ ts last (advance s n) _ (m + n)) as [res' reqs'] eqn:T'. inversion T; subst.
      destruct i as [|i]; [apply Z0; auto|]. cbn in N. apply IH with (i := i) (si := si) (oi := oi) in T'; auto.
      * destruct T' as (A & C & D). rewrite advance_bytes, skipn_skipn' in A.
        assert (PS : prefix_sum (t :: ts) (S i) = n + prefix_sum ts i) by (unfold prefix_sum; cbn; rewrite R; reflexivity).
        rewrite PS. split; auto. split; auto. destruct at_; auto. rewrite D, wrap_add. f_equal. lia.
      * intros ->. unfold wrap. rewrite Z.mod_mod; auto. unfold word; lia.
Qed.

Lemma transfer_result : forall at_ last ts s off m res reqs, transfer at_ ts last s off m = (res, reqs) ->
  match res with
  | Waiting => length reqs = S (length ts)
  | Finished e mm =>
      length reqs <= length ts /\ mm = m + prefix_sum ts (length reqs) /\
      match e with
      | None => length (bytes s) <= prefix_sum ts (length reqs) /\ last = false
      | Some x =>
          (exists k n, length reqs = S k /\ option_map reply (nth_error ts k) = Some (Some x, n)) \/
          (x = aborted /\ (last = true \/ option_map cancelled (nth_error ts (length reqs)) = Some true))
      end /\
      (honest ts reqs -> prefix_sum ts (length reqs) <= length (bytes s))
  end.
Proof.
  intros at_ last. induction ts as [|t ts IH]; intros s off m res reqs T; cbn [transfer] in T;
    destruct (0 <? buffer_size s) eqn:B; rewrite size_bytes in B; [| apply Nat.ltb_ge in B| |apply Nat.ltb_ge in B].
  - inversion T; subst. reflexivity.
  - inversion T; subst. cbn. unfold prefix_sum; cbn. split; auto. split; auto. split; [|lia]. destruct last; cbn; auto; split; auto; lia.
  - apply Nat.ltb_lt in B. destruct (cancelled t) eqn:C.
    + inversion T; subst. unfold prefix_sum; cbn. split; [lia|]. split; auto. split; [|lia]. right. rewrite C. auto.
    + destruct (reply t) as [[x|] n] eqn:R.
      * inversion T; subst. unfold prefix_sum; cbn. rewrite R. cbn. split; [lia|]. split; [lia|].
        split; [left; exists 0, n; cbn; rewrite R; auto|].
        intros H. specialize (H 0 _ _ _ eq_refl eq_refl). rewrite R in H. cbn in H. lia.
      * destruct (transfer at_ ts last (advance s n) _ (m + n)) as [res' reqs'] eqn:T'. inversion T; subst.
        pose proof (IH _ _ _ _ _ T') as H. destruct res as [e mm|]; [|cbn; lia].
        destruct H as (L & M & X & Hn).
        assert (PS : prefix_sum (t :: ts) (S (length reqs')) = n + prefix_sum ts (length reqs')) by (unfold prefix_sum; cbn; rewrite R; reflexivity).
        cbn [length]. rewrite PS, advance_bytes, skipn_length in *. split; [cbn; lia|]. split; [lia|]. split.
        -- destruct e as [x|]; [|destruct X; split; auto; lia].
           destruct X as [(k & n' & K & Q)|X]; [left; exists (S k), n'; cbn; auto|right; exact X].
        -- intros HH. assert (n <= length (bytes s)) by (specialize (HH 0 _ _ _ eq_refl eq_refl); rewrite R in HH; exact HH).
           assert (prefix_sum ts (length reqs') <= length (bytes s) - n); [|lia].
           apply Hn. intros i si oi t' A D. exact (HH (S i) si oi t' A D).
  - inversion T; subst. unfold prefix_sum; cbn. split; [lia|]. split; [lia|]. split; [|lia].
    destruct last; cbn; [right; auto|split; auto; lia].
Qed.

(** ** As stated *)
Local Open Scope Z_scope.
Lemma plus_begin : forall s k, plus (begin s) k = pos s k.
Proof. intros. rewrite begin_pos, plus_pos. f_equal. Qed.

Theorem iteration : forall s fuel, sane s -> (buffer_count s <= fuel)%nat ->
  collect fuel (begin s) (iend s) = Some (buffers s).
Proof. intros s fuel H F. rewrite end_pos, begin_pos by auto. rewrite (collect_pos s 0) by (auto; lia). reflexivity. Qed.

Theorem positions : forall s, sane s ->
  iend s = plus (begin s) (Z.of_nat (buffer_count s)) /\
  distance (iend s) (begin s) = Z.of_nat (buffer_count s) /\
  forall j k, 0 <= j <= Z.of_nat (buffer_count s) -> 0 <= k <= Z.of_nat (buffer_count s) ->
    (j < Z.of_nat (buffer_count s) -> deref (plus (begin s) j) = nth_error (buffers s) (Z.to_nat j)) /\
    (j < Z.of_nat (buffer_count s) -> index (plus (begin s) k) (j - k) = nth_error (buffers s) (Z.to_nat j)) /\
    distance (plus (begin s) j) (plus (begin s) k) = j - k /\
    plus (plus (begin s) k) (j - k) = plus (begin s) j /\
    minus (plus (begin s) k) (k - j) = plus (begin s) j /\
    next (plus (begin s) j) = plus (begin s) (j + 1) /\ prev (plus (begin s) j) = plus (begin s) (j - 1) /\
    equal (plus (begin s) j) (plus (begin s) k) = (j =? k).
Proof.
  intros s H. rewrite !plus_begin, end_pos by auto. split; auto.
  split; [rewrite begin_pos, distance_pos by (auto; lia); lia|].
  intros j k J K. rewrite !plus_begin. rewrite index_deref, !plus_pos, minus_pos, next_pos, prev_pos.
  replace (k + (j - k)) with j by lia. replace (k - (k - j)) with j by lia.
  rewrite distance_pos, equal_pos by auto. repeat split; auto; intros L; apply deref_pos; auto; lia.
Qed.

Theorem ordering : forall s j k, sane s -> 0 <= j <= Z.of_nat (buffer_count s) -> 0 <= k <= Z.of_nat (buffer_count s) ->
  less (plus (begin s) j) (plus (begin s) k) = if j =? 0 then false else if k =? 0 then true else j <? k.
Proof. intros s j k H J K. rewrite !plus_begin. apply less_pos; auto. Qed.
