(** * Proofs about coroutine frames *)
From Coq Require Import List Bool ZArith Lia.
From Verif Require Import Frame_Model.
Import ListNotations.
Local Open Scope Z_scope.

Lemma obj_eq_refl : forall o, obj_eq o o = true.
Proof. intros [r|r n|r|n|k]; cbn; rewrite ?Z.eqb_refl; reflexivity. Qed.

(** an object that is whole can be read *)
Lemma fetch_whole : forall (m : mem) a k o, 0 < k ->
  (forall x, a <= x < a + k -> m x = Some (o, x - a)) -> fetch m a k = Some o.
Proof.
  intros m a k o K H. unfold fetch. rewrite (H a) by lia.
  replace (forallb _ _) with true; [reflexivity|]. symmetry. apply forallb_forall.
  intros i Hi. apply in_seq in Hi. rewrite H by lia.
  rewrite obj_eq_refl. cbn [andb]. apply Z.eqb_eq. lia.
Qed.
Lemma store_in : forall m a k o x, a <= x < a + k -> store m a k o x = Some (o, x - a).
Proof.
  intros. unfold store. replace ((a <=? x) && (x <? a + k)) with true; [reflexivity|].
  symmetry. apply andb_true_iff. split; [apply Z.leb_le | apply Z.ltb_lt]; lia.
Qed.
Lemma store_out : forall m a k o x, x < a \/ a + k <= x -> store m a k o x = m x.
Proof.
  intros. unfold store. destruct ((a <=? x) && (x <? a + k)) eqn:E; [|reflexivity].
  apply andb_true_iff in E. lia.
Qed.

Section M.
Variable M : Z.
Hypothesis Mpos : 8 <= M.

Lemma units_spec : forall n, 0 <= n -> n <= units M n * M < n + M.
Proof.
  intros n H. unfold units. pose proof (Z.div_mod n M ltac:(lia)). pose proof (Z.mod_pos_bound n M ltac:(lia)).
  destruct (Z.ltb_spec 0 (n mod M)); nia.
Qed.
Lemma units_pos : forall n, 0 < n -> 1 <= units M n.
Proof. intros n H. pose proof (units_spec n ltac:(lia)). nia. Qed.

Lemma triple : forall (r : resource) (a a' b b' : Z), a = a' -> b = b' -> Some (r, a, b) = Some (r, a', b').
Proof. intros; subst; reflexivity. Qed.

Definition supported (v : variant) : Prop :=
  match v with Wrapper _ a => 0 < a | Main false => False | _ => True end.

Lemma frame_inside : forall v r p size m, supported v -> 0 <= size ->
  let f := snd (place M v r p size m) in
  p <= f /\ f + size <= p + request M v size /\
  (forall x, x < p \/ p + request M v size <= x -> fst (place M v r p size m) x = m x).
Proof.
  intros v r p size m S H f. subst f.
  pose proof (units_spec 16 ltac:(lia)) as U16. pose proof (units_spec 8 ltac:(lia)) as U8. pose proof (units_spec size H) as Us.
  destruct v as [[|]|[|] a| |[|]]; cbn [place request snd fst supported] in *; try contradiction;
    try (pose proof (units_spec a ltac:(lia)) as Ua);
    repeat split; intros; rewrite ?store_out; auto; try nia.
Qed.

Theorem freed_as_allocated : forall v r p size m m2, supported v -> 0 <= size ->
  let f := snd (place M v r p size m) in
  (forall x, p <= x < p + request M v size -> ~ (f <= x < f + size) -> m2 x = fst (place M v r p size m) x) ->
  release M v r f size m2 = Some (r, p, request M v size).
Proof.
  intros v r p size m m2 S H f A. subst f.
  pose proof (units_spec 16 ltac:(lia)) as U16. pose proof (units_spec 8 ltac:(lia)) as U8. pose proof (units_spec size H) as Us.
  destruct v as [[|]|[|] a| |[|]]; cbn [place request snd fst supported release] in *; try contradiction.
  - rewrite (fetch_whole _ _ 8 (OPtr r)); [apply triple; lia | lia|].
    intros x Hx. replace (p + M - M) with p in * by lia. rewrite A by lia. apply store_in. lia.
  - rewrite (fetch_whole _ _ 16 (OPair r size)); [apply triple; lia | lia|].
    intros x Hx. replace (p + units M 16 * M - units M 16 * M) with p in * by lia. rewrite A by lia. apply store_in. lia.
  - pose proof (units_spec a ltac:(lia)) as Ua.
    rewrite (fetch_whole _ _ a (OAlloc r)); [apply triple; lia | lia|].
    intros x Hx. rewrite A by nia. apply store_in. lia.
  - pose proof (units_spec a ltac:(lia)) as Ua.
    replace (p + units M a * M + units M 8 * M - units M 8 * M) with (p + units M a * M) by lia.
    replace (p + units M a * M + units M 8 * M - units M a * M - units M 8 * M) with p by lia.
    rewrite (fetch_whole _ _ 8 (OSize (units M size))); [|lia|].
    2:{ intros x Hx. rewrite A by nia. apply store_in. lia. }
    rewrite (fetch_whole _ _ a (OAlloc r)); [apply triple; lia |lia|].
    intros x Hx. rewrite A by nia. rewrite store_out by nia. apply store_in. lia.
  - rewrite (fetch_whole _ _ 16 (OPair r size)); [apply triple; lia | lia|].
    intros x Hx. replace (p + units M 16 * M - units M 16 * M) with p in * by lia. rewrite A by lia. apply store_in. lia.
  - reflexivity.
Qed.

(** the frame is aligned like the block, if that is aligned for max_align_t *)
Lemma frame_aligned : forall v r p size m al, supported v -> 0 < al -> M mod al = 0 -> p mod al = 0 ->
  snd (place M v r p size m) mod al = 0.
Proof.
  intros v r p size m al S Ha HM Hp.
  apply Z.mod_divide in HM; [|lia]. apply Z.mod_divide in Hp; [|lia]. apply Z.mod_divide; [lia|].
  destruct v as [[|]|[|] a| |[|]]; cbn [place snd supported] in *; try contradiction;
    repeat (apply Z.divide_add_r || apply Z.divide_mul_r || assumption).
Qed.
End M.

(** main without sized deallocation: whatever it reads, the address is not the one
    that was allocated *)
Lemma main_wrong : forall M r my p size m m2 x, 
  release M (Main false) my (snd (place M (Main false) r p size m)) size m2 = Some x ->
  snd (fst x) <> p.
Proof.
  intros M r my p size m m2 x H. cbn [place snd release] in H.
  destruct (fetch m2 _ 8) as [[| | |n|]|]; try discriminate. injection H as <-. cbn. lia.
Qed.
Lemma main_unwritten : forall M r p size m, fst (place M (Main false) r p size m) = m.
Proof. reflexivity. Qed.
