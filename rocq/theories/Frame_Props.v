(** * Property C34: coroutine frames are freed with what they were allocated with *)
From Coq Require Import List Bool ZArith Lia.
From Verif Require Import Frame_Model Frame_Proofs.
Import ListNotations.
Local Open Scope Z_scope.

(** The coroutine gets an aligned frame inside of the block, nothing outside of the
    block is written; whatever it then does with its frame (m2 is any memory that
    differs from the one left by operator new inside of the frame only), operator
    delete returns the same block to the same resource. *)
Theorem C34_frame_partial : forall M v r p size m m2,
  8 <= M -> supported v -> 0 <= size ->
  let m1 := fst (place M v r p size m) in
  let f := snd (place M v r p size m) in
  (forall x, p <= x < p + request M v size -> ~ (f <= x < f + size) -> m2 x = m1 x) ->
  p <= f /\ f + size <= p + request M v size /\
  (forall x, x < p \/ p + request M v size <= x -> m1 x = m x) /\
  (forall al, 0 < al -> M mod al = 0 -> p mod al = 0 -> f mod al = 0) /\
  release M v r f size m2 = Some (r, p, request M v size).
Proof.
  intros M v r p size m m2 HM S H m1 f A.
  destruct (frame_inside M HM v r p size m S H) as (F1 & F2 & F3).
  split; [exact F1|]. split; [exact F2|]. split; [exact F3|]. split; [|exact (freed_as_allocated M HM v r p size m m2 S H A)].
  intros al H1 H2 H3. exact (frame_aligned M v r p size m al S H1 H2 H3).
Qed.
Print Assumptions C34_frame_partial.

(** The promise of co_main without sized deallocation: the size is never written and
    the pointer given back is not the one that was obtained. *)
Theorem C34_main_unsized_refuted :
  (forall M r p size m, fst (place M (Main false) r p size m) = m) /\
  forall M r my p size m m2 x,
  release M (Main false) my (snd (place M (Main false) r p size m)) size m2 = Some x -> snd (fst x) <> p.
Proof. split; [exact main_unwritten | exact main_wrong]. Qed.
Print Assumptions C34_main_unsized_refuted.

(** Its frame is inside of the block, behind 16 bytes; on the way back the size is read from the
    first 8 bytes of the block, which nobody wrote, and the frame's address is given for the block's. *)
Theorem C34_main_unsized_frame : forall M r my p size m m2, 0 <= size ->
  let f := snd (place M (Main false) r p size m) in
  f = p + 16 /\ f + size = p + request M (Main false) size /\
  release M (Main false) my f size m2 =
    match fetch m2 p 8 with Some (OSize n) => Some (my, f, n) | _ => None end.
Proof.
  intros M r my p size m m2 H. cbn. split; [reflexivity|]. split; [lia|].
  replace (p + 16 - 16) with p by lia. reflexivity.
Qed.
Print Assumptions C34_main_unsized_frame.

Example C34_nonvacuous :
  let m := fun _ : Z => None in
  supported (Promise true) /\ supported (Wrapper false 24) /\ supported Composition /\
  place 32 (Promise true) 7 4096 100 m = (store m 4096 8 (OPtr 7), 4128) /\ request 32 (Promise true) 100 = 132 /\
  snd (place 32 (Wrapper false 24) 7 4096 100 m) = 4160 /\ request 32 (Wrapper false 24) 100 = 192 /\
  release 32 (Wrapper false 24) 7 4160 100 (fun x => if (4160 <=? x) && (x <? 4260) then Some (OOther 3, 0) else
     fst (place 32 (Wrapper false 24) 7 4096 100 m) x) = Some (7, 4096, 192) /\
  snd (place 32 Composition 7 4096 100 m) = 4128.
Proof. cbv zeta. cbn [supported]. repeat split; lia. Qed.
