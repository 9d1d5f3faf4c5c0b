(** Discipline theorems: which uses of a channel can never go wrong. *)
From Coq Require Import List Bool Arith Lia Permutation.
From Verif Require Import Channel_Model Channel_Spec Channel_Inv Channel_Ledger Channel_Complete Channel_Abs.
Import ListNotations.

Section Disc.
Context {V : Type}.
Notation state := (state V).
Notation label := (label V).
Notation event := (event V).
Notation ast := (@ast V).

Ltac sm := unfold post, set_closed, set_buf, set_rq, set_wq, set_r, set_w, set_posted, set_bad in *; cbn [is_void limit closed buf rq wq rops wops posted bad] in *.

(** ** Where hazards come from *)
Lemma wake_writer_bad s : Inv (V:=V) s -> bad s = None ->
  bad (wake_writer s) = None \/ (bad (wake_writer s) = Some NullHandle /\ exists j, In j (wq s) /\ w_handle (wops s j) = false).
Proof.
  intros I B. unfold wake_writer. destruct (wq s) as [|j q] eqn:E; auto.
  destruct (inv_excl _ I) as [R|R]; [|congruence]. rewrite R. simpl.
  destruct (write_ready s); auto. destruct (w_handle (wops s j)) eqn:Eh; auto.
  right. split; auto. exists j. simpl; auto.
Qed.
Lemma wake_reader_bad s : Inv (V:=V) s -> bad s = None ->
  bad (wake_reader s) = None \/ (bad (wake_reader s) = Some NullHandle /\ exists j, In j (rq s) /\ r_handle (rops s j) = false).
Proof.
  intros I B. unfold wake_reader. destruct (rq s) as [|j q] eqn:E; auto.
  destruct (inv_excl _ I) as [R|R]; [congruence|]. rewrite R. simpl.
  destruct (read_ready s); auto. destruct (r_handle (rops s j)) eqn:Eh; auto.
  right. split; auto. exists j. simpl; auto.
Qed.

Lemma read_resume_bad s i : Inv (V:=V) (set_r i (r_finish (rops s i)) s) -> bad s = None ->
  bad (fst (read_resume s i)) = None \/
  (bad (fst (read_resume s i)) = Some NullHandle /\ (exists j, In j (wq s) /\ w_handle (wops s j) = false) /\ r_cancelled (rops s i) = false) \/
  (bad (fst (read_resume s i)) = Some EmptyRead /\ buf s = [] /\ r_direct (rops s i) = None /\ r_cancelled (rops s i) = false /\ closed s = false).
Proof.
  intros I B. unfold read_resume.
  change (read_broken (set_r i (r_finish (rops s i)) s) (rops s i)) with (read_broken s (rops s i)).
  change (buf (set_r i (r_finish (rops s i)) s)) with (buf s).
  destruct (read_broken s (rops s i)) eqn:Ebr; auto.
  destruct (r_cancelled (rops s i)) eqn:Ec; auto.
  pose proof (inv_len _ I) as L.
  change (buf (set_r i (r_finish (rops s i)) s)) with (buf s) in L.
  change (limit (set_r i (r_finish (rops s i)) s)) with (limit s) in L.
  destruct (buf s) as [|b bs] eqn:Eb; destruct (r_direct (rops s i)) as [d|] eqn:Ed; cbn [fst].
  - destruct (wake_writer_bad _ I B) as [?|[? ?]]; auto.
  - right; right. repeat split; auto. unfold read_broken in Ebr. rewrite Eb, Ed in Ebr. simpl in Ebr.
    rewrite orb_true_r, andb_true_r in Ebr. auto.
  - assert (I2 : Inv (set_buf (bs ++ [d]) (set_r i (r_finish (rops s i)) s))).
    { apply set_buf_inv; auto. rewrite app_length. simpl in *. lia. }
    destruct (wake_writer_bad _ I2 B) as [?|[? ?]]; auto.
  - assert (I2 : Inv (set_buf bs (set_r i (r_finish (rops s i)) s))).
    { apply set_buf_inv; auto. simpl in *. lia. }
    destruct (wake_writer_bad _ I2 B) as [?|[? ?]]; auto.
Qed.

Lemma write_resume_bad s i : Inv (V:=V) (set_w i (w_finish (wops s i)) s) -> bad s = None ->
  bad (fst (write_resume s i)) = None \/
  (bad (fst (write_resume s i)) = Some NullHandle /\ (exists j, In j (rq s) /\ r_handle (rops s j) = false) /\ w_cancelled (wops s i) = false) \/
  (bad (fst (write_resume s i)) = Some Overflow /\ limit s <= length (buf s) /\ w_direct (wops s i) = false /\ w_cancelled (wops s i) = false /\ w_closed (wops s i) = false).
Proof.
  intros I B. unfold write_resume. destruct (w_val (wops s i)) eqn:Ev; auto.
  destruct (w_closed (wops s i)) eqn:Ebr; auto.
  destruct (w_cancelled (wops s i)) eqn:Ec; auto.
  destruct (w_direct (wops s i)) eqn:Ed; cbn [fst].
  - destruct (wake_reader_bad _ I B) as [?|[? ?]]; auto.
  - destruct (full (set_w i (w_finish (wops s i)) s)) eqn:Ef; cbn [fst]; unfold full in Ef.
    + right; right. apply Nat.leb_le in Ef. auto.
    + apply Nat.leb_gt in Ef.
      assert (I2 : Inv (set_buf (buf (set_w i (w_finish (wops s i)) s) ++ [v]) (set_w i (w_finish (wops s i)) s))).
      { apply set_buf_inv; auto. rewrite app_length. simpl in *. lia. }
      destruct (wake_reader_bad _ I2 B) as [?|[? ?]]; auto.
Qed.

Definition safe_r (a : ast) := forall d c, In (d, c) (jr a) -> d <> None \/ c = true \/ bf a <> [] \/ cl a = true.
Definition safe_w lim (a : ast) := forall x, In x (jw a) -> j_direct x = true \/ j_cancelled x = true \/ j_closed x = true \/ length (bf a) < lim.

Definition zombie (s : state) := (exists i, In i (rq s) /\ r_handle (rops s i) = false) \/ (exists j, In j (wq s) /\ w_handle (wops s j) = false).
Definition uses (l : label) := match l with AwRead _ _ | AwWrite _ _ | Run _ => true | _ => false end.

(** What can go wrong in one step. *)
Definition cause (s : state) (l : label) (h : hazard) : Prop :=
  match h with
  | NullHandle => zombie s /\ uses l = true
  | EmptyRead => ~ safe_r (abs s)
  | Overflow => ~ safe_w (limit s) (abs s) \/ fresh s l = false
  | _ => False
  end.

Lemma step_cause s l h : Inv s -> bad s = None -> bad (fst (step s l)) = Some h -> cause s l h.
Proof.
  intros I B. unfold step. rewrite B. destruct l; simpl step_ok; try (cbn [fst]; congruence).
  - destruct (r_stage (rops s i)); cbn [fst]; try congruence. simpl. congruence.
  - destruct (r_stage (rops s i)) eqn:M; cbn [fst]; try congruence.
    unfold read_await. destruct (read_ready s || r_cancelled (rops s i)) eqn:Er.
    + destruct (read_resume_bad s i (finish_r_made_inv s i I M) B) as [E|[(E & X & Y)|(E & X & Y & Z & W)]]; try congruence.
      * intros H. assert (h = NullHandle) by congruence. subst. split; auto. right; auto.
      * exfalso. unfold read_ready in Er. rewrite X, W, Z in Er. discriminate.
    + apply orb_false_iff in Er. destruct Er as [Er Ec]. destruct (read_ready_false s Er) as [Eb Ecl].
      destruct (wq s) as [|j q] eqn:Ew; [simpl; congruence|].
      assert (Rq : rq s = []) by (destruct (inv_excl _ I); auto; congruence).
      destruct (w_handle (wops s j)) eqn:Eh.
      * pose proof (handoff_r_inv s i j q I Ecl M Ew Eh) as IH. cbv zeta in IH.
        match goal with |- context[write_resume ?x j] => set (s1 := x) in * end.
        destruct (write_resume_bad s1 j IH B) as [E|[(E & (k & X & _) & Y)|(E & X & Y & Z)]]; try congruence.
        -- unfold s1 in X. sm. rewrite Rq in X. destruct X.
        -- unfold s1 in Y. sm. rewrite upd_same in Y. discriminate.
      * simpl. intros H. assert (h = NullHandle) by congruence. subst. split; auto. right. exists j. rewrite Ew. simpl; auto.
  - destruct (w_stage (wops s i)); cbn [fst]; try congruence. simpl. congruence.
  - destruct (w_stage (wops s i)) eqn:M; cbn [fst]; try congruence.
    unfold write_await. destruct (write_ready s || w_cancelled (wops s i)) eqn:Er.
    + destruct (write_resume_bad s i (finish_w_made_inv s i I M) B) as [E|[(E & X & Y)|(E & X & Y & Z & W)]]; try congruence.
      * intros H. assert (h = NullHandle) by congruence. subst. split; auto. left; auto.
      * intros H. assert (h = Overflow) by congruence. subst. right. simpl. rewrite W.
        unfold write_ready, full in Er. rewrite Z in Er. apply Nat.leb_le in X. rewrite X in Er. simpl in Er.
        rewrite orb_false_r in Er. now rewrite Er.
    + apply orb_false_iff in Er. destruct Er as [Er Ec]. destruct (write_ready_false s Er) as [Eb Ecl].
      destruct (rq s) as [|j q] eqn:Ew; [simpl; congruence|].
      assert (Rq : wq s = []) by (destruct (inv_excl _ I); auto; congruence).
      destruct (r_handle (rops s j)) eqn:Eh.
      * pose proof (handoff_w_inv s j i q I Ecl M Ew Eh) as IH. cbv zeta in IH.
        match goal with |- context[read_resume ?x j] => set (s1 := x) in * end.
        destruct (read_resume_bad s1 j IH B) as [E|[(E & (k & X & _) & Y)|(E & X & Y & Z)]]; try congruence.
        -- unfold s1 in X. sm. rewrite Rq in X. destruct X.
        -- exfalso. unfold s1 in Y. sm. rewrite upd_same in Y. simpl in Y.
           apply (inv_wval _ I i); congruence.
      * simpl. intros H. assert (h = NullHandle) by congruence. subst. split; auto. left. exists j. rewrite Ew. simpl; auto.
  - cbn [fst]. unfold read_cancel. destruct (r_slot (rops s i)), (r_handle (rops s i)); simpl; congruence.
  - cbn [fst]. unfold write_cancel. destruct (w_slot (wops s i)), (w_handle (wops s i)); simpl; congruence.
  - assert (X : bad (fst (read_interrupt s i)) = None).
    { unfold read_interrupt. destruct (is_some _) eqn:Ed; auto. destruct (r_direct (rops s i)) eqn:Ed'; [discriminate|].
      destruct (r_handle (rops s i)) eqn:Eh; auto.
      pose proof (interrupt_r_inv s i I Eh) as IH. cbv zeta in IH. rewrite Ed' in IH.
      destruct (read_resume_bad _ i IH B) as [E|[(E & X & Y)|(E & X & Y & Z & W)]]; auto;
      sm; rewrite upd_same in *; discriminate. }
    destruct (r_stage (rops s i)); cbn [fst]; congruence.
  - assert (X : bad (fst (write_interrupt s i)) = None).
    { unfold write_interrupt. destruct (w_direct (wops s i)) eqn:Ed; auto.
      destruct (w_handle (wops s i)) eqn:Eh; auto.
      pose proof (interrupt_w_inv s i I Eh) as IH. cbv zeta in IH. rewrite Ed in IH.
      destruct (write_resume_bad _ i IH B) as [E|[(E & X & Y)|(E & X & Y & Z & W)]]; auto;
      sm; rewrite upd_same in *; discriminate. }
    destruct (w_stage (wops s i)); cbn [fst]; congruence.
  - destruct (r_stage (rops s i)); simpl; congruence.
  - destruct (w_stage (wops s i)); simpl; congruence.
  - cbn [fst]. unfold close. sm.
    pose proof (close_reads_other (rq s) (set_closed s)) as A.
    match goal with |- context[fold_left close_write ?a ?b] => pose proof (close_writes_other a b) as A2 end.
    sm. intuition congruence.
  - unfold run_job. destruct (nth_error (posted s) k) as [[i|j]|] eqn:E; [| |simpl; congruence].
    + destruct (run_r_finish_inv s k i I E) as [F A]. rewrite A. simpl is_awaited. cbv iota.
      assert (J : In i (rjobs (posted s))).
      { destruct (rjobs_remove _ _ _ E) as (a & b & E1 & _). rewrite E1. apply in_app_iff. simpl; auto. }
      destruct (read_resume_bad _ i F B) as [H|[(H & X & Y)|(H & X & Y & Z & W)]]; try congruence; intros H'.
      * assert (h = NullHandle) by congruence. subst. split; auto. right; auto.
      * assert (h = EmptyRead) by congruence. subst. intros S. sm.
        specialize (S None false). unfold abs in S. simpl in S. rewrite X, W in S.
        assert (In (None, false) (jr_abs (rops s) (rjobs (posted s)))); [|intuition congruence].
        unfold jr_abs. apply in_map_iff. exists i. rewrite Y, Z. auto.
    + destruct (run_w_finish_inv s k j I E) as [F A]. rewrite A. simpl is_awaited. cbv iota.
      assert (J : In j (wjobs (posted s))).
      { destruct (wjobs_remove _ _ _ E) as (a & b & E1 & _). rewrite E1. apply in_app_iff. simpl; auto. }
      destruct (write_resume_bad _ j F B) as [H|[(H & X & Y)|(H & X & Y & Z & W)]]; try congruence; intros H'.
      * assert (h = NullHandle) by congruence. subst. split; auto. left; auto.
      * assert (h = Overflow) by congruence. subst. left. intros S. sm.
        specialize (S (mkJ (w_val (wops s j)) (w_direct (wops s j)) (w_cancelled (wops s j)) (w_closed (wops s j)))).
        unfold abs in S. simpl in S. rewrite Y, Z, W in S.
        assert (In (mkJ (w_val (wops s j)) false false false) (jw_abs (wops s) (wjobs (posted s)))); [|intuition (try congruence; try lia)].
        unfold jw_abs. apply in_map_iff. exists j. rewrite Y, Z, W. auto.
Qed.

Lemma live_no_zombie s : Inv s -> all_linked_live s = true -> ~ zombie s.
Proof.
  intros I H. unfold all_linked_live in H. apply andb_true_iff in H. destruct H as [H1 H2].
  rewrite forallb_forall in H1, H2. intros [(i & Q & Z)|(j & Q & Z)].
  - specialize (H1 i Q). destruct (inv_r _ I) as (_ & _ & Hl). specialize (Hl i). unfold loc in Hl. simpl in Hl.
    destruct (r_stage (rops s i)); try discriminate. intuition congruence.
  - specialize (H2 j Q). destruct (inv_w _ I) as (_ & _ & Hl). specialize (Hl j). unfold loc in Hl. simpl in Hl.
    destruct (w_stage (wops s j)); try discriminate. intuition congruence.
Qed.

(** ** Invariants of the abstract machine *)
Lemma abs_base (s : state) : Inv s -> (cl (abs s) = true -> ar (abs s) = [] /\ aw (abs s) = []) /\ length (bf (abs s)) <= limit s /\ (ar (abs s) = [] \/ aw (abs s) = []).
Proof.
  intros I. split; [|split]; simpl.
  - intros C. apply (inv_closed _ I) in C. destruct C as [C1 C2]. now rewrite C1, C2.
  - apply (inv_len _ I).
  - destruct (inv_excl _ I) as [C|C]; rewrite C; auto.
Qed.

Definition base lim (a : ast) := (cl a = true -> ar a = [] /\ aw a = []) /\ length (bf a) <= lim /\ (ar a = [] \/ aw a = []).

Definition OneR (a : ast) := length (ar a) + length (jr a) <= 1.
Definition OneW (a : ast) := length (aw a) + length (jw a) <= 1.

Lemma take_len (b : list V) d u b' : take b d = Some (u, b') ->
  u :: b' = b ++ opt_list d /\ (d = None -> length b = S (length b')) /\ (d <> None -> length b' = length b \/ b = []).
Proof.
  destruct b, d; simpl; intros H; inversion H; subst; simpl; repeat split; auto; try congruence.
  all: rewrite ?app_length, ?app_nil_r; simpl; auto; intros; left; lia.
Qed.

Ltac effcases :=
  match goal with H : eff _ _ _ ?a _ _ |- _ => destruct a as [cl0 bf0 ar0 aw0 jr0 jw0]; inversion H; subst; clear H end;
  cbn [cl bf ar aw jr jw setbf] in *; subst;
  repeat match goal with H : take _ _ = Some _ |- _ => apply take_len in H; destruct H as (? & ? & ?) end.
Ltac lens := rewrite ?app_length, ?map_length in *; cbn [length] in *.

Lemma filter_len {A} (f : A -> bool) l : length (filter f l) <= length l.
Proof. induction l; simpl; auto. destruct (f a); simpl; lia. Qed.

Ltac wks := unfold wkw, wkr, setbf in *; cbn [cl bf ar aw jr jw] in *.

Lemma oneR_step void lim t a ev a' : eff void lim t a ev a' -> (t = TAwR -> ar a = [] /\ jr a = []) -> OneR a -> OneR a'.
Proof.
  unfold OneR. intros E T H. effcases; wks; lens; auto; try lia;
  try (destruct T as [-> ->]; [reflexivity|]; simpl; lia).
  - destruct T as [? ->]; [reflexivity|]. lens. lia.
  - destruct aw0; [auto|]. destruct (_ || _); auto.
  - destruct ar0; [auto|]. destruct (_ || _); auto; cbn [ar jr] in *; lens; lia.
  - destruct aw0; [cbn [ar jr]; lens; lia|]. destruct (_ || _); cbn [ar jr]; lens; lia.
  - destruct ar0; [auto|]. destruct (_ || _); auto; cbn [ar jr] in *; lens; lia.
  - destruct ar0; [auto|]. destruct (_ || _); auto; cbn [ar jr] in *; lens; lia.
  - pose proof (filter_len (fun b : bool => b) ar0). lia.
Qed.

Lemma oneW_step void lim t a ev a' : eff void lim t a ev a' -> ((exists b, t = TAwW b) -> aw a = [] /\ jw a = []) -> OneW a -> OneW a'.
Proof.
  unfold OneW. intros E T H. effcases; wks; lens; auto; try lia;
  try (destruct T as [? ?]; [eauto|]; subst; simpl; lia).
  all: try (destruct aw0; [cbn [aw jw]; lens; lia|]; destruct (_ || _); cbn [aw jw] in *; lens; lia).
  all: try (destruct ar0; [cbn [aw jw]; lens; lia|]; destruct (_ || _); cbn [aw jw] in *; lens; lia).
  pose proof (filter_len (@fst bool (option V)) aw0). lia.
Qed.

Lemma oneR_nil (a : ast) : OneR a -> ar a <> [] -> jr a = [].
Proof. unfold OneR. destruct (ar a), (jr a); simpl; auto; try congruence; lia. Qed.
Lemma oneW_nil (a : ast) : OneW a -> aw a <> [] -> jw a = [].
Proof. unfold OneW. destruct (aw a), (jw a); simpl; auto; try congruence; lia. Qed.
Lemma oneR_mid (a : ast) x d y : OneR a -> jr a = x ++ d :: y -> x = [] /\ y = [] /\ ar a = [].
Proof. unfold OneR. intros H E. rewrite E in H. destruct x, y, (ar a); simpl in *; rewrite ?app_length in H; simpl in H; auto; lia. Qed.
Lemma oneW_mid (a : ast) x d y : OneW a -> jw a = x ++ d :: y -> x = [] /\ y = [] /\ aw a = [].
Proof. unfold OneW. intros H E. rewrite E in H. destruct x, y, (aw a); simpl in *; rewrite ?app_length in H; simpl in H; auto; lia. Qed.

Lemma in_mid {A} (x z : A) a b : In z (a ++ b) -> In z (a ++ x :: b).
Proof. rewrite !in_app_iff. simpl. tauto. Qed.

(** One reader: a scheduled read always finds what it was woken for. *)
Lemma safe_r_step void lim t a ev a' : eff void lim t a ev a' -> base lim a ->
  (t = TAwR -> ar a = [] /\ jr a = []) -> OneR a -> safe_r a -> safe_r a'.
Proof.
  intros E B T O S. pose proof (oneR_step _ _ _ _ _ _ E T O) as O'.
  unfold safe_r in *. destruct E as
   [t a|a x c y Ej|a x v c k y Ej|a x y Ea|a x v y Ea|a x y Ea|a x v y Ea|a x y i r Ea Hf|a x v y i r Ea Hf
   |a i r Hf|a i v r b Hf|a Eb Ec Ea|a v b Eb Ec Ea|a j v q Eb Ec Er Ew|a i v q u b' b Eb Ec Ew Er Et|a i u b' Et Hv
   |a j v b Eb Hc|a x d c y i r Ej Hf Hd Hcc|a x d y i u b' Ej Et Hv|a x v c k y i r Ej Hf Hk|a x v y i Ej|a x v y i Ej Eb|a];
   cbn [cl bf ar aw jr jw setbf] in *; auto.
  - intros d0 c0 H. rewrite Ej in S. apply in_app_iff in H. simpl in H. destruct H as [H|[H|H]].
    + apply (S d0 c0). rewrite in_app_iff; auto.
    + inversion H; auto.
    + apply (S d0 c0). rewrite in_app_iff; simpl; auto.
  - intros d0 c0 H. apply in_app_iff in H. destruct H as [H|[H|[]]]; [eauto|]. inversion H; auto.
  - intros d0 c0 H. apply in_app_iff in H. destruct H as [H|[H|[]]]; [eauto|]. inversion H; auto. left; congruence.
  - rewrite (oneR_nil a O) by (rewrite Er; discriminate). simpl. tauto.
  - destruct (T eq_refl) as [T1 T2]. wks. destruct (aw a); [|destruct (_ || _)]; cbn [jr]; rewrite T2; simpl; tauto.
  - wks. destruct (ar a) eqn:Er; [|destruct (_ || _) eqn:Ez]; cbn [cl bf jr].
    + intros d0 c0 H. right; right; left. destruct (bf a); discriminate.
    + intros d0 c0 H. right; right; left. destruct (bf a); discriminate.
    + exfalso. apply orb_false_iff in Ez. destruct (bf a); simpl in Ez; intuition discriminate.
  - intros d0 c0 H. apply (S d0 c0). rewrite Ej. now apply in_mid.
  - destruct (oneR_mid a _ _ _ O Ej) as (-> & -> & _). wks. destruct (aw a); [|destruct (_ || _)]; cbn [jr]; simpl; tauto.
  - wks. destruct (ar a) eqn:Er; [|destruct (_ || _) eqn:Ez]; cbn [cl bf jr]; auto.
    intros d0 c0 H. rewrite (oneR_nil a O) in H by (rewrite Er; discriminate). destruct H as [H|[]]. inversion H; subst.
    right; right. apply orb_true_iff in Ez. destruct Ez as [Ez|Ez]; auto. left. destruct (bf a); discriminate.
  - wks. destruct (ar a) eqn:Er; [|destruct (_ || _) eqn:Ez]; cbn [cl bf jr].
    + intros d0 c0 H. right; right; left. destruct (bf a); discriminate.
    + intros d0 c0 H. right; right; left. destruct (bf a); discriminate.
    + exfalso. apply orb_false_iff in Ez. destruct (bf a); simpl in Ez; intuition discriminate.
Qed.

(** One writer: a scheduled write always finds room. *)
Lemma safe_w_step void lim t a ev a' : eff void lim t a ev a' -> base lim a ->
  ((exists b, t = TAwW b) -> aw a = [] /\ jw a = []) -> OneW a -> safe_w lim a -> safe_w lim a'.
Proof.
  intros E B T O S.
  unfold safe_w in *. destruct E as
   [t a|a x c y Ej|a x v c k y Ej|a x y Ea|a x v y Ea|a x y Ea|a x v y Ea|a x y i r Ea Hf|a x v y i r Ea Hf
   |a i r Hf|a i v r b Hf|a Eb Ec Ea|a v b Eb Ec Ea|a j v q Eb Ec Er Ew|a i v q u b' b Eb Ec Ew Er Et|a i u b' Et Hv
   |a j v b Eb Hc|a x d c y i r Ej Hf Hd Hcc|a x d y i u b' Ej Et Hv|a x v c k y i r Ej Hf Hk|a x v y i Ej|a x v y i Ej Eb|a];
   cbn [cl bf ar aw jr jw setbf] in *; auto.
  - intros z H. rewrite Ej in S. apply in_app_iff in H. simpl in H. destruct H as [H|[H|H]].
    + apply S. rewrite in_app_iff; auto.
    + subst; auto.
    + apply S. rewrite in_app_iff; simpl; auto.
  - intros z H. apply in_app_iff in H. destruct H as [H|[H|[]]]; [eauto|]. subst; auto.
  - destruct (T (ex_intro _ _ eq_refl)) as [T1 T2]. rewrite T2. intros z [H|[]]. subst; auto.
  - apply take_len in Et. destruct Et as (L1 & L2 & _). specialize (L2 eq_refl).
    assert (S' : forall z, In z (jw a) -> j_direct z = true \/ j_cancelled z = true \/ j_closed z = true \/ length b' < lim).
    { intros z H. destruct B as (_ & B & _). right; right; right. lia. }
    wks. destruct (aw a) eqn:Ea; [|destruct (_ || _) eqn:Ez]; cbn [bf jw]; auto.
    rewrite (oneW_nil a O) by (rewrite Ea; discriminate). intros z [H|[]]. subst. simpl.
    destruct B as (_ & B & _). right; right; right. lia.
  - destruct (T (ex_intro _ _ eq_refl)) as [T1 T2]. wks. destruct (ar a); [|destruct (_ || _)]; cbn [jw]; rewrite T2; simpl; tauto.
  - apply take_len in Et. destruct Et as (L1 & L2 & L3).
    assert (Ln : length b' <= length (bf a) \/ bf a = []).
    { destruct d; [destruct L3; [congruence|left; lia|auto]|left; specialize (L2 eq_refl); lia]. }
    assert (S' : forall z, In z (jw a) -> j_direct z = true \/ j_cancelled z = true \/ j_closed z = true \/ length b' < lim).
    { intros z H. destruct (S z H) as [|[|[|X]]]; auto. right; right; right. destruct Ln as [|Ln]; [lia|].
      rewrite Ln in L1. destruct d; simpl in L1; [|discriminate]. inversion L1; subst. rewrite Ln in X. exact X. }
    wks. destruct (aw a) eqn:Ea; [|destruct (_ || _) eqn:Ez]; cbn [bf jw]; auto.
    rewrite (oneW_nil a O) by (rewrite Ea; discriminate). intros z [H|[]]. subst. simpl.
    right; right; right. apply orb_true_iff in Ez. destruct Ez as [Ez|Ez].
    + apply negb_true_iff, Nat.leb_gt in Ez. auto.
    + destruct B as (B & _). destruct (B Ez). congruence.
  - intros z H. apply S. rewrite Ej. now apply in_mid.
  - destruct (oneW_mid a _ _ _ O Ej) as (-> & -> & _). wks. destruct (ar a); [|destruct (_ || _)]; cbn [jw]; simpl; tauto.
  - destruct (oneW_mid a _ _ _ O Ej) as (-> & -> & _). wks. destruct (ar a); [|destruct (_ || _)]; cbn [jw]; simpl; tauto.
  - intros z H. apply in_app_iff in H. destruct H as [H|H]; auto. apply in_map_iff in H. destruct H as (p & <- & _). simpl; auto.
Qed.

(** Capacity zero: every scheduled operation was handed its value (or failed). *)
Definition zero_r (a : ast) := forall d c, In (d, c) (jr a) -> d <> None \/ c = true.
Definition zero_w (a : ast) := forall x, In x (jw a) -> j_direct x = true \/ j_cancelled x = true \/ j_closed x = true.

Lemma zero_step void t a ev a' : eff void 0 t a ev a' -> base 0 a -> zero_r a /\ zero_w a -> zero_r a' /\ zero_w a'.
Proof.
  intros E B [S1 S2].
  unfold zero_r, zero_w in *. destruct B as (B1 & B2 & _).
  assert (Wr : forall b jr' jw', b = [] -> (wkr (mkA (cl a) b (ar a) (aw a) jr' jw')) = mkA (cl a) b (ar a) (aw a) jr' jw').
  { intros b jr' jw' ->. unfold wkr. cbn [cl bf ar aw jr jw]. destruct (ar a) eqn:Z; auto. simpl. destruct (cl a) eqn:Z'; auto. destruct (B1 eq_refl). discriminate. }
  assert (Ww : forall b jr' jw', (wkw 0 (mkA (cl a) b (ar a) (aw a) jr' jw')) = mkA (cl a) b (ar a) (aw a) jr' jw').
  { intros b jr' jw'. unfold wkw. cbn [cl bf ar aw jr jw]. destruct (aw a) eqn:Z; auto. simpl. destruct (cl a) eqn:Z'; auto. destruct (B1 eq_refl). discriminate. }
  destruct E as
   [t a|a x c y Ej|a x v c k y Ej|a x y Ea|a x v y Ea|a x y Ea|a x v y Ea|a x y i r Ea Hf|a x v y i r Ea Hf
   |a i r Hf|a i v r b Hf|a Eb Ec Ea|a v b Eb Ec Ea|a j v q Eb Ec Er Ew|a i v q u b' b Eb Ec Ew Er Et|a i u b' Et Hv
   |a j v b Eb Hc|a x d c y i r Ej Hf Hd Hcc|a x d y i u b' Ej Et Hv|a x v c k y i r Ej Hf Hk|a x v y i Ej|a x v y i Ej Eb|a];
   unfold setbf in *; cbn [cl bf ar aw jr jw] in *; try rewrite Ww; try rewrite Wr by (destruct (bf a); auto; simpl in B2; lia); cbn [cl bf ar aw jr jw] in *; auto; try lia; split; auto.
  - intros d0 c0 H. rewrite Ej in S1. apply in_app_iff in H. simpl in H. destruct H as [H|[H|H]].
    + apply (S1 d0 c0). rewrite in_app_iff; auto.
    + inversion H; auto.
    + apply (S1 d0 c0). rewrite in_app_iff; simpl; auto.
  - intros z H. rewrite Ej in S2. apply in_app_iff in H. simpl in H. destruct H as [H|[H|H]].
    + apply S2. rewrite in_app_iff; auto.
    + subst; auto.
    + apply S2. rewrite in_app_iff; simpl; auto.
  - intros d0 c0 H. apply in_app_iff in H. destruct H as [H|[H|[]]]; [eauto|]. inversion H; auto.
  - intros z H. apply in_app_iff in H. destruct H as [H|[H|[]]]; [eauto|]. subst; auto.
  - intros d0 c0 H. apply in_app_iff in H. destruct H as [H|[H|[]]]; [eauto|]. inversion H; auto. left; congruence.
  - intros z H. apply in_app_iff in H. destruct H as [H|[H|[]]]; [eauto|]. subst; auto.
  - intros d0 c0 H. apply (S1 d0 c0). rewrite Ej. now apply in_mid.
  - intros d0 c0 H. apply (S1 d0 c0). rewrite Ej. now apply in_mid.
  - intros z H. apply S2. rewrite Ej. now apply in_mid.
  - intros z H. apply S2. rewrite Ej. now apply in_mid.
  - intros d0 c0 H. apply in_app_iff in H. destruct H as [H|H]; [eauto|]. apply in_map_iff in H. destruct H as (? & H & _). inversion H; auto.
  - intros z H. apply in_app_iff in H. destruct H as [H|H]; auto. apply in_map_iff in H. destruct H as (p & <- & _). simpl; auto.
Qed.

(** ** Order *)
Definition aheld (a : ast) : list V := flat_map (fun p => opt_list (fst p)) (jr a).
Definition ahand (a : ast) : list V := flat_map (fun x => if j_direct x then opt_list (j_val x) else []) (jw a).

Lemma held_abs (s : state) : held s = aheld (abs s).
Proof. unfold held, aheld, abs, jr_abs. cbn [jr]. induction (rjobs (posted s)); simpl; auto. now rewrite IHl. Qed.
Lemma handed_abs (s : state) : handed s = ahand (abs s).
Proof. unfold handed, ahand, abs, jw_abs. cbn [jw]. induction (wjobs (posted s)); simpl; auto. now rewrite IHl. Qed.

Definition W1 lim (a : ast) := OneW a /\ (aw a <> [] -> lim <= length (bf a)) /\ aheld a = [].

Lemma flat_map_nil_mid {A B} (g : A -> list B) x z y : flat_map g (x ++ z :: y) = [] -> g z = [] /\ flat_map g (x ++ y) = [].
Proof.
  rewrite !flat_map_app. simpl. intros H. apply app_eq_nil in H. destruct H as [H1 H2]. apply app_eq_nil in H2.
  destruct H2 as [H2 H3]. now rewrite H1, H3.
Qed.

Lemma oneW_tail (a : ast) z q : OneW a -> aw a = z :: q -> q = [].
Proof. unfold OneW. intros H E. rewrite E in H. simpl in H. destruct q; auto. simpl in H. lia. Qed.

Ltac nn := let ZZ := fresh in intros ZZ; exfalso; now apply ZZ.
Lemma W1_step lim t a ev a' D W : 1 <= lim -> eff false lim t a ev a' -> base lim a ->
  ((exists b, t = TAwW b) -> aw a = [] /\ jw a = []) -> W1 lim a -> D ++ bf a = W ++ ahand a ->
  W1 lim a' /\ (D ++ delivered ev) ++ bf a' = (W ++ written ev) ++ ahand a'.
Proof.
  intros L E B T (O & F & Hd) Eq. pose proof (oneW_step _ _ _ _ _ _ E T O) as O'.
  unfold W1. destruct B as (B1 & B2 & _).
  destruct E as
   [t a|a x c y Ej|a x v c k y Ej|a x y Ea|a x v y Ea|a x y Ea|a x v y Ea|a x y i r Ea Hf|a x v y i r Ea Hf
   |a i r Hf|a i v r b Hf|a Eb Ec Ea|a v b Eb Ec Ea|a j v q Eb Ec Er Ew|a i v q u b' b Eb Ec Ew Er Et|a i u b' Et Hv
   |a j v b Eb Hc|a x d c y i r Ej Hf Hdd Hcc|a x d y i u b' Ej Et Hv|a x v c k y i r Ej Hf Hk|a x v y i Ej|a x v y i Ej Eb|a];
   unfold setbf in *; cbn [cl bf ar aw jr jw] in *;
   try (assert (delivered [@ERead V i r] = []) as -> by (destruct r; simpl in *; tauto));
   try (assert (written [@EWrite V i v r] = []) as -> by (destruct r; simpl in *; tauto));
   cbn [delivered written];
   rewrite ?app_nil_r.
  - auto.
  - unfold aheld in *. rewrite Ej in Hd. cbn [jr]. apply flat_map_nil_mid in Hd. destruct Hd as [_ Hd].
    rewrite flat_map_app in Hd |- *. simpl in *. repeat split; auto.
  - unfold ahand in *. rewrite Ej in Eq. cbn [jw]. rewrite flat_map_app in Eq |- *. simpl in *. repeat split; auto.
  - auto.
  - repeat split; auto. intros Z. apply F. rewrite Ea. destruct x; discriminate.
  - unfold aheld in *. cbn [jr]. rewrite flat_map_app, Hd. repeat split; auto.
  - unfold ahand in *. cbn [jw]. rewrite flat_map_app. simpl. rewrite app_nil_r. repeat split; auto. intros Z. apply F. rewrite Ea. destruct x; discriminate.
  - auto.
  - repeat split; auto. intros Z. apply F. rewrite Ea. destruct x; discriminate.
  - auto.
  - auto.
  - auto.
  - repeat split; auto.
  - exfalso. rewrite Eb, Ew in F. simpl in F. assert (lim <= 0) by (apply F; discriminate). lia.
  - destruct (T (ex_intro _ _ eq_refl)) as [T1 T2]. repeat split; auto.
    + intros Z. congruence.
    + unfold ahand in *. cbn [jw]. rewrite T2 in *. simpl in *. rewrite app_nil_r in Eq.
      apply take_len in Et. destruct Et as (L1 & _). rewrite <- app_assoc. simpl. rewrite L1. simpl. rewrite app_assoc. now rewrite Eq.
  - apply take_len in Et. destruct Et as (L1 & L2 & _). specialize (L2 eq_refl). rewrite app_nil_r in L1.
    assert (Eq' : (D ++ [u]) ++ b' = W ++ ahand a) by (rewrite <- app_assoc; simpl; congruence).
    unfold wkw in *. cbn [cl bf ar aw jr jw] in *. destruct (aw a) as [|z q] eqn:Ea; [cbn [aw]; split; [split; [auto|split; [intros ZZ; exfalso; apply ZZ; reflexivity|exact Hd]]|exact Eq']|].
    destruct (_ || _) eqn:Ez.
    + assert (q = []) by exact (oneW_tail a z q O Ea). subst q. unfold ahand in *. cbn [aw bf jw]. rewrite flat_map_app. simpl. rewrite !app_nil_r. repeat split; auto; try nn; try congruence.
    + exfalso. apply orb_false_iff in Ez. destruct Ez as [Ez _]. apply negb_false_iff, Nat.leb_le in Ez. lia.
  - destruct (T (ex_intro _ _ eq_refl)) as [T1 T2]. unfold ahand in *. rewrite T2 in Eq. simpl in Eq. rewrite app_nil_r in Eq.
    assert (Eq' : D ++ bf a ++ [v] = W ++ [v]) by (rewrite app_assoc; congruence).
    unfold wkr in *. cbn [cl bf ar aw jr jw] in *. destruct (ar a) as [|z q] eqn:Ea; [|destruct (_ || _) eqn:Ez]; cbn [aw bf jw]; rewrite T1, T2; simpl; rewrite ?app_nil_r.
    + repeat split; auto; try nn; try congruence.
    + unfold aheld in *. cbn [jr]. rewrite flat_map_app, Hd. repeat split; auto; try nn; try congruence.
    + repeat split; auto; try nn; try congruence.
  - unfold aheld in *. rewrite Ej in Hd. cbn [jr]. apply flat_map_nil_mid in Hd. destruct Hd as [_ Hd]. repeat split; auto.
  - unfold aheld in Hd. rewrite Ej in Hd. apply flat_map_nil_mid in Hd. simpl in Hd. destruct Hd as [Hd0 Hd].
    destruct d; [discriminate|].
    apply take_len in Et. destruct Et as (L1 & L2 & _). specialize (L2 eq_refl). simpl in L1. rewrite app_nil_r in L1.
    assert (Eq' : (D ++ [u]) ++ b' = W ++ ahand a) by (rewrite <- app_assoc; simpl; congruence).
    unfold wkw in *. cbn [cl bf ar aw jr jw] in *. destruct (aw a) as [|z q] eqn:Ea; [cbn [aw]; split; [split; [auto|split; [intros ZZ; exfalso; apply ZZ; reflexivity|exact Hd]]|exact Eq']|].
    destruct (_ || _) eqn:Ez.
    + assert (q = []) by exact (oneW_tail a z q O Ea). subst q. unfold ahand in *. cbn [aw bf jw]. rewrite flat_map_app. simpl. rewrite !app_nil_r. repeat split; auto; try nn; try congruence.
    + exfalso. apply orb_false_iff in Ez. destruct Ez as [Ez _]. apply negb_false_iff, Nat.leb_le in Ez. lia.
  - destruct (oneW_mid a _ _ _ O Ej) as (-> & -> & Ea). unfold ahand in *. rewrite Ej in Eq. simpl in *. repeat split; auto.
  - destruct (oneW_mid a _ _ _ O Ej) as (-> & -> & Ea). unfold ahand in *. rewrite Ej in Eq. simpl in *.
    unfold wkr in *. cbn [cl bf ar aw jr jw] in *. destruct (ar a) as [|z q] eqn:Er; [|destruct (_ || _) eqn:Ez]; cbn [aw bf jw]; rewrite Ea; simpl; rewrite ?app_nil_r.
    + repeat split; auto; try nn; try congruence.
    + unfold aheld in *. cbn [jr]. rewrite flat_map_app, Hd. repeat split; auto; try nn; try congruence.
    + repeat split; auto; try nn; try congruence.
  - destruct (oneW_mid a _ _ _ O Ej) as (-> & -> & Ea). unfold ahand in *. rewrite Ej in Eq. simpl in *. rewrite app_nil_r in Eq.
    assert (Eq' : D ++ bf a ++ [v] = W ++ [v]) by (rewrite app_assoc; congruence).
    unfold wkr in *. cbn [cl bf ar aw jr jw] in *. destruct (ar a) as [|z q] eqn:Er; [|destruct (_ || _) eqn:Ez]; cbn [aw bf jw]; rewrite Ea; simpl; rewrite ?app_nil_r.
    + repeat split; auto; try nn; try congruence.
    + unfold aheld in *. cbn [jr]. rewrite flat_map_app, Hd. repeat split; auto; try nn; try congruence.
    + repeat split; auto; try nn; try congruence.
  - split; [split; [auto|split; [nn|]]|].
    + unfold aheld in *. cbn [jr]. rewrite flat_map_app, Hd. simpl. induction (filter _ _); simpl; auto.
    + unfold ahand in *. cbn [jw]. rewrite flat_map_app.
      assert (X : forall l, flat_map (fun x => if j_direct x then opt_list (j_val x) else []) (map (fun p : bool * option V => mkJ (snd p) false true true) l) = []).
      { induction l; simpl; auto. }
      rewrite X, app_nil_r. auto.
Qed.

(** Rendezvous, single reader and writer. *)
Lemma W0_step t a ev a' D W : eff false 0 t a ev a' -> base 0 a ->
  ((exists b, t = TAwW b) -> aw a = [] /\ jw a = []) -> (t = TAwR -> ar a = [] /\ jr a = []) ->
  OneW a -> OneR a -> zero_r a /\ zero_w a -> D ++ aheld a = W ++ ahand a ->
  (D ++ delivered ev) ++ aheld a' = (W ++ written ev) ++ ahand a'.
Proof.
  intros E B T T' O O' Z Eq. destruct B as (B1 & B2 & _).
  assert (Bn : bf a = []) by (destruct (bf a); auto; simpl in B2; lia).
  assert (Wr : forall b jr' jw', b = [] -> (wkr (mkA (cl a) b (ar a) (aw a) jr' jw')) = mkA (cl a) b (ar a) (aw a) jr' jw').
  { intros b jr' jw' ->. unfold wkr. cbn [cl bf ar aw jr jw]. destruct (ar a) eqn:Zz; auto. simpl. destruct (cl a) eqn:Z'; auto. destruct (B1 eq_refl). discriminate. }
  assert (Ww : forall b jr' jw', (wkw 0 (mkA (cl a) b (ar a) (aw a) jr' jw')) = mkA (cl a) b (ar a) (aw a) jr' jw').
  { intros b jr' jw'. unfold wkw. cbn [cl bf ar aw jr jw]. destruct (aw a) eqn:Zz; auto. simpl. destruct (cl a) eqn:Z'; auto. destruct (B1 eq_refl). discriminate. }
  destruct E as
   [t a|a x c y Ej|a x v c k y Ej|a x y Ea|a x v y Ea|a x y Ea|a x v y Ea|a x y i r Ea Hf|a x v y i r Ea Hf
   |a i r Hf|a i v r b Hf|a Eb Ec Ea|a v b Eb Ec Ea|a j v q Eb Ec Er Ew|a i v q u b' b Eb Ec Ew Er Et|a i u b' Et Hv
   |a j v b Eb Hc|a x d c y i r Ej Hf Hdd Hcc|a x d y i u b' Ej Et Hv|a x v c k y i r Ej Hf Hk|a x v y i Ej|a x v y i Ej Eb|a];
   unfold setbf in *; cbn [cl bf ar aw jr jw] in *;
   try (assert (delivered [@ERead V i r] = []) as -> by (destruct r; simpl in *; tauto));
   try (assert (written [@EWrite V i v r] = []) as -> by (destruct r; simpl in *; tauto));
   cbn [delivered written];
   rewrite ?app_nil_r; rewrite ?Ww; rewrite ?Wr by auto; auto; unfold aheld, ahand in *; cbn [jr jw]; try lia.
  - rewrite Ej in Eq. rewrite flat_map_app in Eq |- *. simpl in *. auto.
  - rewrite Ej in Eq. rewrite flat_map_app in Eq |- *. simpl in *. auto.
  - rewrite flat_map_app. simpl. rewrite app_nil_r. auto.
  - rewrite flat_map_app. simpl. rewrite app_nil_r. auto.
  - destruct (T' eq_refl) as [_ J]. rewrite J in *. rewrite (oneW_nil a O) in * by (rewrite Ew; discriminate). simpl in *.
    rewrite !app_nil_r in *. congruence.
  - destruct (T (ex_intro _ _ eq_refl)) as [_ J]. rewrite J in *. rewrite (oneR_nil a O') in * by (rewrite Er; discriminate). simpl in *.
    rewrite !app_nil_r in *. rewrite Bn in Et. inversion Et; subst. congruence.
  - rewrite Bn in Et. discriminate.
  - destruct Hdd as [Hdd|Hdd]; [|discriminate]. subst. rewrite Ej in Eq. rewrite flat_map_app in Eq |- *. simpl in *. auto.
  - destruct (oneR_mid a _ _ _ O' Ej) as (-> & -> & _). rewrite Ej in Eq. simpl in *. rewrite Bn in Et. destruct d; inversion Et; subst. simpl in *.
    rewrite app_nil_r. auto.
  - destruct (oneW_mid a _ _ _ O Ej) as (-> & -> & _). rewrite Ej in Eq. simpl in *. auto.
  - destruct (oneW_mid a _ _ _ O Ej) as (-> & -> & _). rewrite Ej in Eq. simpl in *. rewrite app_nil_r. auto.
  - assert (X : forall l, flat_map (fun x => if j_direct x then opt_list (j_val x) else []) (map (fun p : bool * option V => mkJ (snd p) false true true) l) = []).
    { induction l; simpl; auto. }
    rewrite !flat_map_app, X, app_nil_r.
    assert (Y : forall l, flat_map (fun p : option V * bool => opt_list (fst p)) (map (fun _ : bool => (None, true)) l) = []).
    { induction l; simpl; auto. }
    rewrite Y, app_nil_r. auto.
Qed.

(** ** No lost wake-up *)
Definition cnt_r (l : list (option V * bool)) := length (filter (fun p => negb (is_some (fst p)) && negb (snd p)) l).
Definition cnt_w (l : list (@wj V)) := length (filter (fun x => negb (j_direct x) && negb (j_cancelled x) && negb (j_closed x)) l).
Definition nolost lim (a : ast) := (ar a <> [] -> length (bf a) <= cnt_r (jr a)) /\ (aw a <> [] -> lim <= length (bf a) + cnt_w (jw a)).

Lemma cnt_r_app x y : cnt_r (x ++ y) = cnt_r x + cnt_r y.
Proof. unfold cnt_r. now rewrite filter_app, app_length. Qed.
Lemma cnt_w_app x y : cnt_w (x ++ y) = cnt_w x + cnt_w y.
Proof. unfold cnt_w. now rewrite filter_app, app_length. Qed.
Lemma cnt_r_cons z y : cnt_r (z :: y) = (if negb (is_some (fst z)) && negb (snd z) then 1 else 0) + cnt_r y.
Proof. unfold cnt_r. simpl. destruct (_ && _); auto. Qed.
Lemma cnt_w_cons z y : cnt_w (z :: y) = (if negb (j_direct z) && negb (j_cancelled z) && negb (j_closed z) then 1 else 0) + cnt_w y.
Proof. unfold cnt_w. simpl. destruct (_ && _); auto. Qed.

Lemma nil_mid {A} (x : list A) z y : x ++ z :: y <> [].
Proof. destruct x; discriminate. Qed.

Ltac cnts := rewrite ?cnt_r_app, ?cnt_w_app, ?cnt_r_cons, ?cnt_w_cons, ?app_length in *; cbn [fst snd is_some negb andb j_direct j_cancelled j_closed length] in *.

Lemma nolost_step void lim t a ev a' : eff void lim t a ev a' -> base lim a -> t <> TLate -> nolost lim a -> nolost lim a'.
Proof.
  intros E (B1 & B2 & B3) T [N1 N2]. unfold nolost.
  destruct E as
   [t a|a x c y Ej|a x v c k y Ej|a x y Ea|a x v y Ea|a x y Ea|a x v y Ea|a x y i r Ea Hf|a x v y i r Ea Hf
   |a i r Hf|a i v r b Hf|a Eb Ec Ea|a v b Eb Ec Ea|a j v q Eb Ec Er Ew|a i v q u b' b Eb Ec Ew Er Et|a i u b' Et Hv
   |a j v b Eb Hc|a x d c y i r Ej Hf Hdd Hcc|a x d y i u b' Ej Et Hv|a x v c k y i r Ej Hf Hk|a x v y i Ej|a x v y i Ej Eb|a];
   unfold setbf in *; cbn [cl bf ar aw jr jw] in *; auto; try congruence.
  - split; auto. intros _. apply N1. rewrite Ea. apply nil_mid.
  - split; auto. intros _. apply N2. rewrite Ea. apply nil_mid.
  - split; auto. cnts. intros _. rewrite Ea in N1. specialize (N1 (nil_mid _ _ _)). lia.
  - split; auto. cnts. intros _. rewrite Ea in N2. specialize (N2 (nil_mid _ _ _)). lia.
  - split; auto. intros _. apply N1. rewrite Ea. apply nil_mid.
  - split; auto. intros _. apply N2. rewrite Ea. apply nil_mid.
  - split; [intros _; rewrite Eb; simpl; lia|auto].
  - split; auto. intros _. lia.
  - split; [intros _; rewrite Eb; simpl; lia|]. intros _. apply N2. rewrite Ew. discriminate.
  - split; [|congruence]. intros _. rewrite Er in N1. assert (length (bf a) <= cnt_r (jr a)) by (apply N1; discriminate).
    apply take_len in Et. destruct Et as (L1 & _ & L3). destruct L3 as [L3|L3]; [congruence|lia|].
    rewrite L3 in L1. simpl in L1. inversion L1; subst. simpl. lia.
  - apply take_len in Et. destruct Et as (L1 & L2 & _). specialize (L2 eq_refl). unfold wkw. cbn [cl bf ar aw jr jw].
    destruct (aw a) as [|z q] eqn:Ea; [cbn [bf ar aw jr jw]; split; [intros Z; specialize (N1 Z); lia|nn]|].
    assert (N2' : lim <= length (bf a) + cnt_w (jw a)) by (apply N2; discriminate).
    destruct (_ || _) eqn:Ez; cbn [bf ar aw jr jw]; cnts.
    + split; [intros Z; specialize (N1 Z); lia|]. intros _. simpl. lia.
    + apply orb_false_iff in Ez. destruct Ez as [Ez _]. apply negb_false_iff, Nat.leb_le in Ez.
      split; [intros Z; specialize (N1 Z); lia|lia].
  - unfold wkr. cbn [cl bf ar aw jr jw]. destruct (ar a) as [|z q] eqn:Ea; cbn [bf ar aw jr jw].
    + split; [nn|]. intros Z. specialize (N2 Z). cnts. lia.
    + assert (N1' : length (bf a) <= cnt_r (jr a)) by (apply N1; discriminate).
      destruct (_ || _) eqn:Ez; cbn [bf ar aw jr jw]; cnts.
      * split; [intros _; simpl; lia|intros Z; specialize (N2 Z); lia].
      * exfalso. apply orb_false_iff in Ez. destruct (bf a); simpl in Ez; intuition discriminate.
  - split; auto. intros Z. specialize (N1 Z). rewrite Ej in N1. cnts. destruct Hcc as [->|Hcc].
    + rewrite andb_false_r in N1. lia.
    + destruct (B1 Hcc). congruence.
  - apply take_len in Et. destruct Et as (L1 & L2 & L3). rewrite Ej in N1. cnts.
    assert (M : length b' <= length (bf a)) by (destruct d; [destruct L3 as [L3|L3]; [congruence|lia|rewrite L3 in L1; simpl in L1; inversion L1; subst; simpl; lia]|specialize (L2 eq_refl); lia]).
    assert (M' : length (bf a) <= S (length b')) by (destruct d; [destruct L3 as [L3|L3]; [congruence|lia|rewrite L3; simpl; lia]|specialize (L2 eq_refl); lia]).
    assert (N1' : ar a <> [] -> length b' <= cnt_r x + cnt_r y).
    { intros Z. specialize (N1 Z). destruct d as [d|]; simpl in N1; [|specialize (L2 eq_refl); lia]. lia. }
    unfold wkw. cbn [cl bf ar aw jr jw].
    destruct (aw a) as [|z q] eqn:Ea; [cbn [bf ar aw jr jw]; cnts; split; [auto|nn]|].
    assert (N2' : lim <= length (bf a) + cnt_w (jw a)) by (apply N2; discriminate).
    destruct (_ || _) eqn:Ez; cbn [bf ar aw jr jw]; cnts.
    + split; [auto|]. intros _. simpl. lia.
    + apply orb_false_iff in Ez. destruct Ez as [Ez _]. apply negb_false_iff, Nat.leb_le in Ez. split; auto. lia.
  - split; auto. intros Z. specialize (N2 Z). rewrite Ej in N2. cnts.
    destruct Hk as [->| ->]; rewrite ?andb_false_r in N2; simpl in N2; lia.
  - unfold wkr. cbn [cl bf ar aw jr jw]. rewrite Ej in N2. cnts.
    destruct (ar a) as [|z q] eqn:Ea; cbn [bf ar aw jr jw].
    + split; [nn|]. intros Z. specialize (N2 Z). cnts. lia.
    + assert (N1' : length (bf a) <= cnt_r (jr a)) by (apply N1; discriminate).
      destruct (_ || _) eqn:Ez; cbn [bf ar aw jr jw]; cnts.
      * split; [intros _; simpl; lia|intros Z; specialize (N2 Z); lia].
      * split; [intros _; lia|intros Z; specialize (N2 Z); lia].
  - unfold wkr. cbn [cl bf ar aw jr jw]. rewrite Ej in N2. cnts.
    destruct (ar a) as [|z q] eqn:Ea; cbn [bf ar aw jr jw].
    + split; [nn|]. intros Z. specialize (N2 Z). cnts. lia.
    + assert (N1' : length (bf a) <= cnt_r (jr a)) by (apply N1; discriminate).
      destruct (_ || _) eqn:Ez; cbn [bf ar aw jr jw]; cnts.
      * split; [intros _; simpl; lia|intros Z; specialize (N2 Z); lia].
      * exfalso. apply orb_false_iff in Ez. destruct (bf a); simpl in Ez; intuition discriminate.
  - split; nn.
Qed.

(** ** Lifting to runs *)
Lemma run_lift (P : state -> label -> bool) (J : state -> list event -> Prop) (H : hazard -> Prop) :
  (forall s l h, Inv s -> bad s = None -> (exists e, J s e) -> P s l = true -> bad (fst (step s l)) = Some h -> H h) ->
  (forall s l e, Inv s -> bad s = None -> bad (fst (step s l)) = None -> J s e -> P s l = true ->
     J (fst (step s l)) (e ++ snd (step s l))) ->
  forall ls s e, Inv s -> bad s = None -> J s e -> obeys P s ls = true ->
  (bad (fst (run s ls)) = None /\ Inv (fst (run s ls)) /\ J (fst (run s ls)) (e ++ snd (run s ls))) \/
  exists h, bad (fst (run s ls)) = Some h /\ H h.
Proof.
  intros H1 H2. induction ls as [|l ls IH]; intros s e I B Js O.
  - left. simpl. rewrite app_nil_r. auto.
  - simpl in O. apply andb_true_iff in O. destruct O as [Ol Os]. rewrite run_cons. cbn [fst snd].
    destruct (bad (fst (step s l))) as [h|] eqn:E.
    + right. exists h. rewrite run_bad by congruence. cbn [fst]. split; auto. eapply H1; eauto.
    + rewrite app_assoc. apply IH; auto. now apply step_inv.
Qed.

Lemma tag_awr (s : state) l : tag_of s l = TAwR -> exists i b, l = AwRead i b.
Proof. destruct l; simpl; try discriminate; eauto; destruct (existsb _ _); discriminate. Qed.
Lemma tag_aww (s : state) l b : tag_of s l = TAwW b -> exists i b, l = AwWrite i b.
Proof. destruct l; simpl; try discriminate; eauto; destruct (existsb _ _); discriminate. Qed.
Lemma tag_late (s : state) l : no_late_cancel s l = true -> tag_of s l <> TLate.
Proof. destruct l; simpl; try discriminate; intros H; apply negb_true_iff in H; rewrite H; discriminate. Qed.

Lemma is_nil_true {A} (l : list A) : is_nil l = true -> l = [].
Proof. destruct l; auto; discriminate. Qed.

Lemma one_reader_tag (s : state) l : one_reader s l = true -> tag_of s l = TAwR -> ar (abs s) = [] /\ jr (abs s) = [].
Proof.
  intros H T. apply tag_awr in T. destruct T as (i & b & ->). simpl in H. apply andb_true_iff in H. destruct H as [H1 H2].
  apply is_nil_true in H1, H2. unfold abs. cbn [ar jr]. rewrite H1, H2. auto.
Qed.
Lemma one_writer_tag (s : state) l : one_writer s l = true -> (exists b, tag_of s l = TAwW b) -> aw (abs s) = [] /\ jw (abs s) = [].
Proof.
  intros H [b0 T]. apply tag_aww in T. destruct T as (i & b & ->). simpl in H. apply andb_true_iff in H. destruct H as [H1 H2].
  apply is_nil_true in H1, H2. unfold abs. cbn [aw jw]. rewrite H1, H2. auto.
Qed.

Lemma both_true (P Q : state -> label -> bool) s l : both P Q s l = true -> P s l = true /\ Q s l = true.
Proof. apply andb_true_iff. Qed.

Lemma prompt_null s l h : Inv s -> prompt s l = true -> cause s l h -> h <> NullHandle.
Proof.
  intros I P C ->. destruct C as [Z U]. destruct l; simpl in U, P; try discriminate; eapply live_no_zombie; eauto.
Qed.

Lemma abs_init (v : bool) n : abs (init (V:=V) v n) = mkA false [] [] [] [] [].
Proof. reflexivity. Qed.

Lemma obeys_impl (P Q : state -> label -> bool) ls : forall s, (forall s l, P s l = true -> Q s l = true) -> obeys P s ls = true -> obeys Q s ls = true.
Proof.
  induction ls as [|l ls IH]; simpl; auto. intros s H O. apply andb_true_iff in O. destruct O as [A B].
  rewrite (H _ _ A). simpl. auto.
Qed.

Lemma obeys_both (P Q : state -> label -> bool) ls : forall s, obeys (both P Q) s ls = obeys P s ls && obeys Q s ls.
Proof.
  induction ls as [|l ls IH]; simpl; auto. intros s. rewrite IH. unfold both.
  destruct (P s l), (Q s l), (obeys P (fst (step s l)) ls), (obeys Q (fst (step s l)) ls); auto.
Qed.

(** One reading coroutine: no read ever finds the buffer empty. *)
Lemma single_reader_safe void lim (ls : list label) : obeys (both one_reader prompt) (init void lim) ls = true ->
  bad (fst (run (init void lim) ls)) = None \/ bad (fst (run (init void lim) ls)) = Some Overflow.
Proof.
  intros O.
  destruct (run_lift (both one_reader prompt) (fun s _ => OneR (abs s) /\ safe_r (abs s)) (fun h => h = Overflow)) with (ls := ls) (s := init (V:=V) void lim) (e := @nil event) as [(?&_)|(h & E & ->)]; auto using init_inv.
  - intros s l h I B (_ & Js & S) P E. apply both_true in P. destruct P as [P1 P2].
    pose proof (step_cause s l h I B E) as C. pose proof (prompt_null s l h I P2 C).
    destruct h; simpl in C; try tauto; congruence.
  - intros s l _ I B B' [Js S] P. apply both_true in P. destruct P as [P1 P2].
    pose proof (step_eff s l I B') as Ef. pose proof (one_reader_tag s l P1) as T. split.
    + eapply oneR_step; eauto.
    + eapply safe_r_step; eauto. exact (abs_base s I).
  - rewrite abs_init. split; [unfold OneR; simpl; lia|unfold safe_r; simpl; tauto].
Qed.

(** One writing coroutine: no write ever overflows the buffer. *)
Lemma single_writer_safe void lim (ls : list label) : obeys (both one_writer (both fresh prompt)) (init void lim) ls = true ->
  bad (fst (run (init void lim) ls)) = None \/ bad (fst (run (init void lim) ls)) = Some EmptyRead.
Proof.
  intros O.
  destruct (run_lift (both one_writer (both fresh prompt)) (fun s _ => OneW (abs s) /\ safe_w (limit s) (abs s)) (fun h => h = EmptyRead)) with (ls := ls) (s := init (V:=V) void lim) (e := @nil event) as [(?&_)|(h & E & ->)]; auto using init_inv.
  - intros s l h I B (_ & Js & S) P E. apply both_true in P. destruct P as [P1 P2]. apply both_true in P2. destruct P2 as [P2 P3].
    pose proof (step_cause s l h I B E) as C. pose proof (prompt_null s l h I P3 C).
    destruct h; simpl in C; try tauto; try congruence. destruct C; [tauto|congruence].
  - intros s l _ I B B' [Js S] P. apply both_true in P. destruct P as [P1 P2].
    pose proof (step_eff s l I B') as Ef. pose proof (one_writer_tag s l P1) as T.
    destruct (step_const s l) as (_ & Lm & _). rewrite Lm. split.
    + eapply oneW_step; eauto.
    + eapply safe_w_step; eauto. exact (abs_base s I).
  - rewrite abs_init. split; [unfold OneW; simpl; lia|unfold safe_w; simpl; tauto].
Qed.

Lemma spsc_safe void lim (ls : list label) : obeys spsc (init void lim) ls = true -> bad (fst (run (init (V:=V) void lim) ls)) = None.
Proof.
  intros O.
  assert (O1 : obeys (both one_reader prompt) (init (V:=V) void lim) ls = true).
  { eapply obeys_impl; [|exact O]. intros s l. unfold spsc, both. rewrite !andb_true_iff. tauto. }
  assert (O2 : obeys (both one_writer (both fresh prompt)) (init (V:=V) void lim) ls = true).
  { eapply obeys_impl; [|exact O]. intros s l. unfold spsc, both. rewrite !andb_true_iff. tauto. }
  apply single_reader_safe in O1. apply single_writer_safe in O2. intuition congruence.
Qed.

(** Rendezvous channels are safe with any number of readers and writers. *)
Lemma rendezvous_safe void (ls : list label) : obeys (both fresh prompt) (init void 0) ls = true ->
  let s := fst (run (init (V:=V) void 0) ls) in bad s = None /\ buf s = [].
Proof.
  intros O. cbv zeta.
  destruct (run_lift (both fresh prompt) (fun s _ => limit s = 0 /\ (zero_r (abs s) /\ zero_w (abs s))) (fun h => False)) with (ls := ls) (s := init (V:=V) void 0) (e := @nil event) as [(?&I&L&_)|(h & E & [])]; auto using init_inv.
  - intros s l h I B (_ & Lm & S1 & S2) P E. apply both_true in P. destruct P as [P1 P2].
    pose proof (step_cause s l h I B E) as C. pose proof (prompt_null s l h I P2 C).
    destruct h; simpl in C; try tauto; try congruence.
    + apply C. intros d c H0. destruct (S1 d c H0); auto.
    + destruct C as [C|C]; [|congruence]. apply C. intros x Hx. destruct (S2 x Hx) as [|[|]]; auto.
  - intros s l _ I B B' (Lm & S1 & S2) P.
    pose proof (step_eff s l I B') as Ef. pose proof (abs_base s I) as Bs. rewrite Lm in Ef, Bs.
    destruct (step_const s l) as (_ & Lm' & _). split; [congruence|]. eapply zero_step; eauto.
  - simpl. split; auto. unfold zero_r, zero_w; simpl; tauto.
  - split; auto. pose proof (inv_len _ I). destruct (buf _); auto. simpl in *. lia.
Qed.

(** A single writer: values come out in the order they went in, whatever the readers do. *)
Lemma single_writer_order lim (ls : list label) s evs : 1 <= lim -> run (init (V:=V) false lim) ls = (s, evs) -> bad s = None ->
  obeys one_writer (init false lim) ls = true -> delivered evs ++ buf s = written evs ++ handed s.
Proof.
  intros L R B O.
  destruct (run_lift one_writer (fun s e => is_void s = false /\ limit s = lim /\ W1 lim (abs s) /\ delivered e ++ buf s = written e ++ handed s) (fun h => True)) with (ls := ls) (s := init (V:=V) false lim) (e := @nil event) as [(?&I&_&_&_&E)|(h & E & _)]; auto using init_inv.
  - intros s0 l e I B0 B' (Vd & Lm & Jw & Eq) P.
    pose proof (step_eff s0 l I B') as Ef. pose proof (abs_base s0 I) as Bs. rewrite Vd, Lm in Ef. rewrite Lm in Bs.
    destruct (step_const s0 l) as (Vd' & Lm' & _). split; [congruence|]. split; [congruence|].
    rewrite handed_abs in Eq. destruct (W1_step lim _ _ _ _ _ _ L Ef Bs (one_writer_tag _ _ P) Jw Eq) as [J' E'].
    split; auto. rewrite delivered_app, written_app, handed_abs. exact E'.
  - simpl. repeat split; auto; try (unfold OneW; simpl; lia). intros ZZ; exfalso; now apply ZZ.
  - rewrite R in E. exact E.
  - rewrite R in E. simpl in E. congruence.
Qed.

(** Single reader, single writer: exact order for every capacity. *)
Lemma spsc_order lim (ls : list label) s evs : run (init (V:=V) false lim) ls = (s, evs) ->
  obeys spsc (init false lim) ls = true ->
  bad s = None /\ length (buf s) <= lim /\ delivered evs ++ buf s ++ held s = written evs ++ handed s.
Proof.
  intros R O. pose proof (spsc_safe false lim ls O) as B. rewrite R in B. simpl in B. split; auto.
  split; [destruct (conservation lim ls s evs R B); auto|].
  assert (O2 : obeys (both one_reader one_writer) (init (V:=V) false lim) ls = true).
  { eapply obeys_impl; [|exact O]. intros s0 l. unfold spsc, both. rewrite !andb_true_iff. tauto. }
  destruct lim as [|n].
  - destruct (run_lift (both one_reader one_writer) (fun s e => is_void s = false /\ limit s = 0 /\ (zero_r (abs s) /\ zero_w (abs s)) /\ OneW (abs s) /\ OneR (abs s) /\ delivered e ++ held s = written e ++ handed s) (fun h => True)) with (ls := ls) (s := init (V:=V) false 0) (e := @nil event) as [(?&I&_&L0&_&_&_&E)|(h & E & _)]; auto using init_inv.
    + intros s0 l e I B0 B' (Vd & Lm & Z & Ow & Or & Eq) P. apply both_true in P. destruct P as [P1 P2].
      pose proof (step_eff s0 l I B') as Ef. pose proof (abs_base s0 I) as Bs. rewrite Vd, Lm in Ef. rewrite Lm in Bs.
      destruct (step_const s0 l) as (Vd' & Lm' & _). split; [congruence|]. split; [congruence|].
      pose proof (one_writer_tag _ _ P2) as T. pose proof (one_reader_tag _ _ P1) as T'.
      split; [eapply zero_step; eauto|]. split; [eapply oneW_step; eauto|]. split; [eapply oneR_step; eauto|].
      rewrite held_abs, handed_abs in Eq.
      rewrite delivered_app, written_app, handed_abs, held_abs. eapply W0_step; eauto.
    + simpl. repeat split; auto; unfold OneW, OneR, zero_r, zero_w; simpl; auto; tauto.
    + rewrite R in *. cbn [fst snd] in *. simpl in E.
      assert (buf s = []) as ->; [|exact E]. pose proof (inv_len _ I). destruct (buf s); auto. simpl in *. lia.
    + rewrite R in E. simpl in E. congruence.
  - assert (O1 : obeys one_writer (init (V:=V) false (S n)) ls = true).
    { eapply obeys_impl; [|exact O]. intros s0 l. unfold spsc, both. rewrite !andb_true_iff. tauto. }
    destruct (run_lift one_writer (fun s e => is_void s = false /\ limit s = S n /\ W1 (S n) (abs s) /\ delivered e ++ buf s = written e ++ handed s) (fun h => True)) with (ls := ls) (s := init (V:=V) false (S n)) (e := @nil event) as [(?&I&_&_&(_&_&Hh)&E)|(h & E & _)]; auto using init_inv.
    + intros s0 l e I B0 B' (Vd & Lm & Jw & Eq) P.
      pose proof (step_eff s0 l I B') as Ef. pose proof (abs_base s0 I) as Bs. rewrite Vd, Lm in Ef. rewrite Lm in Bs.
      destruct (step_const s0 l) as (Vd' & Lm' & _). split; [congruence|]. split; [congruence|].
      rewrite handed_abs in Eq. destruct (W1_step (S n) _ _ _ _ _ _ (le_n_S _ _ (Nat.le_0_l n)) Ef Bs (one_writer_tag _ _ P) Jw Eq) as [J' E'].
      split; auto. rewrite delivered_app, written_app, handed_abs. exact E'.
    + simpl. repeat split; auto; try (unfold OneW; simpl; lia). intros ZZ; exfalso; now apply ZZ.
    + rewrite R in *. cbn [fst snd] in *. rewrite held_abs, Hh, app_nil_r. exact E.
    + rewrite R in E. simpl in E. congruence.
Qed.

(** No lost wake-up, if nobody cancels an operation that was already woken. *)
Lemma no_lost_wakeup void lim (ls : list label) s evs : run (init (V:=V) void lim) ls = (s, evs) -> bad s = None ->
  obeys no_late_cancel (init void lim) ls = true -> idle s ->
  (rq s <> [] -> buf s = []) /\ (wq s <> [] -> length (buf s) = lim).
Proof.
  intros R B O Id.
  destruct (run_lift no_late_cancel (fun s e => limit s = lim /\ nolost lim (abs s)) (fun h => True)) with (ls := ls) (s := init (V:=V) void lim) (e := @nil event) as [(?&I&Lm&N1&N2)|(h & E & _)]; auto using init_inv.
  - intros s0 l e I B0 B' (Lm & N) P.
    pose proof (step_eff s0 l I B') as Ef. pose proof (abs_base s0 I) as Bs. rewrite Lm in Ef. rewrite Lm in Bs.
    destruct (step_const s0 l) as (Vd' & Lm' & _). split; [congruence|].
    eapply nolost_step; eauto. now apply tag_late.
  - simpl. split; auto. split; intros ZZ; exfalso; now apply ZZ.
  - rewrite R in *. cbn [fst snd] in *. unfold idle in Id. unfold abs in N1, N2. cbn [ar aw bf jr jw] in N1, N2.
    rewrite Id in N1, N2. simpl in N1, N2. unfold cnt_r, cnt_w, rq_abs, wq_abs in *. simpl in *. split; intros Z.
    + assert (length (buf s) <= 0) by (apply N1; destruct (rq s); [congruence|discriminate]).
      destruct (buf s); auto. simpl in *. lia.
    + assert (lim <= length (buf s) + 0) by (apply N2; destruct (wq s); [congruence|discriminate]).
      pose proof (inv_len _ I). lia.
  - rewrite R in E. simpl in E. congruence.
Qed.

End Disc.
