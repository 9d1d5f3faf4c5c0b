(** An abstract machine for the channel, without operation identities, and the
    proof that every good step of the model is a step of it.  Used to prove the
    discipline theorems (single reader, single writer, rendezvous, order). *)
From Coq Require Import List Bool Arith Lia Permutation.
From Verif Require Import Channel_Model Channel_Spec Channel_Inv Channel_Ledger.
Import ListNotations.

Section Abs.
Context {V : Type}.
Notation state := (state V).
Notation label := (label V).
Notation event := (event V).

(** A scheduled write: value, handed over directly?, cancelled?, closed?. *)
Record wj := mkJ { j_val : option V; j_direct : bool; j_cancelled : bool; j_closed : bool }.

Record ast := mkA {
  cl : bool;
  bf : list V;
  ar : list bool;                    (* linked reads: still waiting? *)
  aw : list (bool * option V);       (* linked writes: still waiting?, value *)
  jr : list (option V * bool);       (* scheduled reads: direct value, cancelled *)
  jw : list wj }.

Definition rq_abs (f : nat -> rop V) (l : list nat) := map (fun i => r_handle (f i)) l.
Definition wq_abs (f : nat -> wop V) (l : list nat) := map (fun j => (w_handle (f j), w_val (f j))) l.
Definition jr_abs (f : nat -> rop V) (l : list nat) := map (fun i => (r_direct (f i), r_cancelled (f i))) l.
Definition jw_abs (f : nat -> wop V) (l : list nat) :=
  map (fun j => mkJ (w_val (f j)) (w_direct (f j)) (w_cancelled (f j)) (w_closed (f j))) l.

Definition abs (s : state) : ast :=
  mkA (closed s) (buf s) (rq_abs (rops s) (rq s)) (wq_abs (wops s) (wq s))
      (jr_abs (rops s) (rjobs (posted s))) (jw_abs (wops s) (wjobs (posted s))).

Definition take (b : list V) (d : option V) : option (V * list V) :=
  match b, d with
  | [], None => None
  | [], Some d => Some (d, [])
  | x :: b', None => Some (x, b')
  | x :: b', Some d => Some (x, b' ++ [d])
  end.

Definition wkw (lim : nat) (a : ast) : ast :=
  match aw a with
  | [] => a
  | x :: q => if negb (lim <=? length (bf a)) || cl a
              then mkA (cl a) (bf a) (ar a) q (jr a) (jw a ++ [mkJ (snd x) false false false])
              else a
  end.
Definition wkr (a : ast) : ast :=
  match ar a with
  | [] => a
  | x :: q => if negb (is_nil (bf a)) || cl a
              then mkA (cl a) (bf a) q (aw a) (jr a ++ [(None, false)]) (jw a)
              else a
  end.
Definition setbf b (a : ast) := mkA (cl a) b (ar a) (aw a) (jr a) (jw a).

Inductive tag := TAwR | TAwW (fr : bool) | TRun | TLate | TOther.

Definition rfail (r : rresult V) := match r with RVal _ => False | _ => True end.
Definition wfail (r : wresult) := match r with WOk => False | _ => True end.

Inductive eff (void : bool) (lim : nat) : tag -> ast -> list event -> ast -> Prop :=
| e_nop t a : eff void lim t a [] a
| e_mark_r a x c y : jr a = x ++ (None, c) :: y ->
    eff void lim TLate a [] (mkA (cl a) (bf a) (ar a) (aw a) (x ++ (None, true) :: y) (jw a))
| e_mark_w a x v c k y : jw a = x ++ mkJ v false c k :: y ->
    eff void lim TLate a [] (mkA (cl a) (bf a) (ar a) (aw a) (jr a) (x ++ mkJ v false true k :: y))
| e_unlink_r a x y : ar a = x ++ false :: y ->
    eff void lim TOther a [] (mkA (cl a) (bf a) (x ++ y) (aw a) (jr a) (jw a))
| e_unlink_w a x v y : aw a = x ++ (false, v) :: y ->
    eff void lim TOther a [] (mkA (cl a) (bf a) (ar a) (x ++ y) (jr a) (jw a))
| e_cancel_r a x y : ar a = x ++ true :: y ->
    eff void lim TOther a [] (mkA (cl a) (bf a) (x ++ y) (aw a) (jr a ++ [(None, true)]) (jw a))
| e_cancel_w a x v y : aw a = x ++ (true, v) :: y ->
    eff void lim TOther a [] (mkA (cl a) (bf a) (ar a) (x ++ y) (jr a) (jw a ++ [mkJ v false true false]))
| e_intr_r a x y i r : ar a = x ++ true :: y -> rfail r ->
    eff void lim TOther a [ERead i r] (mkA (cl a) (bf a) (x ++ false :: y) (aw a) (jr a) (jw a))
| e_intr_w a x v y i r : aw a = x ++ (true, Some v) :: y -> wfail r ->
    eff void lim TOther a [EWrite i v r] (mkA (cl a) (bf a) (ar a) (x ++ (false, Some v) :: y) (jr a) (jw a))
| e_fail_r a i r : rfail r -> eff void lim TAwR a [ERead i r] a
| e_fail_w a i v r b : wfail r -> eff void lim (TAwW b) a [EWrite i v r] a
| e_enq_r a : bf a = [] -> cl a = false -> aw a = [] ->
    eff void lim TAwR a [] (mkA (cl a) (bf a) (ar a ++ [true]) (aw a) (jr a) (jw a))
| e_enq_w a v b : lim <= length (bf a) -> cl a = false -> ar a = [] ->
    eff void lim (TAwW b) a [] (mkA (cl a) (bf a) (ar a) (aw a ++ [(true, Some v)]) (jr a) (jw a))
| e_hand_r a j v q : bf a = [] -> cl a = false -> ar a = [] -> aw a = (true, Some v) :: q ->
    eff void lim TAwR a [EWrite j v WOk] (mkA (cl a) (bf a) (ar a) q (jr a ++ [(Some v, false)]) (jw a))
| e_hand_w a i v q u b' b : lim <= length (bf a) -> cl a = false -> aw a = [] -> ar a = true :: q ->
    take (bf a) (Some v) = Some (u, b') ->
    eff void lim (TAwW b) a [ERead i (RVal u)] (mkA (cl a) b' q (aw a) (jr a) (jw a ++ [mkJ (Some v) true false false]))
| e_ready_r a i u b' : take (bf a) None = Some (u, b') -> void && cl a = false ->
    eff void lim TAwR a [ERead i (RVal u)] (wkw lim (setbf b' a))
| e_ready_w a j v b : length (bf a) < lim -> (b = true -> cl a = false) ->
    eff void lim (TAwW b) a [EWrite j v WOk] (wkr (setbf (bf a ++ [v]) a))
| e_run_r_fail a x d c y i r : jr a = x ++ (d, c) :: y -> rfail r -> d = None \/ void && cl a = true ->
    c = true \/ cl a = true ->
    eff void lim TRun a [ERead i r] (mkA (cl a) (bf a) (ar a) (aw a) (x ++ y) (jw a))
| e_run_r a x d y i u b' : jr a = x ++ (d, false) :: y -> take (bf a) d = Some (u, b') -> void && cl a = false ->
    eff void lim TRun a [ERead i (RVal u)] (wkw lim (mkA (cl a) b' (ar a) (aw a) (x ++ y) (jw a)))
| e_run_w_fail a x v c k y i r : jw a = x ++ mkJ (Some v) false c k :: y -> wfail r -> c = true \/ k = true ->
    eff void lim TRun a [EWrite i v r] (mkA (cl a) (bf a) (ar a) (aw a) (jr a) (x ++ y))
| e_run_w_direct a x v y i : jw a = x ++ mkJ (Some v) true false false :: y ->
    eff void lim TRun a [EWrite i v WOk] (wkr (mkA (cl a) (bf a) (ar a) (aw a) (jr a) (x ++ y)))
| e_run_w a x v y i : jw a = x ++ mkJ (Some v) false false false :: y -> length (bf a) < lim ->
    eff void lim TRun a [EWrite i v WOk] (wkr (mkA (cl a) (bf a ++ [v]) (ar a) (aw a) (jr a) (x ++ y)))
| e_close a :
    eff void lim TOther a [] (mkA true (bf a) [] []
      (jr a ++ map (fun _ => (None, true)) (filter (fun b => b) (ar a)))
      (jw a ++ map (fun p => mkJ (snd p) false true true) (filter fst (aw a)))).

Ltac sm := unfold post, set_closed, set_buf, set_rq, set_wq, set_r, set_w, set_posted, set_bad in *; cbn [is_void limit closed buf rq wq rops wops posted bad] in *.

Lemma map_upd_out {A B} (g : A -> B) f i o l : ~ In i l -> map (fun k => g (upd f i o k)) l = map (fun k => g (f k)) l.
Proof.
  induction l as [|j l IH]; simpl; auto. intros N. rewrite upd_other by tauto. f_equal. apply IH. tauto.
Qed.
Lemma map_upd_same {A B} (g : A -> B) f i o l : g o = g (f i) -> map (fun k => g (upd f i o k)) l = map (fun k => g (f k)) l.
Proof. intros E. apply map_ext. intros k. unfold upd. destruct (Nat.eqb_spec k i); subst; auto. Qed.

Lemma abs_eq cl1 bf1 ar1 aw1 jr1 jw1 cl2 bf2 ar2 aw2 jr2 jw2 :
  cl1 = cl2 -> bf1 = bf2 -> ar1 = ar2 -> aw1 = aw2 -> jr1 = jr2 -> jw1 = jw2 ->
  mkA cl1 bf1 ar1 aw1 jr1 jw1 = mkA cl2 bf2 ar2 aw2 jr2 jw2.
Proof. congruence. Qed.

Lemma wake_writer_abs s : Inv s -> bad (wake_writer s) = None -> abs (wake_writer s) = wkw (limit s) (abs s).
Proof.
  intros I. unfold wake_writer, wkw. destruct (wq s) as [|j q] eqn:E; simpl; rewrite E; auto.
  destruct (is_nil (rq s)) eqn:Er; simpl; [|discriminate].
  unfold write_ready, full. destruct (negb _ || _); auto.
  destruct (w_handle (wops s j)) eqn:Eh; [|discriminate]. intros _.
  destruct (handle_not_job_w s j I Eh) as (N & D & A). pose proof (handle_not_cancelled_w s j I Eh) as C.
  assert (K : w_closed (wops s j) = false).
  { destruct (w_closed (wops s j)) eqn:Z; auto. apply (inv_wclosed _ I) in Z. apply (inv_closed _ I) in Z. destruct Z. congruence. }
  destruct (inv_w _ I) as (Nd & _ & _). rewrite E in Nd. inversion Nd; subst.
  unfold abs. sm. rewrite rjobs_app, wjobs_app. simpl. rewrite app_nil_r.
  apply abs_eq; auto.
  - unfold wq_abs. apply (map_upd_out (fun o => (w_handle o, w_val o))). auto.
  - unfold jw_abs. rewrite map_app. simpl. rewrite upd_same. simpl. rewrite D, C, K. f_equal.
    apply (map_upd_out (fun o => mkJ (w_val o) (w_direct o) (w_cancelled o) (w_closed o))). auto.
Qed.

Lemma wake_reader_abs s : Inv s -> bad (wake_reader s) = None -> abs (wake_reader s) = wkr (abs s).
Proof.
  intros I. unfold wake_reader, wkr. destruct (rq s) as [|j q] eqn:E; simpl; rewrite E; auto.
  destruct (is_nil (wq s)) eqn:Er; simpl; [|discriminate].
  unfold read_ready. destruct (negb _ || _); auto.
  destruct (r_handle (rops s j)) eqn:Eh; [|discriminate]. intros _.
  destruct (handle_not_job_r s j I Eh) as (N & D & A). pose proof (handle_not_cancelled_r s j I Eh) as C.
  destruct (inv_r _ I) as (Nd & _ & _). rewrite E in Nd. inversion Nd; subst.
  unfold abs. sm. rewrite rjobs_app, wjobs_app. simpl. rewrite app_nil_r.
  apply abs_eq; auto.
  - unfold rq_abs. apply (map_upd_out (fun o => r_handle o)). auto.
  - unfold jr_abs. rewrite map_app. simpl. rewrite upd_same. simpl. rewrite D, C. f_equal.
    apply (map_upd_out (fun o => (r_direct o, r_cancelled o))). auto.
Qed.

Lemma abs_set_r_same s i o : r_handle o = r_handle (rops s i) \/ ~ In i (rq s) ->
  (r_direct o = r_direct (rops s i) /\ r_cancelled o = r_cancelled (rops s i)) \/ ~ In i (rjobs (posted s)) ->
  abs (set_r i o s) = abs s.
Proof.
  intros H1 H2. unfold abs. sm. apply abs_eq; auto.
  - unfold rq_abs. destruct H1; [now apply (map_upd_same (fun o => r_handle o))|now apply (map_upd_out (fun o => r_handle o))].
  - unfold jr_abs. destruct H2 as [[E1 E2]|]; [apply (map_upd_same (fun o => (r_direct o, r_cancelled o))); congruence|now apply (map_upd_out (fun o => (r_direct o, r_cancelled o)))].
Qed.
Lemma abs_set_w_same s i o : (w_handle o = w_handle (wops s i) /\ w_val o = w_val (wops s i)) \/ ~ In i (wq s) ->
  (w_direct o = w_direct (wops s i) /\ w_cancelled o = w_cancelled (wops s i) /\ w_closed o = w_closed (wops s i) /\ w_val o = w_val (wops s i)) \/ ~ In i (wjobs (posted s)) ->
  abs (set_w i o s) = abs s.
Proof.
  intros H1 H2. unfold abs. sm. apply abs_eq; auto.
  - unfold wq_abs. destruct H1 as [[E1 E2]|]; [apply (map_upd_same (fun o => (w_handle o, w_val o))); congruence|now apply (map_upd_out (fun o => (w_handle o, w_val o)))].
  - unfold jw_abs. destruct H2 as [(E1 & E2 & E3 & E4)|]; [apply (map_upd_same (fun o => mkJ (w_val o) (w_direct o) (w_cancelled o) (w_closed o))); congruence|now apply (map_upd_out (fun o => mkJ (w_val o) (w_direct o) (w_cancelled o) (w_closed o)))].
Qed.

Lemma abs_set_buf (s : state) b : abs (set_buf b s) = setbf b (abs s).
Proof. reflexivity. Qed.

Lemma read_resume_abs s i : Inv (set_r i (r_finish (rops s i)) s) -> bad (fst (read_resume s i)) = None ->
  let o := rops s i in let s' := fst (read_resume s i) in
  (exists r, snd (read_resume s i) = [ERead i r] /\ rfail r /\ abs s' = abs s /\ (r_cancelled o = true \/ read_broken s o = true)) \/
  (exists u b', take (buf s) (r_direct o) = Some (u, b') /\ snd (read_resume s i) = [ERead i (RVal u)] /\
     abs s' = wkw (limit s) (setbf b' (abs s)) /\ r_cancelled o = false /\ read_broken s o = false).
Proof.
  intros I Hb o s'.
  assert (N : ~ In i (rjobs (posted s))).
  { apply (not_awaited_not_job_r _ i) in I; auto. sm. rewrite upd_same. discriminate. }
  assert (A1 : abs (set_r i (r_finish (rops s i)) s) = abs s) by (apply abs_set_r_same; auto).
  subst o s'. revert Hb. unfold read_resume.
  change (read_broken (set_r i (r_finish (rops s i)) s) (rops s i)) with (read_broken s (rops s i)).
  change (buf (set_r i (r_finish (rops s i)) s)) with (buf s).
  destruct (read_broken s (rops s i)) eqn:Ebr; [intros _; left; exists RBroken; repeat split; auto; exact Logic.I|].
  destruct (r_cancelled (rops s i)) eqn:Ec; [intros _; left; exists RAborted; repeat split; auto; exact Logic.I|].
  pose proof (inv_len _ I) as L.
  change (buf (set_r i (r_finish (rops s i)) s)) with (buf s) in L.
  change (limit (set_r i (r_finish (rops s i)) s)) with (limit s) in L.
  destruct (buf s) as [|b bs] eqn:Eb; destruct (r_direct (rops s i)) as [d|] eqn:Ed; cbn [fst snd]; intros Hb.
  - right. exists d, []. repeat split; auto. rewrite wake_writer_abs by auto. rewrite A1.
    f_equal. unfold setbf. destruct (abs s) eqn:Z; simpl. f_equal. unfold abs in Z. congruence.
  - discriminate.
  - right. exists b, (bs ++ [d]). repeat split; auto. rewrite wake_writer_abs; auto.
    + now rewrite abs_set_buf, A1.
    + apply set_buf_inv; auto. rewrite app_length. simpl in *. lia.
  - right. exists b, bs. repeat split; auto. rewrite wake_writer_abs; auto.
    + now rewrite abs_set_buf, A1.
    + apply set_buf_inv; auto. simpl in *. lia.
Qed.

Lemma write_resume_abs s j v : Inv (set_w j (w_finish (wops s j)) s) -> bad (fst (write_resume s j)) = None ->
  w_val (wops s j) = Some v ->
  let o := wops s j in let s' := fst (write_resume s j) in
  (exists r, snd (write_resume s j) = [EWrite j v r] /\ wfail r /\ abs s' = abs s /\ (w_cancelled o = true \/ w_closed o = true)) \/
  (w_direct o = true /\ snd (write_resume s j) = [EWrite j v WOk] /\
     abs s' = wkr (abs s) /\ w_cancelled o = false /\ w_closed o = false) \/
  (w_direct o = false /\ length (buf s) < limit s /\ snd (write_resume s j) = [EWrite j v WOk] /\
     abs s' = wkr (setbf (buf s ++ [v]) (abs s)) /\ w_cancelled o = false /\ w_closed o = false).
Proof.
  intros I Hb Ev o s'.
  assert (N : ~ In j (wjobs (posted s))).
  { apply (not_awaited_not_job_w _ j) in I; auto. sm. rewrite upd_same. discriminate. }
  assert (A1 : abs (set_w j (w_finish (wops s j)) s) = abs s) by (apply abs_set_w_same; auto).
  subst o s'. revert Hb. unfold write_resume. rewrite Ev.
  destruct (w_closed (wops s j)) eqn:Ebr; [intros _; left; exists WBroken; repeat split; auto; exact Logic.I|].
  destruct (w_cancelled (wops s j)) eqn:Ec; [intros _; left; exists WAborted; repeat split; auto; exact Logic.I|].
  intros Hb. right. destruct (w_direct (wops s j)) eqn:Ed; cbn [fst snd] in *.
  - left. repeat split; auto. rewrite wake_reader_abs by auto. now rewrite A1.
  - right. destruct (full (set_w j (w_finish (wops s j)) s)) eqn:Ef; cbn [fst snd] in *; [discriminate|].
    unfold full in Ef. apply Nat.leb_gt in Ef.
    change (length (buf (set_w j (w_finish (wops s j)) s))) with (length (buf s)) in Ef.
    change (limit (set_w j (w_finish (wops s j)) s)) with (limit s) in Ef.
    repeat split; auto.
    rewrite wake_reader_abs; auto.
    + now rewrite abs_set_buf, A1.
    + apply set_buf_inv; auto.
      change (limit (set_w j (w_finish (wops s j)) s)) with (limit s).
      change (buf (set_w j (w_finish (wops s j)) s)) with (buf s). rewrite app_length. simpl. lia.
Qed.

Definition tag_of (s : state) (l : label) : tag :=
  match l with
  | AwRead _ _ => TAwR
  | AwWrite j _ => TAwW (Bool.eqb (w_closed (wops s j)) (closed s))
  | Run _ => TRun
  | CancelR i | InterruptR i => if existsb (Nat.eqb i) (rjobs (posted s)) then TLate else TOther
  | CancelW j | InterruptW j => if existsb (Nat.eqb j) (wjobs (posted s)) then TLate else TOther
  | _ => TOther
  end.

Lemma read_broken_none (s : state) o : read_broken s o = true -> r_direct o = None \/ is_void s && closed s = true.
Proof.
  unfold read_broken. destruct (closed s), (is_void s), (is_nil (buf s)), (r_direct o); simpl; auto; discriminate.
Qed.
Lemma read_broken_void (s : state) o : read_broken s o = false -> is_void s && closed s = false.
Proof. unfold read_broken. destruct (closed s), (is_void s); simpl; auto; discriminate. Qed.

Lemma made_out_r s i : Inv (V:=V) s -> r_stage (rops s i) = Made -> ~ In i (rq s) /\ ~ In i (rjobs (posted s)).
Proof. intros I M. exact (q_not_awaited_out _ _ _ (inv_r _ I) i (or_introl M)). Qed.
Lemma made_out_w s i : Inv (V:=V) s -> w_stage (wops s i) = Made -> ~ In i (wq s) /\ ~ In i (wjobs (posted s)).
Proof. intros I M. exact (q_not_awaited_out _ _ _ (inv_w _ I) i (or_introl M)). Qed.

Lemma wval_some s j : Inv (V:=V) s -> w_stage (wops s j) <> Absent -> exists v, w_val (wops s j) = Some v.
Proof. intros I N. apply (inv_wval _ I) in N. destruct (w_val (wops s j)); eauto. congruence. Qed.

Lemma read_await_eff s i b : Inv s -> r_stage (rops s i) = Made -> bad (fst (read_await s i b)) = None ->
  eff (is_void s) (limit s) TAwR (abs s) (snd (read_await s i b)) (abs (fst (read_await s i b))).
Proof.
  intros I M Hb. pose proof (made_direct_r s i I M) as D. destruct (made_out_r s i I M) as [N1 N2].
  revert Hb. unfold read_await. destruct (read_ready s || r_cancelled (rops s i)) eqn:Er; intros Hb.
  - destruct (read_resume_abs s i (finish_r_made_inv s i I M) Hb) as [(r & E1 & E2 & E3 & E4)|(u & b' & E1 & E2 & E3 & E4 & E5)].
    + rewrite E1, E3. now apply e_fail_r.
    + rewrite E2, E3. rewrite D in E1. apply e_ready_r; auto. simpl. eapply read_broken_void; eauto.
  - apply orb_false_iff in Er. destruct Er as [Er Ec]. destruct (read_ready_false s Er) as [Eb Ecl].
    destruct (wq s) as [|j q] eqn:Ew.
    + cbn [fst snd].
      match goal with |- eff _ _ _ _ _ (abs ?x) => replace (abs x) with (mkA (cl (abs s)) (bf (abs s)) (ar (abs s) ++ [true]) (aw (abs s)) (jr (abs s)) (jw (abs s))) end.
      * apply e_enq_r; auto. simpl. now rewrite Ew.
      * unfold abs. sm. symmetry. simpl. apply abs_eq; auto.
        -- unfold rq_abs. rewrite map_app. simpl. rewrite upd_same. simpl. f_equal. now apply (map_upd_out (fun o => r_handle o)).
        -- unfold jr_abs. now apply (map_upd_out (fun o => (r_direct o, r_cancelled o))).
    + destruct (w_handle (wops s j)) eqn:Eh; [|discriminate].
      destruct (handle_not_job_w s j I Eh) as (Nw & Dw & Aw). pose proof (handle_not_cancelled_w s j I Eh) as Cw.
      destruct (wval_some s j I) as [v Ev]; [congruence|].
      pose proof (handoff_r_inv s i j q I Ecl M Ew Eh) as IH. cbv zeta in IH.
      match type of Hb with context[write_resume ?x j] => set (s1 := x) in * end.
      assert (E1 : wops s1 j = mkW (w_stage (wops s j)) (w_cancelled (wops s j)) true (w_closed (wops s j)) (w_slot (wops s j)) false (w_val (wops s j))).
      { unfold s1. sm. now rewrite upd_same. }
      assert (Rq : rq s = []) by (destruct (inv_excl _ I); auto; congruence).
      assert (Kc : w_closed (wops s j) = false).
      { destruct (w_closed (wops s j)) eqn:Z; auto. apply (inv_wclosed _ I) in Z. congruence. }
      destruct (write_resume_abs s1 j v IH Hb) as [(r & F1 & F2 & F3 & F4)|[(F1 & F2 & F3 & F4)|(F1 & _)]].
      * now rewrite E1.
      * exfalso. rewrite E1 in F4. simpl in F4. intuition congruence.
      * rewrite F2, F3.
        assert (As : abs s1 = mkA (cl (abs s)) (bf (abs s)) (ar (abs s)) (wq_abs (wops s) q) (jr (abs s) ++ [(Some v, false)]) (jw (abs s))).
        { unfold s1, abs. sm. rewrite rjobs_app, wjobs_app. simpl. rewrite app_nil_r.
          destruct (inv_w _ I) as (Nd & _ & _). rewrite Ew in Nd. inversion Nd; subst.
          apply abs_eq; auto.
          - unfold rq_abs. now apply (map_upd_out (fun o => r_handle o)).
          - unfold wq_abs. now apply (map_upd_out (fun o => (w_handle o, w_val o))).
          - unfold jr_abs. rewrite map_app. simpl. rewrite upd_same. simpl. rewrite Ev. f_equal.
            now apply (map_upd_out (fun o => (r_direct o, r_cancelled o))).
          - unfold jw_abs. now apply (map_upd_out (fun o => mkJ (w_val o) (w_direct o) (w_cancelled o) (w_closed o))). }
        rewrite As. unfold wkr. simpl. rewrite Rq. simpl.
        replace (@nil bool) with (ar (abs s)) by (simpl; now rewrite Rq).
        apply (e_hand_r _ _ (abs s) j v (wq_abs (wops s) q)); auto; simpl; rewrite ?Rq, ?Ew; auto.
        simpl. now rewrite Eh, Ev.
      * exfalso. rewrite E1 in F1. simpl in F1. discriminate.
Qed.

Lemma write_await_eff s j b : Inv s -> w_stage (wops s j) = Made -> bad (fst (write_await s j b)) = None ->
  eff (is_void s) (limit s) (TAwW (Bool.eqb (w_closed (wops s j)) (closed s))) (abs s) (snd (write_await s j b)) (abs (fst (write_await s j b))).
Proof.
  intros I M Hb. pose proof (made_direct_w s j I M) as D. destruct (made_out_w s j I M) as [N1 N2].
  destruct (wval_some s j I) as [v Ev]; [congruence|].
  revert Hb. unfold write_await. destruct (write_ready s || w_cancelled (wops s j)) eqn:Er; intros Hb.
  - destruct (write_resume_abs s j v (finish_w_made_inv s j I M) Hb Ev) as [(r & E1 & E2 & E3 & E4)|[(E1 & _)|(E1 & E2 & E3 & E4 & E5 & E6)]].
    + rewrite E1, E3. now apply e_fail_w.
    + congruence.
    + rewrite E3, E4. apply e_ready_w; auto. rewrite E6. simpl. destruct (closed s); auto.
  - apply orb_false_iff in Er. destruct Er as [Er Ec]. destruct (write_ready_false s Er) as [Eb Ecl].
    destruct (rq s) as [|i q] eqn:Ew.
    + cbn [fst snd].
      match goal with |- eff _ _ _ _ _ (abs ?x) => replace (abs x) with (mkA (cl (abs s)) (bf (abs s)) (ar (abs s)) (aw (abs s) ++ [(true, Some v)]) (jr (abs s)) (jw (abs s))) end.
      * apply e_enq_w; auto. simpl. now rewrite Ew.
      * unfold abs. sm. symmetry. simpl. apply abs_eq; auto.
        -- unfold wq_abs. rewrite map_app. simpl. rewrite upd_same. simpl. rewrite Ev. f_equal. now apply (map_upd_out (fun o => (w_handle o, w_val o))).
        -- unfold jw_abs. now apply (map_upd_out (fun o => mkJ (w_val o) (w_direct o) (w_cancelled o) (w_closed o))).
    + destruct (r_handle (rops s i)) eqn:Eh; [|discriminate].
      destruct (handle_not_job_r s i I Eh) as (Nw & Dw & Aw). pose proof (handle_not_cancelled_r s i I Eh) as Cw.
      pose proof (handoff_w_inv s i j q I Ecl M Ew Eh) as IH. cbv zeta in IH.
      match type of Hb with context[read_resume ?x i] => set (s1 := x) in * end.
      assert (E1 : rops s1 i = mkR (r_stage (rops s i)) (r_cancelled (rops s i)) (w_val (wops s j)) (r_slot (rops s i)) false).
      { unfold s1. sm. now rewrite upd_same. }
      assert (Wq : wq s = []) by (destruct (inv_excl _ I); auto; congruence).
      assert (Kc : w_closed (wops s j) = false).
      { destruct (w_closed (wops s j)) eqn:Z; auto. apply (inv_wclosed _ I) in Z. congruence. }
      destruct (read_resume_abs s1 i IH Hb) as [(r & F1 & F2 & F3 & F4)|(u & b' & F0 & F1 & F2 & F3 & F4)].
      * exfalso. rewrite E1 in F4. simpl in F4. rewrite Cw in F4. destruct F4 as [F4|F4]; [discriminate|].
        unfold read_broken in F4. change (closed s1) with (closed s) in F4. rewrite Ecl in F4. discriminate.
      * rewrite F1, F2.
        assert (As : abs s1 = mkA (cl (abs s)) (bf (abs s)) (rq_abs (rops s) q) (aw (abs s)) (jr (abs s)) (jw (abs s) ++ [mkJ (Some v) true false false])).
        { unfold s1, abs. sm. rewrite rjobs_app, wjobs_app. simpl. rewrite app_nil_r.
          destruct (inv_r _ I) as (Nd & _ & _). rewrite Ew in Nd. inversion Nd; subst.
          apply abs_eq; auto.
          - unfold rq_abs. now apply (map_upd_out (fun o => r_handle o)).
          - unfold wq_abs. now apply (map_upd_out (fun o => (w_handle o, w_val o))).
          - unfold jr_abs. now apply (map_upd_out (fun o => (r_direct o, r_cancelled o))).
          - unfold jw_abs. rewrite map_app. simpl. rewrite upd_same. simpl. rewrite Ev, Kc. f_equal.
            now apply (map_upd_out (fun o => mkJ (w_val o) (w_direct o) (w_cancelled o) (w_closed o))). }
        rewrite As. unfold wkw, setbf. simpl. rewrite Wq. simpl.
        replace (@nil (bool * option V)) with (aw (abs s)) by (simpl; now rewrite Wq).
        apply (e_hand_w _ _ (abs s) i v (rq_abs (rops s) q) u b'); auto; simpl; rewrite ?Wq, ?Ew; auto.
        -- simpl. now rewrite Eh.
        -- rewrite E1 in F0. simpl in F0. rewrite Ev in F0. exact F0.
Qed.

Lemma in_split_map {A} (g : nat -> A) l i : In i l -> NoDup l -> exists x y, l = x ++ i :: y /\ ~ In i (x ++ y) /\ map g l = map g x ++ g i :: map g y /\ unlink i l = x ++ y.
Proof.
  intros H N. apply in_split in H. destruct H as (x & y & ->). exists x, y.
  split; auto. destruct (nodup_mid _ _ _ N) as [_ Nx]. split; auto.
  split; [now rewrite map_app|]. unfold unlink. rewrite filter_app. simpl. rewrite Nat.eqb_refl. simpl.
  rewrite in_app_iff in Nx. clear N.
  assert (F : forall l, ~ In i l -> filter (fun j => negb (j =? i)) l = l).
  { intros l0. induction l0 as [|z l0 IH]; simpl; auto. intros Z. destruct (Nat.eqb_spec z i); simpl; [subst; tauto|]. f_equal. tauto. }
  rewrite !F; tauto.
Qed.

Lemma unlink_out i l : ~ In i l -> unlink i l = l.
Proof. unfold unlink. induction l as [|z l0 IH]; simpl; auto. intros Z. destruct (Nat.eqb_spec z i); simpl; [subst; tauto|]. f_equal. tauto. Qed.

Lemma existsb_eqb_in i l : existsb (Nat.eqb i) l = true <-> In i l.
Proof.
  rewrite existsb_exists. split.
  - intros (x & H & E). apply Nat.eqb_eq in E. now subst.
  - intros H. exists i. split; auto. apply Nat.eqb_refl.
Qed.
Lemma existsb_eqb_out i l : ~ In i l -> existsb (Nat.eqb i) l = false.
Proof. intros N. destruct (existsb (Nat.eqb i) l) eqn:E; auto. apply existsb_eqb_in in E. contradiction. Qed.

Lemma handle_in_rq s i : Inv (V:=V) s -> r_handle (rops s i) = true -> In i (rq s).
Proof. intros I H. destruct (inv_r _ I) as (_ & _ & Hl). specialize (Hl i). unfold loc in Hl. simpl in Hl. intuition congruence. Qed.
Lemma handle_in_wq s i : Inv (V:=V) s -> w_handle (wops s i) = true -> In i (wq s).
Proof. intros I H. destruct (inv_w _ I) as (_ & _ & Hl). specialize (Hl i). unfold loc in Hl. simpl in Hl. intuition congruence. Qed.

(** Marking a scheduled, non-direct read as cancelled. *)
Lemma mark_r_eff s i o : Inv s -> r_handle (rops s i) = false -> r_handle o = false ->
  r_direct (rops s i) = None -> r_direct o = None -> r_cancelled o = true ->
  eff (is_void s) (limit s) (if existsb (Nat.eqb i) (rjobs (posted s)) then TLate else TOther) (abs s) [] (abs (set_r i o s)).
Proof.
  intros I H1 H2 H3 H4 H5. destruct (existsb (Nat.eqb i) (rjobs (posted s))) eqn:E.
  - apply existsb_eqb_in in E. destruct (inv_r _ I) as (_ & Nd & _).
    destruct (in_split_map (fun i => (r_direct (rops s i), r_cancelled (rops s i))) _ _ E Nd) as (x & y & E1 & E2 & E3 & _).
    rewrite H3 in E3.
    match goal with |- eff _ _ _ _ _ (abs ?x0) => replace (abs x0) with
      (mkA (cl (abs s)) (bf (abs s)) (ar (abs s)) (aw (abs s)) (jr_abs (rops s) x ++ (None, true) :: jr_abs (rops s) y) (jw (abs s))) end.
    + eapply e_mark_r. simpl. exact E3.
    + unfold abs. sm. simpl. apply abs_eq; auto.
      * symmetry. unfold rq_abs. apply (map_upd_same (fun o => r_handle o)). congruence.
      * unfold jr_abs. rewrite E1, map_app. simpl. rewrite upd_same, H4, H5.
        rewrite in_app_iff in E2.
        rewrite !(map_upd_out (fun o => (r_direct o, r_cancelled o))) by tauto. reflexivity.
  - rewrite abs_set_r_same; [apply e_nop|left; congruence|right].
    intros X. apply existsb_eqb_in in X. congruence.
Qed.
Lemma mark_w_eff s i o : Inv s -> w_handle (wops s i) = false -> w_handle o = false ->
  w_direct (wops s i) = false -> w_direct o = false -> w_cancelled o = true -> w_val o = w_val (wops s i) -> w_closed o = w_closed (wops s i) ->
  eff (is_void s) (limit s) (if existsb (Nat.eqb i) (wjobs (posted s)) then TLate else TOther) (abs s) [] (abs (set_w i o s)).
Proof.
  intros I H1 H2 H3 H4 H5 H6 H7. destruct (existsb (Nat.eqb i) (wjobs (posted s))) eqn:E.
  - apply existsb_eqb_in in E. destruct (inv_w _ I) as (_ & Nd & _).
    destruct (in_split_map (fun j => mkJ (w_val (wops s j)) (w_direct (wops s j)) (w_cancelled (wops s j)) (w_closed (wops s j))) _ _ E Nd) as (x & y & E1 & E2 & E3 & _).
    rewrite H3 in E3.
    match goal with |- eff _ _ _ _ _ (abs ?x0) => replace (abs x0) with
      (mkA (cl (abs s)) (bf (abs s)) (ar (abs s)) (aw (abs s)) (jr (abs s)) (jw_abs (wops s) x ++ mkJ (w_val (wops s i)) false true (w_closed (wops s i)) :: jw_abs (wops s) y)) end.
    + eapply e_mark_w. simpl. exact E3.
    + unfold abs. sm. simpl. apply abs_eq; auto.
      * symmetry. unfold wq_abs. apply (map_upd_same (fun o => (w_handle o, w_val o))). congruence.
      * unfold jw_abs. rewrite E1, map_app. simpl. rewrite upd_same, H4, H5, H6, H7.
        rewrite in_app_iff in E2.
        rewrite !(map_upd_out (fun o => mkJ (w_val o) (w_direct o) (w_cancelled o) (w_closed o))) by tauto. reflexivity.
  - rewrite abs_set_w_same; [apply e_nop|left; split; congruence|right].
    intros X. apply existsb_eqb_in in X. congruence.
Qed.

Lemma read_cancel_eff s i : Inv s ->
  eff (is_void s) (limit s) (tag_of s (CancelR i)) (abs s) [] (abs (read_cancel s i)).
Proof.
  intros I. unfold read_cancel. destruct (r_slot (rops s i)) eqn:Es; [|apply e_nop].
  destruct (loc_slot _ _ _ i (inv_r _ I) Es) as [A D]. simpl in A, D.
  destruct (r_direct (rops s i)) eqn:Ed; [discriminate|].
  destruct (r_handle (rops s i)) eqn:Eh.
  - destruct (handle_not_job_r s i I Eh) as (N & _ & _). simpl tag_of. rewrite existsb_eqb_out by auto.
    destruct (inv_r _ I) as (Nd & _ & _).
    destruct (in_split_map (fun i => r_handle (rops s i)) _ _ (handle_in_rq s i I Eh) Nd) as (x & y & E1 & E2 & E3 & E4).
    rewrite Eh in E3.
    match goal with |- eff _ _ _ _ _ (abs ?x0) => replace (abs x0) with
      (mkA (cl (abs s)) (bf (abs s)) (rq_abs (rops s) x ++ rq_abs (rops s) y) (aw (abs s)) (jr (abs s) ++ [(None, true)]) (jw (abs s))) end.
    + apply e_cancel_r. exact E3.
    + unfold abs. sm. simpl. rewrite rjobs_app, wjobs_app. simpl. rewrite app_nil_r. apply abs_eq; auto.
      * unfold rq_abs. rewrite E4, map_app. rewrite in_app_iff in E2.
        rewrite !(map_upd_out (fun o => r_handle o)) by tauto. reflexivity.
      * unfold jr_abs. rewrite map_app. simpl. rewrite upd_same. simpl. f_equal.
        symmetry. now apply (map_upd_out (fun o => (r_direct o, r_cancelled o))).
  - rewrite <- (set_rq_same s) at 2. rewrite <- (q_pending_unlink _ _ _ (inv_r _ I) i Eh A) at 1.
    change (eff (is_void s) (limit s) (tag_of s (CancelR i)) (abs s) [] (abs (set_rq (unlink i (rq s)) (set_r i (mkR (r_stage (rops s i)) true None false false) s)))).
    rewrite (q_pending_unlink _ _ _ (inv_r _ I) i Eh A).
    change (set_rq (rq s) (set_r i (mkR (r_stage (rops s i)) true None false false) s)) with (set_r i (mkR (r_stage (rops s i)) true None false false) s).
    apply mark_r_eff; auto.
Qed.

Lemma write_cancel_eff s i : Inv s ->
  eff (is_void s) (limit s) (tag_of s (CancelW i)) (abs s) [] (abs (write_cancel s i)).
Proof.
  intros I. unfold write_cancel. destruct (w_slot (wops s i)) eqn:Es; [|apply e_nop].
  destruct (loc_slot _ _ _ i (inv_w _ I) Es) as [A D]. simpl in A, D.
  destruct (w_handle (wops s i)) eqn:Eh.
  - destruct (handle_not_job_w s i I Eh) as (N & _ & _). simpl tag_of. rewrite existsb_eqb_out by auto.
    assert (Kc : w_closed (wops s i) = false).
    { destruct (w_closed (wops s i)) eqn:Z; auto. apply (inv_wclosed _ I) in Z. apply (inv_closed _ I) in Z.
      pose proof (handle_in_wq s i I Eh) as X. destruct Z as [_ Z]. rewrite Z in X. destruct X. }
    destruct (inv_w _ I) as (Nd & _ & _).
    destruct (in_split_map (fun i => (w_handle (wops s i), w_val (wops s i))) _ _ (handle_in_wq s i I Eh) Nd) as (x & y & E1 & E2 & E3 & E4).
    rewrite Eh in E3.
    match goal with |- eff _ _ _ _ _ (abs ?x0) => replace (abs x0) with
      (mkA (cl (abs s)) (bf (abs s)) (ar (abs s)) (wq_abs (wops s) x ++ wq_abs (wops s) y) (jr (abs s)) (jw (abs s) ++ [mkJ (w_val (wops s i)) false true false])) end.
    + apply e_cancel_w. exact E3.
    + unfold abs. sm. simpl. rewrite rjobs_app, wjobs_app. simpl. rewrite app_nil_r. apply abs_eq; auto.
      * unfold wq_abs. rewrite E4, map_app. rewrite in_app_iff in E2.
        rewrite !(map_upd_out (fun o => (w_handle o, w_val o))) by tauto. reflexivity.
      * unfold jw_abs. rewrite map_app. simpl. rewrite upd_same. simpl. rewrite D, Kc. f_equal.
        symmetry. now apply (map_upd_out (fun o => mkJ (w_val o) (w_direct o) (w_cancelled o) (w_closed o))).
  - rewrite (q_pending_unlink _ _ _ (inv_w _ I) i Eh A).
    match goal with |- eff _ _ _ _ _ (abs (set_wq (wq s) ?x)) => change (set_wq (wq s) x) with x end.
    apply mark_w_eff; auto.
Qed.

Lemma read_interrupt_eff s i : Inv s -> bad (fst (read_interrupt s i)) = None ->
  eff (is_void s) (limit s) (tag_of s (InterruptR i)) (abs s) (snd (read_interrupt s i)) (abs (fst (read_interrupt s i))).
Proof.
  intros I. unfold read_interrupt. destruct (is_some (r_direct (rops s i))) eqn:Ed; [intros _; apply e_nop|].
  destruct (r_direct (rops s i)) eqn:Ed'; [discriminate|]. clear Ed.
  destruct (r_handle (rops s i)) eqn:Eh; intros Hb.
  - pose proof (interrupt_r_inv s i I Eh) as IH. cbv zeta in IH. rewrite Ed' in IH.
    destruct (handle_not_job_r s i I Eh) as (N & _ & _). simpl tag_of. rewrite existsb_eqb_out by auto.
    match type of Hb with context[read_resume ?x i] => set (s1 := x) in * end.
    destruct (inv_r _ I) as (Nd & _ & _).
    destruct (in_split_map (fun i => r_handle (rops s i)) _ _ (handle_in_rq s i I Eh) Nd) as (x & y & E1 & E2 & E3 & E4).
    rewrite Eh in E3.
    assert (As : abs s1 = mkA (cl (abs s)) (bf (abs s)) (rq_abs (rops s) x ++ false :: rq_abs (rops s) y) (aw (abs s)) (jr (abs s)) (jw (abs s))).
    { unfold s1, abs. sm. simpl. apply abs_eq; auto.
      - unfold rq_abs. rewrite E1, map_app. simpl. rewrite upd_same. simpl. rewrite in_app_iff in E2.
        rewrite !(map_upd_out (fun o => r_handle o)) by tauto. reflexivity.
      - unfold jr_abs. now apply (map_upd_out (fun o => (r_direct o, r_cancelled o))). }
    assert (Ec : r_cancelled (rops s1 i) = true) by (unfold s1; sm; now rewrite upd_same).
    destruct (read_resume_abs s1 i IH Hb) as [(r & F1 & F2 & F3 & F4)|(u & b' & F0 & F1 & F2 & F3 & F4)]; [|congruence].
    rewrite F1, F3, As. apply e_intr_r; auto.
  - cbn [fst snd]. simpl tag_of. apply mark_r_eff; auto.
Qed.

Lemma write_interrupt_eff s i : Inv s -> w_stage (wops s i) <> Absent -> bad (fst (write_interrupt s i)) = None ->
  eff (is_void s) (limit s) (tag_of s (InterruptW i)) (abs s) (snd (write_interrupt s i)) (abs (fst (write_interrupt s i))).
Proof.
  intros I NA. destruct (wval_some s i I NA) as [v Ev].
  unfold write_interrupt. destruct (w_direct (wops s i)) eqn:Ed; [intros _; apply e_nop|].
  destruct (w_handle (wops s i)) eqn:Eh; intros Hb.
  - pose proof (interrupt_w_inv s i I Eh) as IH. cbv zeta in IH. rewrite Ed in IH.
    destruct (handle_not_job_w s i I Eh) as (N & _ & _). simpl tag_of. rewrite existsb_eqb_out by auto.
    match type of Hb with context[write_resume ?x i] => set (s1 := x) in * end.
    destruct (inv_w _ I) as (Nd & _ & _).
    destruct (in_split_map (fun i => (w_handle (wops s i), w_val (wops s i))) _ _ (handle_in_wq s i I Eh) Nd) as (x & y & E1 & E2 & E3 & E4).
    rewrite Eh, Ev in E3.
    assert (As : abs s1 = mkA (cl (abs s)) (bf (abs s)) (ar (abs s)) (wq_abs (wops s) x ++ (false, Some v) :: wq_abs (wops s) y) (jr (abs s)) (jw (abs s))).
    { unfold s1, abs. sm. simpl. apply abs_eq; auto.
      - unfold wq_abs. rewrite E1, map_app. simpl. rewrite upd_same. simpl. rewrite Ev. rewrite in_app_iff in E2.
        rewrite !(map_upd_out (fun o => (w_handle o, w_val o))) by tauto. reflexivity.
      - unfold jw_abs. now apply (map_upd_out (fun o => mkJ (w_val o) (w_direct o) (w_cancelled o) (w_closed o))). }
    assert (Ec : w_cancelled (wops s1 i) = true) by (unfold s1; sm; now rewrite upd_same).
    assert (Ev1 : w_val (wops s1 i) = Some v) by (unfold s1; sm; now rewrite upd_same).
    destruct (write_resume_abs s1 i v IH Hb Ev1) as [(r & F1 & F2 & F3 & F4)|[(F1 & F2 & F3 & F4 & F5)|(F1 & F2 & F3 & F4 & F5 & F6)]]; try congruence.
    rewrite F1, F3, As. apply e_intr_w; auto.
  - cbn [fst snd]. simpl tag_of. apply mark_w_eff; auto.
Qed.

(** Closing. *)
Lemma close_reads_abs q : forall s : state, NoDup q ->
  (forall i, In i q -> ~ In i (rjobs (posted s)) /\ (r_handle (rops s i) = true -> r_direct (rops s i) = None)) ->
  jr_abs (rops (fold_left close_read q s)) (rjobs (posted (fold_left close_read q s))) =
  jr_abs (rops s) (rjobs (posted s)) ++ map (fun _ => (None, true)) (filter (fun b => b) (rq_abs (rops s) q)).
Proof.
  induction q as [|i q IH]; intros s N H; simpl; [now rewrite app_nil_r|].
  inversion N; subst. destruct (H i (or_introl eq_refl)) as [Hi Hd].
  rewrite IH; auto.
  - assert (Rs : rq_abs (rops (close_read s i)) q = rq_abs (rops s) q).
    { unfold close_read, rq_abs. destruct (r_handle (rops s i)); sm; now apply (map_upd_out (fun o => r_handle o)). }
    rewrite Rs. unfold close_read. destruct (r_handle (rops s i)) eqn:Eh; sm.
    + rewrite rjobs_app. simpl. unfold jr_abs. rewrite map_app. simpl. rewrite upd_same. simpl. rewrite Hd by auto.
      rewrite <- app_assoc. simpl. f_equal. now apply (map_upd_out (fun o => (r_direct o, r_cancelled o))).
    + f_equal. unfold jr_abs. now apply (map_upd_out (fun o => (r_direct o, r_cancelled o))).
  - intros k Hk. destruct (H k (or_intror Hk)) as [Hk1 Hk2].
    assert (k <> i) by (intros ->; contradiction).
    unfold close_read. destruct (r_handle (rops s i)); sm; rewrite ?rjobs_app, ?in_app_iff; simpl; rewrite upd_other by auto; intuition.
Qed.

Lemma close_writes_abs q : forall s : state, NoDup q ->
  (forall i, In i q -> ~ In i (wjobs (posted s)) /\ (w_handle (wops s i) = true -> w_direct (wops s i) = false)) ->
  jw_abs (wops (fold_left close_write q s)) (wjobs (posted (fold_left close_write q s))) =
  jw_abs (wops s) (wjobs (posted s)) ++ map (fun p => mkJ (snd p) false true true) (filter fst (wq_abs (wops s) q)).
Proof.
  induction q as [|i q IH]; intros s N H; simpl; [now rewrite app_nil_r|].
  inversion N; subst. destruct (H i (or_introl eq_refl)) as [Hi Hd].
  rewrite IH; auto.
  - assert (Rs : wq_abs (wops (close_write s i)) q = wq_abs (wops s) q).
    { unfold close_write, wq_abs. destruct (w_handle (wops s i)); sm; now apply (map_upd_out (fun o => (w_handle o, w_val o))). }
    rewrite Rs. unfold close_write. destruct (w_handle (wops s i)) eqn:Eh; sm.
    + rewrite wjobs_app. simpl. unfold jw_abs. rewrite map_app. simpl. rewrite upd_same. simpl. rewrite Hd by auto.
      rewrite <- app_assoc. simpl. f_equal. now apply (map_upd_out (fun o => mkJ (w_val o) (w_direct o) (w_cancelled o) (w_closed o))).
    + f_equal. unfold jw_abs. now apply (map_upd_out (fun o => mkJ (w_val o) (w_direct o) (w_cancelled o) (w_closed o))).
  - intros k Hk. destruct (H k (or_intror Hk)) as [Hk1 Hk2].
    assert (k <> i) by (intros ->; contradiction).
    unfold close_write. destruct (w_handle (wops s i)); sm; rewrite ?wjobs_app, ?in_app_iff; simpl; rewrite upd_other by auto; intuition.
Qed.

Lemma close_eff s : Inv s -> eff (is_void s) (limit s) TOther (abs s) [] (abs (close s)).
Proof.
  intros I.
  match goal with |- eff _ _ _ _ _ (abs ?x0) => replace (abs x0) with
   (mkA true (bf (abs s)) [] []
      (jr (abs s) ++ map (fun _ => (None, true)) (filter (fun b => b) (ar (abs s))))
      (jw (abs s) ++ map (fun p => mkJ (snd p) false true true) (filter fst (aw (abs s))))) end; [apply e_close|].
  unfold close. set (s1 := fold_left close_read (rq s) (set_closed s)).
  set (s2 := fold_left close_write (wq s) (set_rq [] s1)).
  destruct (close_reads_other (rq s) (set_closed s)) as (A1 & A2 & A3 & A4 & A5 & A6 & A7 & A8).
  fold s1 in A1, A2, A3, A4, A5, A6, A7, A8.
  destruct (close_writes_other (wq s) (set_rq [] s1)) as (B1 & B2 & B3 & B4 & B5 & B6 & B7 & B8).
  fold s2 in B1, B2, B3, B4, B5, B6, B7, B8.
  assert (CR := close_reads_abs (rq s) (set_closed s)). fold s1 in CR.
  assert (CW := close_writes_abs (wq s) (set_rq [] s1)). fold s2 in CW.
  unfold abs. symmetry. sm. rewrite B1, B2, B3, B4, B7, A2, A4. simpl. apply abs_eq; auto.
  - apply CR.
    + destruct (inv_r _ I) as (N & _); auto.
    + intros i Hi. split; [exact (queue_not_job_r s i I Hi)|]. intros Hh. destruct (handle_not_job_r s i I Hh). tauto.
  - rewrite CW.
    + rewrite A3, A7. reflexivity.
    + destruct (inv_w _ I) as (N & _); auto.
    + intros i Hi. rewrite A3, A7. split; [exact (queue_not_job_w s i I Hi)|]. intros Hh. destruct (handle_not_job_w s i I Hh). tauto.
Qed.

Lemma run_job_eff s k : Inv s -> bad (fst (run_job s k)) = None ->
  eff (is_void s) (limit s) TRun (abs s) (snd (run_job s k)) (abs (fst (run_job s k))).
Proof.
  intros I. unfold run_job. destruct (nth_error (posted s) k) as [[i|j]|] eqn:E; [| |intros _; apply e_nop].
  - destruct (run_r_finish_inv s k i I E) as [F A]. rewrite A. simpl is_awaited. cbv iota. intros Hb.
    destruct (rjobs_remove _ _ _ E) as (a & b & E1 & E2 & E3).
    set (s1 := set_posted (remove_nth k (posted s)) s) in *.
    assert (Ej : jr (abs s) = jr_abs (rops s) a ++ (r_direct (rops s i), r_cancelled (rops s i)) :: jr_abs (rops s) b).
    { simpl. unfold jr_abs. rewrite E1, map_app. reflexivity. }
    assert (As : abs s1 = mkA (cl (abs s)) (bf (abs s)) (ar (abs s)) (aw (abs s)) (jr_abs (rops s) a ++ jr_abs (rops s) b) (jw (abs s))).
    { unfold s1, abs. sm. simpl. rewrite E2, E3. unfold jr_abs. rewrite map_app. reflexivity. }
    destruct (read_resume_abs s1 i F Hb) as [(r & F1 & F2 & F3 & F4)|(u & b' & F0 & F1 & F2 & F3 & F4)].
    + rewrite F1, F3, As. eapply e_run_r_fail; eauto.
      change (rops s1) with (rops s) in F4. change (read_broken s1) with (read_broken s) in F4.
      destruct F4 as [F4|F4]; [left|now apply read_broken_none].
      destruct (r_direct (rops s i)) eqn:Ed; auto.
      rewrite (awaited_direct_r s i I A) in F4; congruence.
      change (rops s1) with (rops s) in F4. destruct F4 as [F4|F4]; auto. right. unfold read_broken in F4.
      change (closed s1) with (closed s) in F4. simpl. destruct (closed s); auto.
    + rewrite F1, F2, As.
      change (rops s1) with (rops s) in *. change (buf s1) with (buf s) in *.
      unfold setbf. simpl. rewrite F3 in Ej.
      apply (e_run_r _ _ (abs s) (jr_abs (rops s) a) (r_direct (rops s i)) (jr_abs (rops s) b) i u b'); auto.
      eapply read_broken_void; eauto.
  - destruct (run_w_finish_inv s k j I E) as [F A]. rewrite A. simpl is_awaited. cbv iota. intros Hb.
    destruct (wval_some s j I) as [v Ev]; [congruence|].
    destruct (wjobs_remove _ _ _ E) as (a & b & E1 & E2 & E3).
    set (s1 := set_posted (remove_nth k (posted s)) s) in *.
    assert (Ej : jw (abs s) = jw_abs (wops s) a ++ mkJ (w_val (wops s j)) (w_direct (wops s j)) (w_cancelled (wops s j)) (w_closed (wops s j)) :: jw_abs (wops s) b).
    { simpl. unfold jw_abs. rewrite E1, map_app. reflexivity. }
    assert (As : abs s1 = mkA (cl (abs s)) (bf (abs s)) (ar (abs s)) (aw (abs s)) (jr (abs s)) (jw_abs (wops s) a ++ jw_abs (wops s) b)).
    { unfold s1, abs. sm. simpl. rewrite E2, E3. unfold jw_abs. rewrite map_app. reflexivity. }
    rewrite Ev in Ej.
    destruct (write_resume_abs s1 j v F Hb Ev) as [(r & F1 & F2 & F3 & F4)|[(F1 & F2 & F3 & F4 & F5)|(F1 & F2 & F3 & F4 & F5 & F6)]].
    + rewrite F1, F3, As.
      assert (D : w_direct (wops s j) = false).
      { destruct (w_direct (wops s j)) eqn:Ed; auto. exfalso.
        pose proof (awaited_direct_w s j I A Ed). pose proof (inv_wdc _ I j Ed).
        change (wops s1) with (wops s) in F4. intuition congruence. }
      rewrite D in Ej. eapply e_run_w_fail; eauto.
    + change (wops s1) with (wops s) in *. rewrite F2, F3, As. rewrite F1, F4, F5 in Ej. eapply e_run_w_direct; eauto.
    + change (wops s1) with (wops s) in *. rewrite F3, F4, As. rewrite F1, F5, F6 in Ej.
      unfold setbf. simpl. apply (e_run_w _ _ (abs s) (jw_abs (wops s) a) v (jw_abs (wops s) b) j); auto.
Qed.

Lemma step_eff s l : Inv s -> bad (fst (step s l)) = None ->
  eff (is_void s) (limit s) (tag_of s l) (abs s) (snd (step s l)) (abs (fst (step s l))).
Proof.
  intros I. unfold step. destruct (bad s) eqn:B; [intros; apply e_nop|].
  destruct l; simpl step_ok.
  - destruct (r_stage (rops s i)) eqn:S; intros _; try apply e_nop. cbn [fst snd].
    assert (X := q_not_awaited_out _ _ _ (inv_r _ I) i (or_intror S)). destruct X as [X1 X2].
    rewrite abs_set_r_same; auto. apply e_nop.
  - destruct (r_stage (rops s i)) eqn:S; try (intros _; apply e_nop). now apply read_await_eff.
  - destruct (w_stage (wops s i)) eqn:S; intros _; try apply e_nop. cbn [fst snd].
    assert (X := q_not_awaited_out _ _ _ (inv_w _ I) i (or_intror S)). destruct X as [X1 X2].
    rewrite abs_set_w_same; auto. apply e_nop.
  - destruct (w_stage (wops s i)) eqn:S; try (intros _; apply e_nop). now apply write_await_eff.
  - intros _. now apply read_cancel_eff.
  - intros _. now apply write_cancel_eff.
  - destruct (r_stage (rops s i)) eqn:S; try (intros _; apply e_nop); now apply read_interrupt_eff.
  - destruct (w_stage (wops s i)) eqn:S; try (intros _; apply e_nop); apply write_interrupt_eff; auto; congruence.
  - assert (X : (r_stage (rops s i) = Made \/ r_stage (rops s i) = Finished) ->
      eff (is_void s) (limit s) TOther (abs s) [] (abs (set_rq (unlink i (rq s)) (set_r i (mkR Destroyed (r_cancelled (rops s i)) (r_direct (rops s i)) false false) s)))).
    { intros S. assert (NJ : ~ In i (rjobs (posted s))) by (apply not_awaited_not_job_r; auto; intuition congruence).
      destruct (in_dec Nat.eq_dec i (rq s)) as [Q|Q].
      - destruct (inv_r _ I) as (Nd & _ & Hl). specialize (Hl i). unfold loc in Hl. simpl in Hl.
        assert (Eh : r_handle (rops s i) = false) by intuition congruence.
        destruct (in_split_map (fun i => r_handle (rops s i)) _ _ Q Nd) as (x & y & E1 & E2 & E3 & E4).
        rewrite Eh in E3.
        match goal with |- eff _ _ _ _ _ (abs ?x0) => replace (abs x0) with
          (mkA (cl (abs s)) (bf (abs s)) (rq_abs (rops s) x ++ rq_abs (rops s) y) (aw (abs s)) (jr (abs s)) (jw (abs s))) end.
        + apply e_unlink_r. exact E3.
        + unfold abs. sm. simpl. apply abs_eq; auto.
          * unfold rq_abs. rewrite E4, map_app. rewrite in_app_iff in E2. rewrite !(map_upd_out (fun o => r_handle o)) by tauto. reflexivity.
          * unfold jr_abs. symmetry. now apply (map_upd_out (fun o => (r_direct o, r_cancelled o))).
      - rewrite unlink_out by auto.
        match goal with |- eff _ _ _ _ _ (abs (set_rq (rq s) ?x)) => change (set_rq (rq s) x) with x end.
        rewrite abs_set_r_same; auto. apply e_nop. }
    destruct (r_stage (rops s i)) eqn:S; intros _; try apply e_nop; simpl; apply X; auto.
  - assert (X : (w_stage (wops s i) = Made \/ w_stage (wops s i) = Finished) ->
      eff (is_void s) (limit s) TOther (abs s) [] (abs (set_wq (unlink i (wq s)) (set_w i (mkW Destroyed (w_cancelled (wops s i)) (w_direct (wops s i)) (w_closed (wops s i)) false false (w_val (wops s i))) s)))).
    { intros S. assert (NJ : ~ In i (wjobs (posted s))) by (apply not_awaited_not_job_w; auto; intuition congruence).
      destruct (in_dec Nat.eq_dec i (wq s)) as [Q|Q].
      - destruct (inv_w _ I) as (Nd & _ & Hl). specialize (Hl i). unfold loc in Hl. simpl in Hl.
        assert (Eh : w_handle (wops s i) = false) by intuition congruence.
        destruct (in_split_map (fun i => (w_handle (wops s i), w_val (wops s i))) _ _ Q Nd) as (x & y & E1 & E2 & E3 & E4).
        rewrite Eh in E3.
        match goal with |- eff _ _ _ _ _ (abs ?x0) => replace (abs x0) with
          (mkA (cl (abs s)) (bf (abs s)) (ar (abs s)) (wq_abs (wops s) x ++ wq_abs (wops s) y) (jr (abs s)) (jw (abs s))) end.
        + eapply e_unlink_w. exact E3.
        + unfold abs. sm. simpl. apply abs_eq; auto.
          * unfold wq_abs. rewrite E4, map_app. rewrite in_app_iff in E2. rewrite !(map_upd_out (fun o => (w_handle o, w_val o))) by tauto. reflexivity.
          * unfold jw_abs. symmetry. now apply (map_upd_out (fun o => mkJ (w_val o) (w_direct o) (w_cancelled o) (w_closed o))).
      - rewrite unlink_out by auto.
        match goal with |- eff _ _ _ _ _ (abs (set_wq (wq s) ?x)) => change (set_wq (wq s) x) with x end.
        rewrite abs_set_w_same; auto. apply e_nop. }
    destruct (w_stage (wops s i)) eqn:S; intros _; try apply e_nop; simpl; apply X; auto.
  - intros _. now apply close_eff.
  - now apply run_job_eff.
Qed.

End Abs.
