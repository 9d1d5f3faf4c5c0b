(** A channel with one reader and one writer, closed by nobody but the writer, without cancellation: what each operation does. *)
From Coq Require Import List Bool Arith Lia.
From Verif Require Import Channel_Model.
Import ListNotations.

Section Chan.
Context {V : Type}.
Notation cstate := (Channel_Model.state V).
Notation cevent := (Channel_Model.event V).

Inductive rside := ROff | RWait | RPost (h : option V).
Inductive wside := WOff | WWait (v : V) | WPost (v : V) (d : bool).
Definition rbusy r := match r with ROff => false | _ => true end.
Definition wval w := match w with WOff => None | WWait v | WPost v _ => Some v end.
Definition held r := match r with RPost (Some v) => [v] | _ => [] end.
Definition pend w := match w with WWait v | WPost v false => [v] | _ => [] end.
Definition rjob r n := match r with RPost _ => [JR (pred n)] | _ => [] end.
Definition wjob w n := match w with WPost _ _ => [JW (pred n)] | _ => [] end.

Record N (vd : bool) (lim : nat) (c : cstate) (nr nw : nat) (r : rside) (w : wside) : Prop := {
  n_void : is_void c = vd;
  n_lim : limit c = lim;
  n_cl : closed c = false;
  n_bad : bad c = None;
  n_len : length (buf c) <= lim;
  n_rabs : forall i, nr <= i -> r_stage (rops c i) = Absent;
  n_wabs : forall i, nw <= i -> w_stage (wops c i) = Absent;
  n_rq : rq c = match r with RWait => [pred nr] | _ => [] end;
  n_wq : wq c = match w with WWait _ => [pred nw] | _ => [] end;
  n_r : match r with
        | ROff => True
        | RWait => 0 < nr /\ rops c (pred nr) = mkR Awaited false None false true /\ buf c = []
        | RPost h => 0 < nr /\ rops c (pred nr) = mkR Awaited false h false false /\ match h with None => buf c <> [] | Some _ => lim = 0 end
        end;
  n_w : match w with
        | WOff => True
        | WWait v => 0 < nw /\ wops c (pred nw) = mkW Awaited false false false false true (Some v) /\ length (buf c) = lim
        | WPost v d => 0 < nw /\ wops c (pred nw) = mkW Awaited false d false false false (Some v) /\ (d = false -> length (buf c) < lim) /\ (d = true -> lim = 0)
        end;
  n_x : r = RWait -> forall v, w <> WWait v;
  n_job : posted c = rjob r nr ++ wjob w nw \/ posted c = wjob w nw ++ rjob r nr }.

Definition flow (c : cstate) r w := held r ++ buf c ++ pend w.

(** The same after the writer closed it: [CBrk] is a read that waited then. *)
Inductive cside := COff | CPost (h : option V) | CBrk.
Definition cbusy r := match r with COff => false | _ => true end.
Definition cheld r := match r with CPost (Some v) => [v] | _ => [] end.
Record NC (lim : nat) (c : cstate) (nr nw : nat) (r : cside) : Prop := {
  c_void : is_void c = false;
  c_cl : closed c = true;
  c_bad : bad c = None;
  c_len : length (buf c) <= lim;
  c_rabs : forall i, nr <= i -> r_stage (rops c i) = Absent;
  c_wabs : forall i, nw <= i -> w_stage (wops c i) = Absent;
  c_rq : rq c = [];
  c_wq : wq c = [];
  c_r : match r with
        | COff => posted c = []
        | CPost h => posted c = [JR (pred nr)] /\ 0 < nr /\ rops c (pred nr) = mkR Awaited false h false false /\ match h with None => buf c <> [] | Some _ => buf c = [] end
        | CBrk => posted c = [JR (pred nr)] /\ 0 < nr /\ rops c (pred nr) = mkR Awaited true None false false /\ buf c = []
        end }.

(** The channel [c] after [nr] and [nw] operations; [vd]: it is a channel<void>; [cl]: it is closed; [rb]: a read is under way, [wv]: a write of this value is under
    way, [fl]: what was written, or is being written, and has not been read. *)
Definition OChan vd lim c nr nw (rb : bool) (wv : option V) (fl : list V) : Prop :=
  exists r w, N vd lim c nr nw r w /\ rb = rbusy r /\ wv = wval w /\ fl = flow c r w.
Definition CChan lim c nr nw (rb : bool) (wv : option V) (fl : list V) : Prop :=
  exists r, NC lim c nr nw r /\ rb = cbusy r /\ wv = None /\ fl = cheld r ++ buf c.
Definition Chan (vd : bool) lim c nr nw (cl rb : bool) (wv : option V) (fl : list V) : Prop :=
  (cl = false /\ OChan vd lim c nr nw rb wv fl) \/ (cl = true /\ vd = false /\ CChan lim c nr nw rb wv fl).

(** What an operation can complete. *)
Definition oends vd nr nw (rb : bool) (wv : option V) fl lim c (es : list cevent) : Prop :=
  (es = [] /\ OChan vd lim c nr nw rb wv fl) \/
  (exists v t, es = [ERead (pred nr) (RVal v)] /\ rb = true /\ fl = v :: t /\ OChan vd lim c nr nw false wv t) \/
  (exists v, es = [EWrite (pred nw) v WOk] /\ wv = Some v /\ OChan vd lim c nr nw rb None fl).
Definition ends vd nr nw (cl rb : bool) (wv : option V) fl lim c (es : list cevent) : Prop :=
  (es = [] /\ Chan vd lim c nr nw cl rb wv fl) \/
  (exists v t, es = [ERead (pred nr) (RVal v)] /\ rb = true /\ fl = v :: t /\ Chan vd lim c nr nw cl false wv t) \/
  (exists v, es = [EWrite (pred nw) v WOk] /\ wv = Some v /\ cl = false /\ Chan vd lim c nr nw cl rb None fl) \/
  (es = [ERead (pred nr) RBroken] /\ rb = true /\ cl = true /\ fl = [] /\ Chan vd lim c nr nw cl false wv fl) \/
  (exists v, es = [EWrite (pred nw) v WBroken] /\ wv = Some v /\ cl = true /\ Chan vd lim c nr nw cl rb None fl).
Lemma ends_of vd nr nw rb wv fl lim c es : oends vd nr nw rb wv fl lim c es -> ends vd nr nw false rb wv fl lim c es.
Proof.
  unfold ends, Chan. intros [(-> & H)|[(v & t & -> & H1 & H2 & H3)|(v & -> & H1 & H2)]]; [left; auto|right; left; exists v, t; auto 6|right; right; left; exists v; auto 6].
Qed.

Lemma chan_init vd lim : Chan vd lim (init vd lim) 0 0 false false None [].
Proof. left. split; [reflexivity|]. exists ROff, WOff. repeat split; cbn; auto; try lia; discriminate. Qed.

Ltac fin := cbn in *; auto; try tauto; try congruence; try lia; intros; try (intuition (try congruence; try lia; try discriminate); fail); try (unfold upd; match goal with |- context [?a =? ?b] => destruct (Nat.eqb_spec a b); cbn; auto; try lia; fail end).
Ltac mkN := split; cbn; auto; try lia; try (intros; discriminate).
Lemma upd_eq {A} (f : nat -> A) i x : upd f i x i = x.
Proof. unfold upd. now rewrite Nat.eqb_refl. Qed.
Lemma upd_ne {A} (f : nat -> A) i x j : j <> i -> upd f i x j = f j.
Proof. unfold upd. intro. destruct (Nat.eqb_spec j i); congruence. Qed.
Lemma upd_up {A} (f : nat -> A) (P : A -> Prop) i x n : (forall j, n <= j -> P (f j)) -> i < n -> forall j, n <= j -> P (upd f i x j).
Proof. intros H L j Hj. rewrite upd_ne; [auto|lia]. Qed.

Ltac u := cbn; repeat (rewrite upd_eq; cbn).
Ltac res := eexists; eexists; split; [reflexivity|].
Lemma nil0 {A} (b : list A) : length b <= 0 -> b = [].
Proof. destruct b; cbn; [auto|lia]. Qed.

Section Ops.
Variables (vd : bool) (lim : nat) (c : cstate) (nr nw : nat).

Lemma read_begins_o wv fl : OChan vd lim c nr nw false wv fl -> exists c' es, run c [MkRead nr; AwRead nr false] = (c', es) /\ oends vd (S nr) nw true wv fl lim c' es.
Proof.
  intros (r & w & H & Hr & -> & ->). destruct r; try discriminate. clear Hr. destruct c as [vd0 lm cl b q1 q2 ro wo po bd].
  destruct H as [H1 H2 H3 H4 H5 H6 H7 H8 H9 H10 H11 H12 H13]. cbn in *. subst. unfold Channel_Model.step. cbn. rewrite (H6 nr (le_n _)). u. unfold read_await, read_ready. u. rewrite !orb_false_r.
  assert (A6 : forall o i, S nr <= i -> r_stage (upd ro nr o i) = Absent) by (intros o i Hi; rewrite upd_ne; [apply H6|]; lia).
  assert (A6' : forall o o2 i, S nr <= i -> r_stage (upd (upd ro nr o) nr o2 i) = Absent) by (intros o o2 i Hi; rewrite upd_ne; [apply A6|]; lia).
  assert (A7 : forall o i, 0 < nw -> nw <= i -> w_stage (upd wo (pred nw) o i) = Absent) by (intros o i Hn Hi; rewrite upd_ne; [apply H7|]; lia).
  assert (A7' : forall o o2 i, 0 < nw -> nw <= i -> w_stage (upd (upd wo (pred nw) o) (pred nw) o2 i) = Absent) by (intros o o2 i Hn Hi; rewrite upd_ne; [apply A7|]; lia).
  destruct b as [|v b]; u.
  - destruct w as [|v|v d]; u.
    + res. left. split; [reflexivity|]. exists RWait, WOff. split; [|auto]. mkN. u. repeat split; auto. lia.
    + destruct H11 as (G1 & G2 & G3). rewrite G2. u. unfold write_resume. u. res. right. right. exists v. split; [reflexivity|]. split; [reflexivity|].
      exists (RPost (Some v)), WOff. split; [|auto]. split; cbn; auto; try lia; try (intros; discriminate).
      * u. repeat split; auto; lia.
      * destruct H13 as [->| ->]; auto.
    + res. left. split; [reflexivity|]. exists RWait, (WPost v d). split; [|auto]. mkN.
      * u. repeat split; auto. lia.
  - unfold read_resume, read_broken. u. unfold wake_writer. u.
    destruct w as [|x|x d]; u.
    + res. right. left. exists v, b. split; [reflexivity|]. split; [reflexivity|]. split; [cbn; now rewrite app_nil_r|].
      exists ROff, WOff. split; [|unfold flow; cbn; rewrite app_nil_r; auto]. cbn in H5. mkN.
    + destruct H11 as (G1 & G2 & G3). unfold write_ready, full. cbn. cbn in G3. rewrite <- G3. destruct (Nat.leb_spec (S (length b)) (length b)) as [L|L]; [lia|]. cbn. rewrite G2. cbn.
      res. right. left. exists v, (b ++ [x]). split; [reflexivity|]. split; [reflexivity|]. split; [reflexivity|].
      exists ROff, (WPost x false). split; [|auto]. split; cbn; auto; try lia; try (intros; discriminate).
      * u. repeat split; auto. discriminate.
      * destruct H13 as [->| ->]; auto.
    + destruct H11 as (G1 & G2 & G3 & G4). destruct d; [specialize (G4 eq_refl); subst; cbn in H5; lia|]. cbn in *.
      res. right. left. exists v, (b ++ [x]). split; [reflexivity|]. split; [reflexivity|]. split; [reflexivity|].
      exists ROff, (WPost x false). split; [|auto]. mkN.
Qed.

Lemma write_begins_o rb fl v : OChan vd lim c nr nw rb None fl -> exists c' es, run c [MkWrite nw v; AwWrite nw false] = (c', es) /\ oends vd nr (S nw) rb (Some v) (fl ++ [v]) lim c' es.
Proof.
  intros (r & w & H & -> & Hw & ->). destruct w; try discriminate. clear Hw. destruct c as [vd0 lm cl b q1 q2 ro wo po bd].
  destruct H as [H1 H2 H3 H4 H5 H6 H7 H8 H9 H10 H11 H12 H13]. cbn in *. subst. unfold Channel_Model.step. cbn. rewrite (H7 nw (le_n _)). u. unfold write_await, write_ready, full. u. rewrite !orb_false_r.
  assert (A7 : forall o i, S nw <= i -> w_stage (upd wo nw o i) = Absent) by (intros o i Hi; rewrite upd_ne; [apply H7|]; lia).
  assert (A7' : forall o o2 i, S nw <= i -> w_stage (upd (upd wo nw o) nw o2 i) = Absent) by (intros o o2 i Hi; rewrite upd_ne; [apply A7|]; lia).
  assert (A6 : forall o i, 0 < nr -> nr <= i -> r_stage (upd ro (pred nr) o i) = Absent) by (intros o i Hn Hi; rewrite upd_ne; [apply H6|]; lia).
  assert (A6' : forall o o2 i, 0 < nr -> nr <= i -> r_stage (upd (upd ro (pred nr) o) (pred nr) o2 i) = Absent) by (intros o o2 i Hn Hi; rewrite upd_ne; [apply A6|]; lia).
  destruct (Nat.leb_spec lim (length b)) as [L|L]; u.
  - assert (Lb : length b = lim) by lia. destruct r as [| |h]; u.
    + res. left. split; [reflexivity|]. exists ROff, (WWait v). split; [|unfold flow; cbn; rewrite app_nil_r; auto]. mkN. u. repeat split; auto. lia.
    + destruct H10 as (G1 & G2 & G3). subst b. rewrite G2. u. unfold read_resume, read_broken. u. unfold wake_writer. u. res.
      right. left. exists v, []. split; [reflexivity|]. split; [reflexivity|]. split; [reflexivity|].
      exists ROff, (WPost v true). split; [|auto]. split; cbn; auto; try lia; try (intros; discriminate).
      * u. repeat split; auto; try lia; try discriminate.
      * destruct H13 as [->| ->]; auto.
    + destruct H10 as (G1 & G2 & G3). res. left. split; [reflexivity|]. exists (RPost h), (WWait v). split; [|unfold flow; cbn; rewrite app_nil_r, app_assoc; auto]. mkN.
      * u. repeat split; auto. lia.
  - unfold write_resume. u. unfold full. u. destruct (Nat.leb_spec lim (length b)) as [L'|_]; [lia|]. unfold wake_reader. u.
    destruct r as [| |h]; u.
    + res. right. right. exists v. split; [reflexivity|]. split; [reflexivity|]. exists ROff, WOff. split; [|unfold flow; cbn; now rewrite !app_nil_r].
      mkN. rewrite app_length. cbn. lia.
    + destruct H10 as (G1 & G2 & G3). subst b. unfold read_ready. cbn. rewrite G2. cbn. res. right. right. exists v. split; [reflexivity|]. split; [reflexivity|].
      exists (RPost None), WOff. split; [|auto]. split; cbn; auto; try lia; try (intros; discriminate).
      * u. repeat split; auto. discriminate.
      * destruct H13 as [->| ->]; auto.
    + destruct H10 as (G1 & G2 & G3). destruct h as [x|]; [lia|]. res. right. right. exists v. split; [reflexivity|]. split; [reflexivity|]. exists (RPost None), WOff. split; [|unfold flow; cbn; now rewrite !app_nil_r].
      mkN. { rewrite app_length. cbn. lia. } repeat split; auto. destruct b; discriminate.
Qed.

(** running a job completes its operation *)
Lemma jr_runs rb wv fl k i : OChan vd lim c nr nw rb wv fl -> nth_error (posted c) k = Some (JR i) -> exists c' es, run c [Run k] = (c', es) /\ es <> [] /\ oends vd nr nw rb wv fl lim c' es.
Proof.
  intros (r & w & H & -> & -> & ->) P. destruct c as [vd0 lm cl b q1 q2 ro wo po bd].
  destruct H as [H1 H2 H3 H4 H5 H6 H7 H8 H9 H10 H11 H12 H13]. cbn in *. subst. unfold Channel_Model.step. cbn. unfold run_job. cbn. rewrite P.
  assert (Hr : exists h, r = RPost h /\ i = pred nr /\ remove_nth k po = wjob w nw).
  { destruct r as [| |h], w as [|x|x d]; destruct H13 as [E|E]; cbn in E; subst po; destruct k as [|[|k]]; cbn in P; try discriminate; try (destruct k; discriminate P); injection P as <-; eauto. }
  destruct Hr as (h & -> & -> & E). rewrite E. clear P E H13. destruct H10 as (G1 & G2 & G3). rewrite ?G2. cbn. unfold read_resume, read_broken. cbn. rewrite ?G2. cbn.
  assert (A6 : forall o i, nr <= i -> r_stage (upd ro (pred nr) o i) = Absent) by (intros o i Hi; rewrite upd_ne; [apply H6|]; lia).
  assert (A7 : forall o i, 0 < nw -> nw <= i -> w_stage (upd wo (pred nw) o i) = Absent) by (intros o i Hn Hi; rewrite upd_ne; [apply H7|]; lia).
  destruct h as [v|].
  - subst lim. pose proof (nil0 _ H5). subst b. u. unfold wake_writer. u. destruct w as [|x|x d]; u.
    + res. split; [discriminate|]. right. left. exists v, []. split; [reflexivity|]. split; [reflexivity|]. split; [reflexivity|]. exists ROff, WOff. split; [|auto]. mkN.
    + unfold write_ready, full. u. res. split; [discriminate|]. right. left. exists v, [x]. split; [reflexivity|]. split; [reflexivity|]. split; [reflexivity|]. exists ROff, (WWait x). split; [|auto]. mkN.
    + destruct H11 as (F1 & F2 & F3 & F4). destruct d; [|specialize (F3 eq_refl); lia].
      res. split; [discriminate|]. right. left. exists v, []. split; [reflexivity|]. split; [reflexivity|]. split; [reflexivity|]. exists ROff, (WPost x true). split; [|auto]. mkN.
  - destruct b as [|v b]; [congruence|]. u. unfold wake_writer. u. cbn in H5. destruct w as [|x|x d]; u.
    + res. split; [discriminate|]. right. left. exists v, b. split; [reflexivity|]. split; [reflexivity|]. split; [unfold flow; cbn; now rewrite app_nil_r|]. exists ROff, WOff. split; [|unfold flow; cbn; rewrite app_nil_r; auto]. mkN.
    + destruct H11 as (F1 & F2 & F3). cbn in F3. unfold write_ready, full. u. rewrite <- F3. destruct (Nat.leb_spec (S (length b)) (length b)) as [L|L]; [lia|]. cbn. rewrite F2. cbn.
      res. split; [discriminate|]. right. left. exists v, (b ++ [x]). split; [reflexivity|]. split; [reflexivity|]. split; [reflexivity|]. exists ROff, (WPost x false). split; [|auto]. mkN. u. repeat split; auto; discriminate.
    + destruct H11 as (F1 & F2 & F3 & F4). destruct d; [specialize (F4 eq_refl); lia|].
      res. split; [discriminate|]. right. left. exists v, (b ++ [x]). split; [reflexivity|]. split; [reflexivity|]. split; [reflexivity|]. exists ROff, (WPost x false). split; [|auto]. mkN.
Qed.

Lemma jw_runs rb wv fl k i : OChan vd lim c nr nw rb wv fl -> nth_error (posted c) k = Some (JW i) -> exists c' es, run c [Run k] = (c', es) /\ es <> [] /\ oends vd nr nw rb wv fl lim c' es.
Proof.
  intros (r & w & H & -> & -> & ->) P. destruct c as [vd0 lm cl b q1 q2 ro wo po bd].
  destruct H as [H1 H2 H3 H4 H5 H6 H7 H8 H9 H10 H11 H12 H13]. cbn in *. subst. unfold Channel_Model.step. cbn. unfold run_job. cbn. rewrite P.
  assert (Hw : exists x d, w = WPost x d /\ i = pred nw /\ remove_nth k po = rjob r nr).
  { destruct r as [| |h], w as [|x|x d]; destruct H13 as [E|E]; cbn in E; subst po; destruct k as [|[|k]]; cbn in P; try discriminate; try (destruct k; discriminate P); injection P as <-; eauto. }
  destruct Hw as (x & d & -> & -> & E). rewrite E. clear P E H13. destruct H11 as (G1 & G2 & G3 & G4). rewrite ?G2. cbn. unfold write_resume. cbn. rewrite ?G2. cbn.
  assert (A6 : forall o i, 0 < nr -> nr <= i -> r_stage (upd ro (pred nr) o i) = Absent) by (intros o i Hn Hi; rewrite upd_ne; [apply H6|]; lia).
  assert (A7 : forall o i, nw <= i -> w_stage (upd wo (pred nw) o i) = Absent) by (intros o i Hi; rewrite upd_ne; [apply H7|]; lia).
  destruct d.
  - specialize (G4 eq_refl). subst lim. pose proof (nil0 _ H5). subst b. unfold wake_reader. u. destruct r as [| |h]; u; unfold read_ready; u.
    + res. split; [discriminate|]. right. right. exists x. split; [reflexivity|]. split; [reflexivity|]. exists ROff, WOff. split; [|auto]. mkN.
    + res. split; [discriminate|]. right. right. exists x. split; [reflexivity|]. split; [reflexivity|]. exists RWait, WOff. split; [|auto]. mkN.
    + res. split; [discriminate|]. right. right. exists x. split; [reflexivity|]. split; [reflexivity|]. exists (RPost h), WOff. split; [|auto]. mkN.
  - specialize (G3 eq_refl). unfold full. u. destruct (Nat.leb_spec lim (length b)) as [L|L]; [lia|]. unfold wake_reader. u. destruct r as [| |h]; u.
    + res. split; [discriminate|]. right. right. exists x. split; [reflexivity|]. split; [reflexivity|]. exists ROff, WOff. split; [|unfold flow; cbn; rewrite app_nil_r; auto]. mkN. rewrite app_length. cbn. lia.
    + destruct H10 as (F1 & F2 & F3). subst b. unfold read_ready. u. rewrite F2. u. res. split; [discriminate|]. right. right. exists x. split; [reflexivity|]. split; [reflexivity|]. exists (RPost None), WOff. split; [|auto]. mkN. u. repeat split; auto. discriminate.
    + destruct H10 as (F1 & F2 & F3). destruct h as [y|]; [lia|]. res. split; [discriminate|]. right. right. exists x. split; [reflexivity|]. split; [reflexivity|]. exists (RPost None), WOff. split; [|unfold flow; cbn; rewrite app_nil_r; auto].
      mkN. { rewrite app_length. cbn. lia. } repeat split; auto. destruct b; discriminate.
Qed.

Lemma job_runs_o rb wv fl k : OChan vd lim c nr nw rb wv fl -> k < length (posted c) -> exists c' es, run c [Run k] = (c', es) /\ es <> [] /\ oends vd nr nw rb wv fl lim c' es.
Proof.
  intros H L. destruct (nth_error (posted c) k) as [[i|i]|] eqn:E; [now apply (jr_runs rb wv fl k i)|now apply (jw_runs rb wv fl k i)|]. apply nth_error_None in E. lia.
Qed.

(** destroying the operation that ended *)
Lemma destroy_r_o wv fl : 0 < nr -> OChan vd lim c nr nw false wv fl -> OChan vd lim (fst (step c (DestroyR (pred nr)))) nr nw false wv fl.
Proof.
  intros L (r & w & H & Hr & -> & ->). destruct r; try discriminate. exists ROff, w. destruct c as [vd0 lm cl b q1 q2 ro wo po bd].
  destruct H as [H1 H2 H3 H4 H5 H6 H7 H8 H9 H10 H11 H12 H13]. cbn in *. subst. unfold Channel_Model.step. cbn.
  destruct (r_stage (ro (pred nr))); cbn; (split; [|auto]); mkN; intros i Hi; rewrite upd_ne; auto; lia.
Qed.
Lemma destroy_w_o rb fl : 0 < nw -> OChan vd lim c nr nw rb None fl -> OChan vd lim (fst (step c (DestroyW (pred nw)))) nr nw rb None fl.
Proof.
  intros L (r & w & H & -> & Hw & ->). destruct w; try discriminate. exists r, WOff. destruct c as [vd0 lm cl b q1 q2 ro wo po bd].
  destruct H as [H1 H2 H3 H4 H5 H6 H7 H8 H9 H10 H11 H12 H13]. cbn in *. subst. unfold Channel_Model.step. cbn.
  destruct (w_stage (wo (pred nw))); cbn; (split; [|auto]); mkN; intros i Hi; rewrite upd_ne; auto; lia.
Qed.

(** ** What is known of a state *)
Lemma ochan_bad rb wv fl : OChan vd lim c nr nw rb wv fl -> bad c = None.
Proof. intros (r & w & H & _). apply H. Qed.
Lemma ochan_len rb wv fl : OChan vd lim c nr nw rb wv fl -> length fl <= lim + (if rb then 1 else 0) + (match wv with Some _ => 1 | None => 0 end).
Proof.
  intros (r & w & H & -> & -> & ->). pose proof (n_len _ _ _ _ _ _ _ H). unfold flow. rewrite !app_length.
  destruct r as [| |[h|]], w as [|x|x []]; cbn; lia.
Qed.
Lemma ochan_rest_r wv fl : OChan vd lim c nr nw true wv fl -> posted c = [] -> wv = None /\ fl = [].
Proof.
  intros (r & w & H & Hr & -> & ->) P. pose proof (n_job _ _ _ _ _ _ _ H) as J. rewrite P in J. pose proof (n_r _ _ _ _ _ _ _ H) as R. pose proof (n_x _ _ _ _ _ _ _ H) as X.
  destruct r as [| |h]; try discriminate; [|destruct J as [J|J]; [|symmetry in J; apply app_eq_nil in J; destruct J as [_ J]]; discriminate].
  destruct w as [|x|x d]; [|exfalso; now apply (X eq_refl x)|destruct J; discriminate]. destruct R as (_ & _ & B). unfold flow. cbn. rewrite B. auto.
Qed.
Lemma ochan_rest_w rb v fl : OChan vd lim c nr nw rb (Some v) fl -> posted c = [] -> rb = false /\ length fl = S lim.
Proof.
  intros H P. assert (rb = false). { destruct rb; [|reflexivity]. destruct (ochan_rest_r _ _ H P). discriminate. } subst rb. split; [reflexivity|].
  destruct H as (r & w & H & Hr & Hw & ->). destruct r; try discriminate. pose proof (n_job _ _ _ _ _ _ _ H) as J. rewrite P in J. pose proof (n_w _ _ _ _ _ _ _ H) as R.
  destruct w as [|x|x d]; try discriminate; [|destruct J; discriminate]. destruct R as (_ & _ & B). unfold flow. cbn. rewrite app_length. cbn. lia.
Qed.
Lemma ochan_buf fl : OChan vd lim c nr nw false None fl -> buf c = fl.
Proof. intros (r & w & H & Hr & Hw & ->). destruct r, w; try discriminate. unfold flow. cbn. now rewrite app_nil_r. Qed.

(** ** After closing *)
Lemma read_begins_c wv fl : vd = false -> CChan lim c nr nw false wv fl -> exists c' es, run c [MkRead nr; AwRead nr false] = (c', es) /\ ends vd (S nr) nw true true wv fl lim c' es.
Proof.
  intros Hv (r & H & Hr & -> & ->). destruct r; try discriminate. clear Hr. destruct c as [vd0 lm cl b q1 q2 ro wo po bd].
  destruct H as [H1 H2 H3 H4 H5 H6 H7 H8 H9]. cbn in *. subst. unfold Channel_Model.step. cbn. rewrite (H5 nr (le_n _)). u. unfold read_await, read_ready. u. rewrite orb_true_r. u.
  unfold read_resume, read_broken. u.
  assert (A6 : forall o o2 i, S nr <= i -> r_stage (upd (upd ro nr o) nr o2 i) = Absent) by (intros o o2 i Hi; rewrite !upd_ne; [apply H5| |]; lia).
  destruct b as [|v b]; u.
  - res. right. right. right. left. split; [reflexivity|]. split; [reflexivity|]. split; [reflexivity|]. split; [reflexivity|].
    right. split; [reflexivity|]. split; [reflexivity|]. exists COff. split; [|auto]. split; cbn; auto.
  - res. right. left. exists v, b. split; [reflexivity|]. split; [reflexivity|]. split; [reflexivity|].
    right. split; [reflexivity|]. split; [reflexivity|]. exists COff. split; [|auto]. cbn in H4. split; cbn; auto. lia.
Qed.

Lemma write_begins_c rb fl v : vd = false -> CChan lim c nr nw rb None fl -> exists c' es, run c [MkWrite nw v; AwWrite nw false] = (c', es) /\ ends vd nr (S nw) true rb (Some v) fl lim c' es.
Proof.
  intros Hv (r & H & -> & _ & ->). destruct c as [vd0 lm cl b q1 q2 ro wo po bd].
  destruct H as [H1 H2 H3 H4 H5 H6 H7 H8 H9]. cbn in *. subst. unfold Channel_Model.step. cbn. rewrite (H6 nw (le_n _)). u. unfold write_await, write_ready. u. rewrite orb_true_r. u.
  unfold write_resume. u. res. right. right. right. right. exists v. split; [reflexivity|]. split; [reflexivity|]. split; [reflexivity|].
  right. split; [reflexivity|]. split; [reflexivity|]. exists r. split; [|auto]. split; cbn; auto. intros i Hi. rewrite !upd_ne; [apply H6| |]; lia.
Qed.

Lemma job_runs_c rb wv fl k : vd = false -> CChan lim c nr nw rb wv fl -> k < length (posted c) -> exists c' es, run c [Run k] = (c', es) /\ es <> [] /\ ends vd nr nw true rb wv fl lim c' es.
Proof.
  intros Hv (r & H & -> & -> & ->) L. destruct c as [vd0 lm cl b q1 q2 ro wo po bd].
  destruct H as [H1 H2 H3 H4 H5 H6 H7 H8 H9]. cbn in *. subst. unfold Channel_Model.step. cbn. unfold run_job. cbn.
  assert (A6 : forall o i, 0 < nr -> nr <= i -> r_stage (upd ro (pred nr) o i) = Absent) by (intros o i Hn Hi; rewrite upd_ne; [apply H5|]; lia).
  destruct r as [|h|].
  - subst po. cbn in L. lia.
  - destruct H9 as (-> & G1 & G2 & G3). cbn in L. assert (k = 0) as -> by lia. cbn. rewrite G2. cbn. unfold read_resume, read_broken. cbn. rewrite G2. cbn.
    destruct h as [v|].
    + subst b. u. res. split; [discriminate|]. right. left. exists v, []. split; [reflexivity|]. split; [reflexivity|]. split; [reflexivity|].
      right. split; [reflexivity|]. split; [reflexivity|]. exists COff. split; [|auto]. split; cbn; auto.
    + destruct b as [|v b]; [congruence|]. u. res. split; [discriminate|]. right. left. exists v, b. split; [reflexivity|]. split; [reflexivity|]. split; [reflexivity|].
      right. split; [reflexivity|]. split; [reflexivity|]. exists COff. split; [|auto]. cbn in H4. split; cbn; auto. lia.
  - destruct H9 as (-> & G1 & G2 & G3). cbn in L. assert (k = 0) as -> by lia. subst b. cbn. rewrite G2. cbn. unfold read_resume, read_broken. cbn. rewrite G2. cbn.
    res. split; [discriminate|]. right. right. right. left. split; [reflexivity|]. split; [reflexivity|]. split; [reflexivity|]. split; [reflexivity|].
    right. split; [reflexivity|]. split; [reflexivity|]. exists COff. split; [|auto]. split; cbn; auto.
Qed.

Lemma destroy_r_c wv fl : 0 < nr -> CChan lim c nr nw false wv fl -> CChan lim (fst (step c (DestroyR (pred nr)))) nr nw false wv fl.
Proof.
  intros L (r & H & Hr & -> & ->). destruct r; try discriminate. exists COff. destruct c as [vd0 lm cl b q1 q2 ro wo po bd].
  destruct H as [H1 H2 H3 H4 H5 H6 H7 H8 H9]. cbn in *. subst. unfold Channel_Model.step. cbn.
  destruct (r_stage (ro (pred nr))); cbn; (split; [|auto]); split; cbn; auto; intros i Hi; rewrite upd_ne; auto; lia.
Qed.
Lemma destroy_w_c rb fl : 0 < nw -> CChan lim c nr nw rb None fl -> CChan lim (fst (step c (DestroyW (pred nw)))) nr nw rb None fl.
Proof.
  intros L (r & H & -> & _ & ->). exists r. destruct c as [vd0 lm cl b q1 q2 ro wo po bd].
  destruct H as [H1 H2 H3 H4 H5 H6 H7 H8 H9]. cbn in *. subst. unfold Channel_Model.step. cbn.
  destruct (w_stage (wo (pred nw))); cbn; (split; [|auto]); split; cbn; auto; intros i Hi; rewrite upd_ne; auto; lia.
Qed.

(** ** Both *)
Lemma read_begins cl wv fl : Chan vd lim c nr nw cl false wv fl -> exists c' es, run c [MkRead nr; AwRead nr false] = (c', es) /\ ends vd (S nr) nw cl true wv fl lim c' es.
Proof.
  intros [[-> H]|(-> & E & H)]; [|now apply read_begins_c]. destruct (read_begins_o _ _ H) as (c' & es & R & O). exists c', es. split; [exact R|now apply ends_of].
Qed.
Lemma write_begins cl rb fl v : Chan vd lim c nr nw cl rb None fl -> exists c' es, run c [MkWrite nw v; AwWrite nw false] = (c', es) /\ ends vd nr (S nw) cl rb (Some v) (if cl then fl else fl ++ [v]) lim c' es.
Proof.
  intros [[-> H]|(-> & E & H)]; [|now apply write_begins_c]. destruct (write_begins_o _ _ v H) as (c' & es & R & O). exists c', es. split; [exact R|now apply ends_of].
Qed.
Lemma job_runs cl rb wv fl k : Chan vd lim c nr nw cl rb wv fl -> k < length (posted c) -> exists c' es, run c [Run k] = (c', es) /\ es <> [] /\ ends vd nr nw cl rb wv fl lim c' es.
Proof.
  intros [[-> H]|(-> & E & H)] L; [|now apply job_runs_c]. destruct (job_runs_o _ _ _ _ H L) as (c' & es & R & Ne & O). exists c', es. split; [exact R|]. split; [exact Ne|now apply ends_of].
Qed.
Lemma destroy_r cl wv fl : 0 < nr -> Chan vd lim c nr nw cl false wv fl -> Chan vd lim (fst (step c (DestroyR (pred nr)))) nr nw cl false wv fl.
Proof. intros L [[-> H]|(-> & E & H)]; [left|right]; auto using destroy_r_o, destroy_r_c. Qed.
Lemma destroy_w cl rb fl : 0 < nw -> Chan vd lim c nr nw cl rb None fl -> Chan vd lim (fst (step c (DestroyW (pred nw)))) nr nw cl rb None fl.
Proof. intros L [[-> H]|(-> & E & H)]; [left|right]; auto using destroy_w_o, destroy_w_c. Qed.

(** the writer closes the channel *)
Lemma closes cl rb fl : vd = false -> Chan vd lim c nr nw cl rb None fl -> exists c', run c [Close] = (c', []) /\ Chan vd lim c' nr nw true rb None fl.
Proof.
  intros Hv [[-> (r & w & H & -> & Hw & ->)]|(-> & E & (r & H & -> & _ & ->))]; destruct c as [vd0 lm cl' b q1 q2 ro wo po bd].
  - destruct w; try discriminate. destruct H as [H1 H2 H3 H4 H5 H6 H7 H8 H9 H10 H11 H12 H13]. cbn in *. subst. unfold Channel_Model.step. cbn. unfold close. cbn.
    destruct r as [| |h]; cbn.
    + eexists. split; [reflexivity|]. right. split; [reflexivity|]. split; [reflexivity|]. exists COff. split; [|unfold flow; cbn; rewrite app_nil_r; auto]. destruct H13 as [->| ->]; split; cbn; auto.
    + destruct H10 as (G1 & G2 & G3). subst b. unfold close_read. cbn. rewrite G2. cbn. eexists. split; [reflexivity|]. right. split; [reflexivity|]. split; [reflexivity|]. exists CBrk. split; [|auto].
      destruct H13 as [->| ->]; (split; cbn; auto; [intros i Hi; rewrite upd_ne; [apply H6|]; lia|rewrite upd_eq; auto]).
    + destruct H10 as (G1 & G2 & G3). eexists. split; [reflexivity|]. right. split; [reflexivity|]. split; [reflexivity|]. exists (CPost h). split; [|unfold flow; cbn; rewrite app_nil_r; destruct h; auto].
      assert (match h with Some _ => b = [] | None => b <> [] end) by (destruct h; [subst lim; now apply nil0|exact G3]). destruct H13 as [->| ->]; split; cbn; auto.
  - destruct H as [H1 H2 H3 H4 H5 H6 H7 H8 H9]. cbn in *. subst. unfold Channel_Model.step. cbn. unfold close. cbn. eexists. split; [reflexivity|]. right. split; [reflexivity|]. split; [reflexivity|]. exists r. split; [|auto]. split; cbn; auto.
Qed.

Lemma chan_bad cl rb wv fl : Chan vd lim c nr nw cl rb wv fl -> bad c = None /\ length (buf c) <= lim.
Proof. intros [[-> (r & w & H & _)]|(-> & E & (r & H & _))]; split; apply H. Qed.
Lemma chan_len rb wv fl : Chan vd lim c nr nw false rb wv fl -> length fl <= lim + (if rb then 1 else 0) + (match wv with Some _ => 1 | None => 0 end).
Proof. intros [[_ H]|(E & _)]; [now apply ochan_len|discriminate]. Qed.
Lemma chan_rest_r cl wv fl : Chan vd lim c nr nw cl true wv fl -> posted c = [] -> cl = false /\ wv = None /\ fl = [].
Proof.
  intros [[-> H]|(-> & E & (r & H & Hr & -> & ->))] P; [split; [reflexivity|now apply ochan_rest_r]|]. pose proof (c_r _ _ _ _ _ H) as R.
  destruct r; try discriminate; destruct R as [R _]; congruence.
Qed.
Lemma chan_rest_w cl rb v fl : Chan vd lim c nr nw cl rb (Some v) fl -> posted c = [] -> cl = false /\ rb = false /\ length fl = S lim.
Proof.
  intros [[-> H]|(-> & E & (r & H & Hr & Hw & ->))] P; [split; [reflexivity|now apply (ochan_rest_w _ v)]|discriminate].
Qed.
End Ops.
End Chan.
