(** The invariant of networks with one reader and one writer per channel. *)
From Coq Require Import List Bool Arith Lia.
From Verif Require Import Channel_Model Kpn_Model Kpn_Spec Kpn_Chan Kpn_Kahn.
Import ListNotations.

Section Net.
Context {V S : Type}.
Variable next : nat -> S -> act V S.
Variables (void : nat -> bool) (reader writer : nat -> nat) (start : nat -> S) (lims : nat -> nat).
Hypothesis PP : point_to_point next void reader writer.
Notation event := (Kpn_Model.event V).
Notation state := (Kpn_Model.state V S).
Notation cevent := (Channel_Model.event V).

(** is a read, or a write, of channel [c] under way *)
Definition rb (s : state) c : bool := busy s (reader c) && match next (reader c) (loc s (reader c)) with Rd d _ => d =? c | _ => false end.
Definition wv (s : state) c : option V := if busy s (writer c) then match next (writer c) (loc s (writer c)) with Wr d v _ => if d =? c then Some v else None | _ => None end else None.
Definition n1 (b : bool) := if b then 1 else 0.
Definition n1o (o : option V) := match o with Some _ => 1 | None => 0 end.

Record Ln (tr : list event) (s : state) c (fl : list V) : Prop := {
  l_flow : puts c tr = gets c tr ++ fl;
  l_nr : n1 (rb s c) <= nr s c;
  l_nw : n1o (wv s c) <= nw s c;
  l_r : beginr c tr = endr c tr + n1 (rb s c);
  l_g : shut c tr = false -> endr c tr = length (gets c tr);
  l_w : length (puts c tr) = endw c tr + if shut c tr then 0 else n1o (wv s c);
  l_ro : forall i, i < nr s c -> rown s c i = reader c;
  l_wo : forall i, i < nw s c -> wown s c i = writer c }.

Definition Cn (tr : list event) s c fl := Chan (void c) (lims c) (chans s c) (nr s c) (nw s c) (shut c tr) (rb s c) (wv s c) fl.
Definition paths (tr : list event) (s : state) := forall p, path next p (start p, false) (of_proc p tr) (loc s p, busy s p).
Definition G := G next reader writer start lims.

Record Net (tr : list event) (s : state) : Prop := {
  nt_path : paths tr s;
  nt_chan : forall c, exists fl, Cn tr s c fl /\ Ln tr s c fl;
  nt_G : G tr }.

Lemma of_one p (e : event) : of_proc p [e] = if who e =? p then [e] else [].
Proof. unfold of_proc. cbn. destruct (_ =? _); reflexivity. Qed.

Lemma paths_step tr s s' e : paths tr s -> ok next (who e) (loc s (who e), busy s (who e)) e (loc s' (who e), busy s' (who e)) ->
  (forall p, p <> who e -> loc s' p = loc s p /\ busy s' p = busy s p) -> paths (tr ++ [e]) s'.
Proof.
  intros P O H p. rewrite of_app, of_one. destruct (Nat.eqb_spec (who e) p) as [<-|Ne]; [econstructor; eauto|]. rewrite app_nil_r. destruct (H p) as [-> ->]; [auto|apply P].
Qed.

Lemma G_snoc tr s e : G tr -> paths (tr ++ [e]) s -> owner reader writer e ->
  (forall p c r, e = EndR p c r -> match r with RVal v => nth_error (puts c tr) (length (gets c tr)) = Some v | RBroken => shut c tr = true /\ length (puts c tr) = length (gets c tr) | RAborted => False end) ->
  (forall p c v r, e = EndW p c v r -> match r with WOk => shut c tr = false /\ endw c tr < beginr c tr + lims c | WBroken => shut c tr = true | WAborted => False end) -> G (tr ++ [e]).
Proof.
  intros [H1 H2 H3 H4] P O F C.
  assert (X : forall t1 x t2, tr ++ [e] = t1 ++ x :: t2 -> (t2 = [] /\ t1 = tr /\ x = e) \/ exists t, t2 = t ++ [e] /\ tr = t1 ++ x :: t).
  { intros t1 x t2 E. destruct t2 as [|y t2] using rev_ind; [left; apply app_inj_tail in E; destruct E; auto|]. right. clear IHt2. change (t1 ++ x :: t2 ++ [y]) with (t1 ++ (x :: t2) ++ [y]) in E. rewrite app_assoc in E. apply app_inj_tail in E. destruct E as [-> ->]. exists t2. auto. }
  split.
  - apply Forall_app. auto.
  - intro p. eexists. apply P.
  - intros t1 p c v t2 E. destruct (X _ _ _ E) as [(-> & -> & E2)|(t & -> & ->)]; [exact (F _ _ _ (eq_sym E2))|eapply H3; eauto].
  - intros t1 p c v r t2 E. destruct (X _ _ _ E) as [(-> & -> & E2)|(t & -> & ->)]; [exact (C _ _ _ _ (eq_sym E2))|eapply H4; eauto].
Qed.

(** only process [p] changes *)
Definition local (p : nat) (s s' : state) := forall q, q <> p -> loc s' q = loc s q /\ busy s' q = busy s q.
Lemma rb_local p s s' c : local p s s' -> reader c <> p -> rb s' c = rb s c.
Proof. intros H N. unfold rb. destruct (H _ N) as [-> ->]. reflexivity. Qed.
Lemma wv_local p s s' c : local p s s' -> writer c <> p -> wv s' c = wv s c.
Proof. intros H N. unfold wv. destruct (H _ N) as [-> ->]. reflexivity. Qed.
Lemma rb_idle s c : busy s (reader c) = false -> rb s c = false.
Proof. unfold rb. now intros ->. Qed.
Lemma wv_idle s c : busy s (writer c) = false -> wv s c = None.
Proof. unfold wv. now intros ->. Qed.
Lemma rb_true s c : rb s c = true -> exists k, busy s (reader c) = true /\ next (reader c) (loc s (reader c)) = Rd c k.
Proof. unfold rb. intro H. apply andb_true_iff in H. destruct H as [H1 H2]. destruct (next _ _) as [|d k| |]; try discriminate. apply Nat.eqb_eq in H2. subst. eauto. Qed.
Lemma wv_some s c v : wv s c = Some v -> exists k, busy s (writer c) = true /\ next (writer c) (loc s (writer c)) = Wr c v k.
Proof. unfold wv. destruct (busy _ _); [|discriminate]. destruct (next _ _) as [| |d u k|]; try discriminate. destruct (Nat.eqb_spec d c); [|discriminate]. intro H. injection H as ->. subst. eauto. Qed.

(** a process that waits in an operation of [c], and then does not wait, or the other way round, changes nothing for other channels *)
Lemma rb_other p s s' c d k : local p s s' -> next p (loc s p) = k -> match k with Rd e _ => e = c | _ => True end ->
  (busy s p = true /\ busy s' p = false \/ busy s p = false /\ loc s' p = loc s p) -> d <> c -> rb s' d = rb s d.
Proof.
  intros L N K B D. destruct (Nat.eq_dec (reader d) p) as [E|E]; [|eapply rb_local; eauto]. unfold rb. rewrite E.
  destruct B as [[B1 B2]|[B1 B2]]; rewrite ?B1, ?B2, ?N; cbn.
  - destruct k as [|e k| |]; auto. subst e. symmetry. apply Nat.eqb_neq. auto.
  - destruct k as [|e k| |]; auto using andb_false_r. subst e. destruct (Nat.eqb_spec c d); [congruence|]. apply andb_false_r.
Qed.
Lemma wv_other p s s' c d k : local p s s' -> next p (loc s p) = k -> match k with Wr e _ _ => e = c | _ => True end ->
  (busy s p = true /\ busy s' p = false \/ busy s p = false /\ loc s' p = loc s p) -> d <> c -> wv s' d = wv s d.
Proof.
  intros L N K B D. destruct (Nat.eq_dec (writer d) p) as [E|E]; [|eapply wv_local; eauto]. unfold wv. rewrite E.
  destruct B as [[B1 B2]|[B1 B2]]; rewrite ?B1, ?B2, ?N; cbn.
  - destruct k as [| |e u k|]; auto. subst e. destruct (Nat.eqb_spec c d); [congruence|reflexivity].
  - destruct k as [| |e u k|]; auto; try (destruct (busy s' p); reflexivity). subst e. destruct (Nat.eqb_spec c d); [congruence|]. destruct (busy s' p); reflexivity.
Qed.

(** events on other channels *)
Definition on_chan (e : event) := match e with BeginR _ c | BeginW _ c _ | Closes _ c | EndR _ c _ | EndW _ c _ _ => c end.
Lemma other_events c (tr : list event) e : on_chan e <> c ->
  puts c (tr ++ [e]) = puts c tr /\ gets c (tr ++ [e]) = gets c tr /\ beginr c (tr ++ [e]) = beginr c tr /\ endw c (tr ++ [e]) = endw c tr /\ endr c (tr ++ [e]) = endr c tr /\ shut c (tr ++ [e]) = shut c tr.
Proof.
  intro N. rewrite puts_app, gets_app, beginr_app, endw_app, endr_app, shut_app.
  assert (E : puts c [e] = [] /\ gets c [e] = [] /\ beginr c [e] = 0 /\ endw c [e] = 0 /\ endr c [e] = 0 /\ shut c [e] = false).
  { destruct e as [p d|p d v|p d|p d r|p d v r]; cbn in N; unfold gets, beginr, endw, endr; cbn; destruct (Nat.eqb_spec d c); try congruence; auto 8; destruct r; cbn; auto 8. }
  destruct E as (-> & -> & -> & -> & -> & ->). rewrite !Nat.add_0_r, orb_false_r, app_nil_r. destruct (shut c tr); rewrite app_nil_r; auto 8.
Qed.
Lemma other_chan c tr s s' e fl : on_chan e <> c -> chans s' c = chans s c -> nr s' c = nr s c -> nw s' c = nw s c -> rown s' c = rown s c -> wown s' c = wown s c -> rb s' c = rb s c -> wv s' c = wv s c ->
  Cn tr s c fl /\ Ln tr s c fl -> Cn (tr ++ [e]) s' c fl /\ Ln (tr ++ [e]) s' c fl.
Proof.
  intros O E1 E2 E3 E4 E5 E6 E7 [H1 H2]. destruct (other_events c tr e O) as (X1 & X2 & X3 & X4 & X5 & X6). unfold Cn in *. rewrite E1, E2, E3, E6, E7, X6. split; [exact H1|].
  destruct H2 as [M1 M2 M3 M4 M8 M5 M6 M7]. split; rewrite ?X1, ?X2, ?X3, ?X4, ?X5, ?X6, ?E2, ?E3, ?E4, ?E5, ?E6, ?E7; auto.
Qed.

Lemma deliver_r tr s c x r fl t : paths tr s -> G tr -> (forall d, d <> c -> exists f, Cn tr s d f /\ Ln tr s d f) -> Ln tr s c fl ->
  rb s c = true -> Chan (void c) (lims c) x (nr s c) (nw s c) (shut c tr) false (wv s c) t ->
  match r with RVal v => fl = v :: t | RBroken => shut c tr = true /\ fl = [] /\ t = [] | RAborted => False end ->
  exists s' e, absorb next c [ERead (pred (nr s c)) r] (set_chan c x s) = (s', e) /\ Net (tr ++ e) s' /\ length e = 1.
Proof.
  intros P Hg Oth L Rb Hc Hr. destruct (rb_true _ _ Rb) as (k & Bs & Nx). pose proof (l_nr _ _ _ _ L) as Hn. rewrite Rb in Hn. cbn in Hn.
  assert (Hp : pred (nr s c) < nr s c) by lia. pose proof (l_ro _ _ _ _ L _ Hp) as Ow.
  cbn [absorb deliver]. cbn [rown loc set_chan]. rewrite Ow, Nx. eexists. eexists. split; [reflexivity|]. cbn [app].
  set (s' := set_busy _ _ _). assert (Lc : local (reader c) s s') by (intros q Nq; unfold s'; cbn; now rewrite !upd_ne).
  assert (B' : busy s' (reader c) = false) by (unfold s'; cbn; apply upd_eq).
  assert (L' : loc s' (reader c) = k r) by (unfold s'; cbn; apply upd_eq).
  assert (P' : paths (tr ++ [EndR (reader c) c r]) s').
  { apply (paths_step tr s); auto. cbn [who]. rewrite Bs, B', L'. now apply ok_er. }
  split; [|reflexivity]. split; [exact P'| |].
  - intro d. destruct (Nat.eq_dec d c) as [->|Ne].
    + exists t. assert (Rb' : rb s' c = false) by (now apply rb_idle).
      assert (Wv' : wv s' c = wv s c). { destruct (Nat.eq_dec (writer c) (reader c)) as [E|E]; [|eapply wv_local; eauto]. unfold wv. rewrite E, B', Bs, Nx. reflexivity. }
      assert (Sh : shut c (tr ++ [EndR (reader c) c r]) = shut c tr) by (rewrite shut_app; cbn; apply orb_false_r).
      split.
      * unfold Cn. rewrite Rb', Wv', Sh. change (nr s' c) with (nr s c). change (nw s' c) with (nw s c). unfold s'. cbn. rewrite !upd_eq. apply destroy_r; [lia|exact Hc].
      * destruct L as [M1 M2 M3 M4 M8 M5 M6 M7].
        assert (Pu : puts c (tr ++ [EndR (reader c) c r]) = puts c tr) by (rewrite puts_app; cbn; destruct (shut c tr); apply app_nil_r).
        assert (Ge : gets c (tr ++ [EndR (reader c) c r]) = gets c tr ++ match r with RVal v => [v] | _ => [] end) by (rewrite gets_app; cbn; rewrite Nat.eqb_refl; destruct r; reflexivity).
        assert (Be : beginr c (tr ++ [EndR (reader c) c r]) = beginr c tr) by (rewrite beginr_app; cbn; lia).
        assert (En : endw c (tr ++ [EndR (reader c) c r]) = endw c tr) by (rewrite endw_app; cbn; lia).
        assert (Er : endr c (tr ++ [EndR (reader c) c r]) = endr c tr + 1) by (rewrite endr_app; unfold endr at 2; cbn; rewrite Nat.eqb_refl; reflexivity).
        rewrite Rb in M4. cbn in M4.
        split; rewrite ?Pu, ?Ge, ?Be, ?En, ?Er, ?Wv', ?Rb', ?Sh; auto; cbn; try lia.
        -- rewrite M1, <- app_assoc. destruct r as [v| |]; [subst fl|tauto|destruct Hr as (_ & -> & ->)]; reflexivity.
        -- intro F. rewrite app_length, (M8 F). destruct r; cbn; [lia|tauto|destruct Hr; congruence].
    + destruct (Oth d Ne) as (f & H). exists f. apply (other_chan d tr s s'); auto.
      * unfold s'. cbn. rewrite !upd_ne; auto.
      * eapply (rb_other (reader c) s s' c d); eauto; reflexivity.
      * eapply (wv_other (reader c) s s' c d); eauto; exact I.
  - apply (G_snoc tr s'); auto; try discriminate.
    + reflexivity.
    + intros p d u E. injection E as <- <- <-. pose proof (l_flow _ _ _ _ L) as Fl. destruct r as [v| |]; [subst fl|tauto|destruct Hr as (H1 & -> & ->)].
      * rewrite Fl, nth_error_app2 by lia. now rewrite Nat.sub_diag.
      * split; [exact H1|]. now rewrite Fl, app_nil_r.
Qed.

Lemma deliver_w tr s c x v r fl : paths tr s -> G tr -> (forall d, d <> c -> exists f, Cn tr s d f /\ Ln tr s d f) -> Ln tr s c fl ->
  wv s c = Some v -> Chan (void c) (lims c) x (nr s c) (nw s c) (shut c tr) (rb s c) None fl ->
  match r with WOk => shut c tr = false | WBroken => shut c tr = true | WAborted => False end ->
  exists s' e, absorb next c [EWrite (pred (nw s c)) v r] (set_chan c x s) = (s', e) /\ Net (tr ++ e) s' /\ length e = 1.
Proof.
  intros P Hg Oth L Wv Hc Hr. destruct (wv_some _ _ _ Wv) as (k & Bs & Nx). pose proof (l_nw _ _ _ _ L) as Hn. rewrite Wv in Hn. cbn in Hn.
  assert (Hp : pred (nw s c) < nw s c) by lia. pose proof (l_wo _ _ _ _ L _ Hp) as Ow.
  cbn [absorb deliver]. cbn [wown loc set_chan]. rewrite Ow, Nx. eexists. eexists. split; [reflexivity|]. cbn [app].
  set (s' := set_busy _ _ _). assert (Lc : local (writer c) s s') by (intros q Nq; unfold s'; cbn; now rewrite !upd_ne).
  assert (B' : busy s' (writer c) = false) by (unfold s'; cbn; apply upd_eq).
  assert (L' : loc s' (writer c) = k r) by (unfold s'; cbn; apply upd_eq).
  assert (P' : paths (tr ++ [EndW (writer c) c v r]) s').
  { apply (paths_step tr s); auto. cbn [who]. rewrite Bs, B', L'. now apply ok_ew. }
  split; [|reflexivity]. split; [exact P'| |].
  - intro d. destruct (Nat.eq_dec d c) as [->|Ne].
    + exists fl. assert (Wv' : wv s' c = None) by (now apply wv_idle).
      assert (Rb' : rb s' c = rb s c). { destruct (Nat.eq_dec (reader c) (writer c)) as [E|E]; [|eapply rb_local; eauto]. unfold rb. rewrite E, B', Bs, Nx. reflexivity. }
      assert (Sh : shut c (tr ++ [EndW (writer c) c v r]) = shut c tr) by (rewrite shut_app; cbn; apply orb_false_r).
      split.
      * unfold Cn. rewrite Rb', Wv', Sh. change (nr s' c) with (nr s c). change (nw s' c) with (nw s c). unfold s'. cbn. rewrite !upd_eq. apply destroy_w; [lia|exact Hc].
      * destruct L as [M1 M2 M3 M4 M8 M5 M6 M7].
        assert (Pu : puts c (tr ++ [EndW (writer c) c v r]) = puts c tr) by (rewrite puts_app; cbn; destruct (shut c tr); apply app_nil_r).
        assert (Ge : gets c (tr ++ [EndW (writer c) c v r]) = gets c tr) by (rewrite gets_app; cbn; apply app_nil_r).
        assert (Be : beginr c (tr ++ [EndW (writer c) c v r]) = beginr c tr) by (rewrite beginr_app; cbn; lia).
        assert (Er : endr c (tr ++ [EndW (writer c) c v r]) = endr c tr) by (rewrite endr_app; cbn; lia).
        assert (En : endw c (tr ++ [EndW (writer c) c v r]) = endw c tr + match r with WOk => 1 | _ => 0 end) by (rewrite endw_app; unfold endw at 2; destruct r; cbn; rewrite ?Nat.eqb_refl; reflexivity).
        rewrite Wv in M5. cbn in M5.
        split; rewrite ?Pu, ?Ge, ?Be, ?En, ?Er, ?Wv', ?Rb', ?Sh; auto; cbn; try lia. destruct r; [|tauto|]; rewrite Hr in *; lia.
    + destruct (Oth d Ne) as (f & H). exists f. apply (other_chan d tr s s'); auto.
      * unfold s'. cbn. rewrite !upd_ne; auto.
      * eapply (rb_other (writer c) s s' c d); eauto; exact I.
      * eapply (wv_other (writer c) s s' c d); eauto; reflexivity.
  - apply (G_snoc tr s'); auto; try discriminate.
    + reflexivity.
    + intros p d u r0 E. injection E as <- <- <- <-. destruct r; [|tauto|exact Hr]. split; [exact Hr|]. rewrite Hr in Hc. pose proof (chan_len _ _ _ _ _ _ _ _ Hc) as Le. destruct L as [M1 M2 M3 M4 M8 M5 M6 M7]. specialize (M8 Hr). rewrite Hr, Wv in M5. cbn in M5.
      assert (length (puts c tr) = length (gets c tr) + length fl) by (rewrite M1, app_length; reflexivity). destruct (rb s c); cbn in *; lia.
Qed.

(** What a channel operation completes is delivered. *)
Lemma delivered tr s c x es fl : paths tr s -> G tr -> (forall d, d <> c -> exists f, Cn tr s d f /\ Ln tr s d f) -> Ln tr s c fl ->
  ends (void c) (nr s c) (nw s c) (shut c tr) (rb s c) (wv s c) fl (lims c) x es ->
  exists s' e, absorb next c es (set_chan c x s) = (s', e) /\ Net (tr ++ e) s' /\ length e = length es.
Proof.
  intros P Hg Oth L E. destruct E as [(-> & Hc)|[(v & t & -> & Rb & Ef & Hc)|[(v & -> & Wv & Cf & Hc)|[(-> & Rb & Ct & Ef & Hc)|(v & -> & Wv & Ct & Hc)]]]].
  - cbn. eexists. eexists. split; [reflexivity|]. rewrite app_nil_r. split; [|reflexivity]. split; [exact P| |exact Hg].
    intro d. destruct (Nat.eq_dec d c) as [->|Ne].
    + exists fl. unfold Cn. cbn. rewrite upd_eq. split; [exact Hc|]. destruct L. split; auto.
    + destruct (Oth d Ne) as (f & H1 & H2). exists f. split; [unfold Cn in *; cbn; rewrite upd_ne; auto|]. destruct H2. split; auto.
  - apply (deliver_r tr s c x (RVal v) fl t); auto.
  - apply (deliver_w tr s c x v WOk fl); auto.
  - apply (deliver_r tr s c x RBroken fl fl); auto.
  - apply (deliver_w tr s c x v WBroken fl); auto.
Qed.

Lemma begin_r tr s p c k : Net tr s -> busy s p = false -> next p (loc s p) = Rd c k ->
  exists s' e, on next c [MkRead (nr s c); AwRead (nr s c) false] (enter_r p c s) = (s', e) /\ Net (tr ++ BeginR p c :: e) s'.
Proof.
  intros [P Hc Hg] Bs Nx. pose proof (PP p (loc s p)) as Pp. rewrite Nx in Pp. subst p. set (p := reader c) in *.
  set (s1 := enter_r p c s). assert (Lc : local p s s1) by (intros q Nq; unfold s1; cbn; now rewrite !upd_ne).
  assert (B1 : busy s1 p = true) by (unfold s1; cbn; apply upd_eq). assert (L1 : loc s1 p = loc s p) by reflexivity.
  assert (P1 : paths (tr ++ [BeginR p c]) s1) by (apply (paths_step tr s); auto; cbn [who]; rewrite Bs, B1, L1; eapply ok_br; eauto).
  assert (Rb : rb s c = false) by (now apply rb_idle).
  assert (Rb1 : rb s1 c = true) by (unfold rb; fold p; rewrite B1, L1, Nx, Nat.eqb_refl; reflexivity).
  assert (Wv1 : wv s1 c = wv s c). { destruct (Nat.eq_dec (writer c) p) as [E|E]; [|eapply wv_local; eauto]. unfold wv. rewrite E, B1, Bs, L1, Nx. reflexivity. }
  destruct (Hc c) as (fl & H1 & H2). unfold Cn in H1. rewrite Rb in H1. destruct (read_begins _ _ _ _ _ _ _ _ H1) as (x & es & R & E).
  assert (Hg1 : G (tr ++ [BeginR p c])) by (apply (G_snoc tr s1); auto; try discriminate; reflexivity).
  destruct H2 as [M1 M2 M3 M4 M8 M5 M6 M7]. rewrite Rb in M4. cbn in M4.
  assert (Pu : puts c (tr ++ [BeginR p c]) = puts c tr) by (rewrite puts_app; cbn; destruct (shut c tr); apply app_nil_r).
  assert (Sh : shut c (tr ++ [BeginR p c]) = shut c tr) by (rewrite shut_app; cbn; apply orb_false_r).
  assert (Er : endr c (tr ++ [BeginR p c]) = endr c tr) by (rewrite endr_app; cbn; lia).
  assert (Ge : gets c (tr ++ [BeginR p c]) = gets c tr) by (rewrite gets_app; cbn; apply app_nil_r).
  assert (Be : beginr c (tr ++ [BeginR p c]) = beginr c tr + 1) by (rewrite beginr_app; unfold beginr at 2; cbn; rewrite Nat.eqb_refl; reflexivity).
  assert (En : endw c (tr ++ [BeginR p c]) = endw c tr) by (rewrite endw_app; cbn; lia).
  destruct (delivered (tr ++ [BeginR p c]) s1 c x es fl P1 Hg1) as (s' & e & A & Nt & _).
  - intros d Ne. destruct (Hc d) as (f & F). exists f. apply (other_chan d tr s s1); auto; try (unfold s1; cbn; rewrite !upd_ne; auto; fail).
    + eapply (rb_other p s s1 c d); eauto; reflexivity.
    + eapply (wv_other p s s1 c d); eauto; exact I.
  - split; rewrite ?Pu, ?Ge, ?Be, ?En, ?Er, ?Sh, ?Rb1, ?Wv1; auto; cbn; rewrite ?upd_eq; try lia.
    intros i Hi. destruct (Nat.eq_dec i (nr s c)) as [->|Ni]; [now rewrite upd_eq|]. rewrite upd_ne by auto. apply M6. lia.
  - rewrite Rb1, Wv1, Sh. unfold s1. cbn. rewrite upd_eq. exact E.
  - exists s', e. unfold on. change (chans s1 c) with (chans s c). rewrite R, A. split; [reflexivity|]. rewrite <- app_assoc in Nt. exact Nt.
Qed.

Lemma begin_w tr s p c v k : Net tr s -> busy s p = false -> next p (loc s p) = Wr c v k ->
  exists s' e, on next c [MkWrite (nw s c) v; AwWrite (nw s c) false] (enter_w p c s) = (s', e) /\ Net (tr ++ BeginW p c v :: e) s'.
Proof.
  intros [P Hc Hg] Bs Nx. pose proof (PP p (loc s p)) as Pp. rewrite Nx in Pp. subst p. set (p := writer c) in *.
  set (s1 := enter_w p c s). assert (Lc : local p s s1) by (intros q Nq; unfold s1; cbn; now rewrite !upd_ne).
  assert (B1 : busy s1 p = true) by (unfold s1; cbn; apply upd_eq). assert (L1 : loc s1 p = loc s p) by reflexivity.
  assert (P1 : paths (tr ++ [BeginW p c v]) s1) by (apply (paths_step tr s); auto; cbn [who]; rewrite Bs, B1, L1; eapply ok_bw; eauto).
  assert (Wv : wv s c = None) by (now apply wv_idle).
  assert (Wv1 : wv s1 c = Some v) by (unfold wv; fold p; rewrite B1, L1, Nx, Nat.eqb_refl; reflexivity).
  assert (Rb1 : rb s1 c = rb s c). { destruct (Nat.eq_dec (reader c) p) as [E|E]; [|eapply rb_local; eauto]. unfold rb. rewrite E, B1, Bs, L1, Nx. reflexivity. }
  destruct (Hc c) as (fl & H1 & H2). unfold Cn in H1. rewrite Wv in H1. destruct (write_begins _ _ _ _ _ _ _ _ v H1) as (x & es & R & E).
  assert (Hg1 : G (tr ++ [BeginW p c v])) by (apply (G_snoc tr s1); auto; try discriminate; reflexivity).
  destruct H2 as [M1 M2 M3 M4 M8 M5 M6 M7]. rewrite Wv in M5. cbn in M5.
  assert (Pu : puts c (tr ++ [BeginW p c v]) = puts c tr ++ if shut c tr then [] else [v]) by (rewrite puts_app; cbn; rewrite Nat.eqb_refl; reflexivity).
  assert (Sh : shut c (tr ++ [BeginW p c v]) = shut c tr) by (rewrite shut_app; cbn; apply orb_false_r).
  assert (Er : endr c (tr ++ [BeginW p c v]) = endr c tr) by (rewrite endr_app; cbn; lia).
  assert (Ge : gets c (tr ++ [BeginW p c v]) = gets c tr) by (rewrite gets_app; cbn; apply app_nil_r).
  assert (Be : beginr c (tr ++ [BeginW p c v]) = beginr c tr) by (rewrite beginr_app; cbn; lia).
  assert (En : endw c (tr ++ [BeginW p c v]) = endw c tr) by (rewrite endw_app; cbn; lia).
  destruct (delivered (tr ++ [BeginW p c v]) s1 c x es (if shut c tr then fl else fl ++ [v]) P1 Hg1) as (s' & e & A & Nt & _).
  - intros d Ne. destruct (Hc d) as (f & F). exists f. apply (other_chan d tr s s1); auto; try (unfold s1; cbn; rewrite !upd_ne; auto; fail).
    + eapply (rb_other p s s1 c d); eauto; exact I.
    + eapply (wv_other p s s1 c d); eauto; reflexivity.
  - split; rewrite ?Pu, ?Ge, ?Be, ?En, ?Er, ?Sh, ?Rb1, ?Wv1, ?app_length; auto; cbn; rewrite ?upd_eq; try lia.
    + rewrite M1. destruct (shut c tr); [now rewrite app_nil_r|now rewrite app_assoc].
    + destruct (shut c tr); cbn; lia.
    + intros i Hi. destruct (Nat.eq_dec i (nw s c)) as [->|Ni]; [now rewrite upd_eq|]. rewrite upd_ne by auto. apply M7. lia.
  - rewrite Rb1, Wv1, Sh. unfold s1. cbn. rewrite upd_eq. exact E.
  - exists s', e. unfold on. change (chans s1 c) with (chans s c). rewrite R, A. split; [reflexivity|]. rewrite <- app_assoc in Nt. exact Nt.
Qed.

Lemma begin_c tr s p c k : Net tr s -> busy s p = false -> next p (loc s p) = Cl c k ->
  exists s' e, on next c [Close] (set_loc p k s) = (s', e) /\ Net (tr ++ Closes p c :: e) s'.
Proof.
  intros [P Hc Hg] Bs Nx. pose proof (PP p (loc s p)) as Pp. rewrite Nx in Pp. destruct Pp as [Pp Vd]. subst p. set (p := writer c) in *.
  set (s1 := set_loc p k s). assert (Lc : local p s s1) by (intros q Nq; unfold s1; cbn; now rewrite !upd_ne).
  assert (B1 : busy s1 p = false) by exact Bs. assert (L1 : loc s1 p = k) by (unfold s1; cbn; apply upd_eq).
  assert (P1 : paths (tr ++ [Closes p c]) s1) by (apply (paths_step tr s); auto; cbn [who]; rewrite Bs, B1, L1; eapply ok_cl; eauto).
  assert (Rbs : forall d, rb s1 d = rb s d). { intro d. destruct (Nat.eq_dec (reader d) p) as [E|E]; [|eapply rb_local; eauto]. now rewrite !rb_idle by (rewrite E; auto). }
  assert (Wvs : forall d, wv s1 d = wv s d). { intro d. destruct (Nat.eq_dec (writer d) p) as [E|E]; [|eapply wv_local; eauto]. now rewrite !wv_idle by (rewrite E; auto). }
  assert (Wv : wv s c = None) by (now apply wv_idle).
  destruct (Hc c) as (fl & H1 & H2). unfold Cn in H1. rewrite Wv in H1. destruct (closes _ _ _ _ _ _ _ _ Vd H1) as (x & R & E).
  assert (Hg1 : G (tr ++ [Closes p c])) by (apply (G_snoc tr s1); auto; try discriminate; reflexivity).
  destruct H2 as [M1 M2 M3 M4 M8 M5 M6 M7]. rewrite Wv in M5. cbn in M5.
  assert (Sh : shut c (tr ++ [Closes p c]) = true) by (rewrite shut_app; cbn; rewrite Nat.eqb_refl; apply orb_true_r).
  assert (Pu : puts c (tr ++ [Closes p c]) = puts c tr) by (rewrite puts_app; cbn; rewrite Nat.eqb_refl; destruct (shut c tr); apply app_nil_r).
  assert (Ge : gets c (tr ++ [Closes p c]) = gets c tr) by (rewrite gets_app; cbn; apply app_nil_r).
  assert (Be : beginr c (tr ++ [Closes p c]) = beginr c tr) by (rewrite beginr_app; cbn; lia).
  assert (En : endw c (tr ++ [Closes p c]) = endw c tr) by (rewrite endw_app; cbn; lia).
  assert (Er : endr c (tr ++ [Closes p c]) = endr c tr) by (rewrite endr_app; cbn; lia).
  exists (set_chan c x s1), []. unfold on. change (chans s1 c) with (chans s c). rewrite R. split; [reflexivity|].
  split; [exact P1| |exact Hg1]. intro d. destruct (Nat.eq_dec d c) as [->|Ne].
  - exists fl. split.
    + unfold Cn. rewrite Sh. change (rb (set_chan c x s1) c) with (rb s1 c). change (wv (set_chan c x s1) c) with (wv s1 c). rewrite Rbs, Wvs, Wv. cbn. rewrite upd_eq. exact E.
    + split; change (rb (set_chan c x s1) c) with (rb s1 c); change (wv (set_chan c x s1) c) with (wv s1 c); rewrite ?Pu, ?Ge, ?Be, ?En, ?Er, ?Sh, ?Rbs, ?Wvs, ?Wv; auto; try discriminate; cbn; try lia.
      destruct (shut c tr); lia.
  - destruct (Hc d) as (f & F). exists f. apply (other_chan d tr s); auto.
    + cbn. now rewrite upd_ne.
    + apply Rbs.
    + apply Wvs.
Qed.

Lemma job tr s c k : Net tr s -> k < length (posted (chans s c)) -> exists s' e, on next c [Run k] s = (s', e) /\ e <> [] /\ Net (tr ++ e) s'.
Proof.
  intros [P Hc Hg] L. destruct (Hc c) as (fl & H1 & H2). destruct (job_runs _ _ _ _ _ _ _ _ _ k H1 L) as (x & es & R & Ne & E).
  destruct (delivered tr s c x es fl P Hg (fun d _ => Hc d) H2 E) as (s' & e & A & Nt & Ln). exists s', e. unfold on. rewrite R, A. split; [reflexivity|]. split; [|exact Nt].
  destruct e; [|discriminate]. destruct es; [congruence|discriminate].
Qed.

Lemma Net_step tr s l s' e : Net tr s -> nstep next s l = Some (s', e) -> e <> [] /\ Net (tr ++ e) s'.
Proof.
  intros Hn H. destruct l as [p|c k]; unfold nstep in H.
  - destruct (busy s p) eqn:Bs; [discriminate|]. destruct (next p (loc s p)) as [|c k|c v k|c k] eqn:Nx; try discriminate.
    + destruct (begin_r tr s p c k Hn Bs Nx) as (s1 & e1 & R & Nt). rewrite R in H. injection H as <- <-. split; [discriminate|exact Nt].
    + destruct (begin_w tr s p c v k Hn Bs Nx) as (s1 & e1 & R & Nt). rewrite R in H. injection H as <- <-. split; [discriminate|exact Nt].
    + destruct (begin_c tr s p c k Hn Bs Nx) as (s1 & e1 & R & Nt). rewrite R in H. injection H as <- <-. split; [discriminate|exact Nt].
  - destruct (Nat.ltb_spec k (length (posted (chans s c)))) as [L|L]; [|discriminate]. destruct (job tr s c k Hn L) as (s1 & e1 & R & Ne & Nt). rewrite R in H. injection H as <- <-. auto.
Qed.

Lemma Net_init : Net [] (ninit void lims start).
Proof.
  split.
  - intro p. constructor.
  - intro c. exists []. split; [unfold Cn; cbn; apply chan_init|]. split; cbn; auto; intros; lia.
  - split.
    + constructor.
    + intro p. eexists. constructor.
    + intros t1 p c v t2 E. destruct t1; discriminate.
    + intros t1 p c v r t2 E. destruct t1; discriminate.
Qed.

Lemma Net_run ls : forall tr s s' e, Net tr s -> nrun next s ls = Some (s', e) -> Net (tr ++ e) s' /\ length ls <= length e.
Proof.
  induction ls as [|l ls IH]; intros tr s s' e Hn H; cbn in H.
  - injection H as <- <-. rewrite app_nil_r. auto.
  - destruct (nstep next s l) as [[s1 e1]|] eqn:E; [|discriminate]. destruct (nrun next s1 ls) as [[s2 e2]|] eqn:F; [|discriminate]. injection H as <- <-.
    destruct (Net_step _ _ _ _ _ Hn E) as [Ne N1]. destruct (IH _ _ _ _ N1 F) as [N2 Le]. rewrite app_assoc. split; [exact N2|]. rewrite app_length. destruct e1; [congruence|]. cbn. lia.
Qed.

Lemma reached ls s tr : nrun next (ninit void lims start) ls = Some (s, tr) -> Net tr s /\ length ls <= length tr.
Proof. intro H. exact (Net_run ls [] _ s tr Net_init H). Qed.

Lemma busy_in p l a b : path next p a l b -> snd a = false -> snd b = true -> match next p (fst b) with Rd _ _ | Wr _ _ _ => True | _ => False end.
Proof. intros H A B. destruct H as [|l b e b' H O]; [congruence|]. inversion O; subst; try discriminate; cbn in *; match goal with E : next p _ = _ |- _ => now rewrite E end. Qed.

Lemma rests tr s : Net tr s -> at_rest next s -> stopped next start lims tr.
Proof.
  intros [P Hc Hg] [R1 R2] p x b Q. pose proof (path_det _ _ _ _ _ _ Q (P p)) as E. injection E as -> ->. pose proof (PP p (loc s p)) as Pp. pose proof (busy_in _ _ _ _ Q eq_refl) as Bi. cbn in Bi.
  destruct (next p (loc s p)) as [|c k|c v k|c k] eqn:Nx; auto.
  - destruct (R2 p) as [B|B]; [|congruence]. split; [exact B|]. destruct (Hc c) as (fl & H1 & H2). unfold Cn in H1.
    assert (Rb : rb s c = true) by (unfold rb; rewrite Pp, B, Nx, Nat.eqb_refl; reflexivity). rewrite Rb in H1.
    destruct (chan_rest_r _ _ _ _ _ _ _ _ H1 (R1 c)) as (Sh & _ & F). split; [exact Sh|]. rewrite (l_flow _ _ _ _ H2), F, app_nil_r. reflexivity.
  - destruct (R2 p) as [B|B]; [|congruence]. split; [exact B|]. destruct (Hc c) as (fl & H1 & H2). unfold Cn in H1.
    assert (Wv : wv s c = Some v) by (unfold wv; rewrite Pp, B, Nx, Nat.eqb_refl; reflexivity). rewrite Wv in H1.
    destruct (chan_rest_w _ _ _ _ _ _ _ _ _ H1 (R1 c)) as (Sh & Rb & F). split; [exact Sh|]. destruct H2 as [M1 M2 M3 M4 M8 M5 M6 M7]. rewrite Rb in M4. rewrite Wv, Sh in M5. cbn in M4, M5. specialize (M8 Sh).
    assert (length (puts c tr) = length (gets c tr) + length fl) by (rewrite M1, app_length; reflexivity). lia.
  - destruct (R2 p) as [B|B]; [auto|congruence].
Qed.

(** Why a coroutine waits at rest. *)
Lemma waits tr s p : Net tr s -> at_rest next s ->
  match next p (loc s p) with
  | Done => True
  | Rd c _ => shut c tr = false /\ puts c tr = gets c tr
  | Wr c _ _ => shut c tr = false /\ length (puts c tr) = length (gets c tr) + lims c + 1
  | Cl _ _ => False
  end.
Proof.
  intros H R. pose proof (rests tr s H R p _ _ (nt_path _ _ H p)) as St. destruct H as [P Hc Hg]. destruct R as [R1 R2]. pose proof (PP p (loc s p)) as Pp.
  destruct (next p (loc s p)) as [|c k|c v k|c k] eqn:Nx; auto.
  - destruct St as (B & Sh & _). split; [exact Sh|]. destruct (Hc c) as (fl & H1 & H2). unfold Cn in H1.
    assert (Rb : rb s c = true) by (unfold rb; rewrite Pp, B, Nx, Nat.eqb_refl; reflexivity). rewrite Rb in H1.
    destruct (chan_rest_r _ _ _ _ _ _ _ _ H1 (R1 c)) as (_ & _ & F). now rewrite (l_flow _ _ _ _ H2), F, app_nil_r.
  - destruct St as (B & Sh & _). split; [exact Sh|]. destruct (Hc c) as (fl & H1 & H2). unfold Cn in H1.
    assert (Wv : wv s c = Some v) by (unfold wv; rewrite Pp, B, Nx, Nat.eqb_refl; reflexivity). rewrite Wv in H1.
    destruct (chan_rest_w _ _ _ _ _ _ _ _ _ H1 (R1 c)) as (_ & Rb & F). rewrite (l_flow _ _ _ _ H2), app_length. lia.
Qed.
End Net.
