(** Gather and join over channel operations: channels, results and errors along a run. *)
From Coq Require Import List Bool Arith Lia.
From Verif Require Import Channel_Model Channel_Spec Channel_Inv Channel_Complete Channel_Final Rch_Chan Sel_Model Sel_Spec Sel_Chan Gch_Model Gch_Spec.
Import ListNotations.

Section Inv.
Context {V : Type}.
Variable cf : cfg V.
Variable kd : kind.
Notation gstate := (gstate V).
Notation gevent := (gevent V).

(** *** Every channel goes through a history of Channel_Model *)
Definition sim (s s1 : gstate) (tr : list gevent) : Prop :=
  forall c, exists ls, run (gchs s c) ls = (gchs s1 c, gat_channel c tr).
Lemma gat_app c (a b : list gevent) : gat_channel c (a ++ b) = gat_channel c a ++ gat_channel c b.
Proof. apply flat_map_app. Qed.
Lemma gat_map c c' (ev : list (event V)) : gat_channel c (map (GC c') ev) = if Nat.eqb c' c then ev else [].
Proof.
  induction ev as [|e t IH]; cbn.
  - destruct (Nat.eqb c' c); reflexivity.
  - fold (gat_channel c (map (GC c') t)). rewrite IH. destruct (Nat.eqb c' c); reflexivity.
Qed.
Lemma sim_refl s s1 : gchs s1 = gchs s -> sim s s1 [].
Proof. intros E c. exists []. cbn. rewrite E. reflexivity. Qed.
Lemma sim_trans s s1 s2 a b : sim s s1 a -> sim s1 s2 b -> sim s s2 (a ++ b).
Proof.
  intros A B c. destruct (A c) as [l1 H1]. destruct (B c) as [l2 H2]. exists (l1 ++ l2).
  rewrite run_app, H1, H2, gat_app. reflexivity.
Qed.

Lemma gon_eq c l (s s1 : gstate) ev : gon c l s = (s1, ev) -> exists x, step (gchs s c) l = (x, ev) /\
  s1 = mkG (upd (gchs s) c x) (gpc s) (gout s) (gerr s) (garmed s) (gub s || is_some (bad x)).
Proof. unfold gon. destruct (step (gchs s c) l) as [x e] eqn:S. intro H. injection H as <- <-. eauto. Qed.
Lemma gon_sim c l (s s1 : gstate) ev : gon c l s = (s1, ev) -> sim s s1 (map (GC c) ev).
Proof.
  intro H. apply gon_eq in H as (x & S & ->). intro c'. rewrite gat_map. cbn [gchs]. rewrite upd_eq, (Nat.eqb_sym c c').
  destruct (Nat.eqb_spec c' c) as [->|N].
  - exists [l]. cbn [run]. rewrite S. rewrite app_nil_r. reflexivity.
  - exists []. reflexivity.
Qed.

(** *** Results and errors *)
Definition lasts {A} (o : option A) (l : list A) : option A := fold_left (fun _ x => Some x) l o.
Definition firsts {A} (o : option A) (l : list A) : option A := match o with Some e => Some e | None => hd_error l end.
Lemma lasts_app {A} (o : option A) a b : lasts o (a ++ b) = lasts (lasts o a) b.
Proof. apply fold_left_app. Qed.
Lemma firsts_app {A} (o : option A) a b : firsts o (a ++ b) = firsts (firsts o a) b.
Proof. destruct o; [reflexivity|]. destruct a; reflexivity. Qed.
Lemma op_app k (a b : list gevent) : op_results cf k (a ++ b) = op_results cf k a ++ op_results cf k b.
Proof. apply flat_map_app. Qed.
Lemma fail_app (a b : list gevent) : failures cf (a ++ b) = failures cf a ++ failures cf b.
Proof. apply flat_map_app. Qed.
Lemma ends_app (a b : list gevent) : gends (a ++ b) = gends a ++ gends b.
Proof. apply flat_map_app. Qed.
Lemma member_eq c e : member cf c e = done_by cf (GC c e).
Proof. destruct e; reflexivity. Qed.

(** What a part of a step does to the state, given the events of it. *)
Record eff (s s1 : gstate) (tr : list gevent) : Prop := {
  e_sim : sim s s1 tr;
  e_out : forall k, gout s1 k = lasts (gout s k) (op_results cf k tr);
  e_err : gerr s1 = match kd with Gather => gerr s | Join => firsts (gerr s) (failures cf tr) end;
  e_bad : (gub s1 = true -> gub s = true \/ exists c, bad (gchs s1 c) <> None);
  e_ub : (gub s = true -> gub s1 = true) }.
(** ... and where the awaiting coroutine stays where it is. *)
Definition quiet (s s1 : gstate) (tr : list gevent) : Prop := gpc s1 = gpc s /\ gends tr = [].

Lemma run_bad (x x1 : state V) ls ev : run x ls = (x1, ev) -> bad x <> None -> bad x1 = bad x.
Proof.
  revert x ev. induction ls as [|l t IH]; intros x ev H B; cbn [run] in H.
  - injection H as <- <-. reflexivity.
  - unfold step in H. destruct (bad x) eqn:Bx; [|congruence].
    destruct (run x t) as [x3 e3] eqn:R. injection H as <- <-. rewrite <- Bx. apply (IH x e3 R). congruence.
Qed.
Lemma eff_refl s s1 : gchs s1 = gchs s -> gout s1 = gout s -> gerr s1 = gerr s -> gub s1 = gub s -> eff s s1 [].
Proof.
  intros A B C D. constructor; auto.
  - apply sim_refl. exact A.
  - intro k. rewrite B. reflexivity.
  - rewrite C. destruct kd; [reflexivity|]. destruct (gerr s); reflexivity.
  - rewrite D. auto.
  - rewrite D. auto.
Qed.
Lemma eff_trans s s1 s2 a b : eff s s1 a -> eff s1 s2 b -> eff s s2 (a ++ b).
Proof.
  intros [A1 A2 A3 A4 A5] [B1 B2 B3 B4 B5]. constructor.
  - exact (sim_trans _ _ _ _ _ A1 B1).
  - intro k. rewrite B2, A2, op_app, lasts_app. reflexivity.
  - rewrite B3, A3, fail_app. destruct kd; [reflexivity|]. rewrite firsts_app. reflexivity.
  - intro U. destruct (B4 U) as [U1|U1]; [|auto]. destruct (A4 U1) as [U0|(c & U0)]; [auto|]. right. exists c.
    destruct (B1 c) as [ls R]. rewrite (run_bad _ _ _ _ R U0). exact U0.
  - auto.
Qed.
Lemma eff_set s s1 s2 tr : eff s s1 tr -> gchs s2 = gchs s1 -> gout s2 = gout s1 -> gerr s2 = gerr s1 -> gub s2 = gub s1 -> eff s s2 tr.
Proof. intros A B C D E. rewrite <- (app_nil_r tr). exact (eff_trans _ _ _ _ _ A (eff_refl _ _ B C D E)). Qed.
Lemma quiet_refl s s1 : gpc s1 = gpc s -> quiet s s1 [].
Proof. split; auto. Qed.
Lemma quiet_trans s s1 s2 a b : quiet s s1 a -> quiet s1 s2 b -> quiet s s2 (a ++ b).
Proof. intros [A1 A2] [B1 B2]. split; [congruence|]. rewrite ends_app, A2, B2. reflexivity. Qed.

(** A step on a channel in which no operation completes. *)
Lemma gon_eff c l s s1 : gon c l s = (s1, []) -> eff s s1 [] /\ quiet s s1 [].
Proof.
  intro H. pose proof (gon_sim _ _ _ _ _ H) as S. apply gon_eq in H as (x & X & ->). split; [|apply quiet_refl; reflexivity]. constructor; auto.
  - cbn. destruct kd; [reflexivity|]. destruct (gerr s); reflexivity.
  - cbn. intro U. apply orb_true_iff in U as [U|U]; [auto|]. right. exists c. rewrite upd_eq, Nat.eqb_refl. destruct (bad x); discriminate.
  - cbn. intros ->. reflexivity.
Qed.
Lemma geach_nil f : (forall s k s1 e, f s k = (s1, e) -> e = [] /\ eff s s1 [] /\ quiet s s1 []) ->
  forall ks s s1 e, geach f ks s = (s1, e) -> e = [] /\ eff s s1 [] /\ quiet s s1 [].
Proof.
  intros F. induction ks as [|k t IH]; intros s s1 e H; cbn [geach] in H.
  - injection H as <- <-. split; [reflexivity|]. split; [apply eff_refl; reflexivity|apply quiet_refl; reflexivity].
  - destruct (f s k) as [s2 e2] eqn:E2. destruct (geach f t s2) as [s3 e3] eqn:E3. injection H as <- <-.
    destruct (F _ _ _ _ E2) as (-> & A & B). destruct (IH _ _ _ E3) as (-> & C & D). split; [reflexivity|].
    split; [exact (eff_trans _ _ _ [] [] A C)|exact (quiet_trans _ _ _ [] [] B D)].
Qed.
Lemma geach_eff f : (forall s k s1 e, f s k = (s1, e) -> eff s s1 e /\ quiet s s1 e) ->
  forall ks s s1 e, geach f ks s = (s1, e) -> eff s s1 e /\ quiet s s1 e.
Proof.
  intros F. induction ks as [|k t IH]; intros s s1 e H; cbn [geach] in H.
  - injection H as <- <-. split; [apply eff_refl; reflexivity|apply quiet_refl; reflexivity].
  - destruct (f s k) as [s2 e2] eqn:E2. destruct (geach f t s2) as [s3 e3] eqn:E3. injection H as <- <-.
    destruct (F _ _ _ _ E2) as (A & B). destruct (IH _ _ _ E3) as (C & D).
    split; [exact (eff_trans _ _ _ _ _ A C)|exact (quiet_trans _ _ _ _ _ B D)].
Qed.
Lemma cancelling_nil k (x x1 : state V) ev : step x (cancelling cf k) = (x1, ev) -> ev = [].
Proof. intro H. exact (proj1 (cancel_any (isw cf k) _ _ _ _ H)). Qed.
Lemma destroying_nil k (x x1 : state V) ev : step x (destroying cf k) = (x1, ev) -> ev = [].
Proof. intro H. exact (proj1 (destroy_any (isw cf k) _ _ _ _ H)). Qed.
Lemma making_nil k (x x1 : state V) ev : step x (making cf k) = (x1, ev) -> ev = [].
Proof.
  unfold step, making. destruct (bad x); [intro H; injection H as <- <-; reflexivity|]. destruct (act cf k); cbn [step_ok].
  - destruct (w_stage _); intro H; injection H as <- <-; reflexivity.
  - destruct (r_stage _); intro H; injection H as <- <-; reflexivity.
Qed.
Lemma emit_eff s k s1 e : emit cf s k = (s1, e) -> e = [] /\ eff s s1 [] /\ quiet s s1 [].
Proof.
  unfold emit. destruct (gon _ _ _) as [s2 ev] eqn:O. intro H. injection H as <- <-.
  destruct (gon_eq _ _ _ _ _ O) as (x & X & _). apply cancelling_nil in X. subst ev. split; [reflexivity|]. exact (gon_eff _ _ _ _ O).
Qed.
Lemma cancel_step_eff s k s1 e : cancel_step cf s k = (s1, e) -> e = [] /\ eff s s1 [] /\ quiet s s1 [].
Proof.
  unfold cancel_step. destruct (garmed s k).
  - intro H. apply emit_eff in H as (E & A & [B _]). split; [exact E|]. split; [|split; [exact B|reflexivity]].
    refine (eff_trans _ (gset_armed k false s) _ [] [] _ A). apply eff_refl; reflexivity.
  - intro H. injection H as <- <-. split; [reflexivity|]. split; [apply eff_refl; reflexivity|apply quiet_refl; reflexivity].
Qed.
Lemma jcancel_eff s s1 e : jcancel_all cf s = (s1, e) -> e = [] /\ eff s s1 [] /\ quiet s s1 [].
Proof. exact (geach_nil _ cancel_step_eff _ _ _ _). Qed.
Lemma make_eff s k s1 e : make_one cf s k = (s1, e) -> e = [] /\ eff s s1 [] /\ quiet s s1 [].
Proof.
  unfold make_one. destruct (gon _ _ _) as [s2 ev] eqn:O. intro H. injection H as <- <-.
  destruct (gon_eq _ _ _ _ _ O) as (x & X & _). apply making_nil in X. subst ev. split; [reflexivity|]. exact (gon_eff _ _ _ _ O).
Qed.
Lemma destroy_eff s k s1 e : destroy_one cf s k = (s1, e) -> e = [] /\ eff s s1 [] /\ quiet s s1 [].
Proof.
  unfold destroy_one. destruct (gon _ _ _) as [s2 ev] eqn:O. intro H. injection H as <- <-.
  destruct (gon_eq _ _ _ _ _ O) as (x & X & _). apply destroying_nil in X. subst ev. split; [reflexivity|]. exact (gon_eff _ _ _ _ O).
Qed.
Lemma forward_eff s k s1 e : forward_one cf kd s k = (s1, e) -> e = [] /\ eff s s1 [] /\ quiet s s1 [].
Proof.
  assert (D : (s, []) = (s1, e) -> e = [] /\ eff s s1 [] /\ quiet s s1 []).
  { intro H. injection H as <- <-. split; [reflexivity|]. split; [apply eff_refl; reflexivity|apply quiet_refl; reflexivity]. }
  unfold forward_one. generalize (emit_eff s k s1 e) D. clear D. destruct kd; intros X D; [exact X|]. destruct (garmed s k); [exact X|exact D].
Qed.

(** The forks that continue because of the events of a step. *)
Lemma fork_eff k r s s1 e : fork_ends cf kd k r s = (s1, e) -> e = [] /\ sim s s1 [] /\ quiet s s1 [] /\
  (forall j, gout s1 j = if Nat.eqb j k then Some r else gout s j) /\
  gerr s1 = (match kd with Gather => gerr s | Join => firsts (gerr s) (if ok r then [] else [r]) end) /\
  (gub s1 = true -> gub s = true \/ exists c, bad (gchs s1 c) <> None) /\ (gub s = true -> gub s1 = true).
Proof.
  assert (D : (gset_out k r s, []) = (s1, e) -> e = [] /\ sim s s1 [] /\ quiet s s1 [] /\ (forall j, gout s1 j = if Nat.eqb j k then Some r else gout s j) /\
    gerr s1 = gerr s /\ (gub s1 = true -> gub s = true \/ exists c, bad (gchs s1 c) <> None) /\ (gub s = true -> gub s1 = true)).
  { intro H. injection H as <- <-. split; [reflexivity|]. split; [apply sim_refl; reflexivity|]. split; [apply quiet_refl; reflexivity|]. cbn. auto. }
  unfold fork_ends. destruct kd eqn:K; [exact D|]. destruct (ok r).
  - intro H. apply D in H as (A & B & C & E & F & G). split; [exact A|]. split; [exact B|]. split; [exact C|]. split; [exact E|]. split; [|exact G].
    rewrite F. destruct (gerr s); reflexivity.
  - intro H. apply jcancel_eff in H as (A & [B1 B2 B3 B4 B5] & [C _]). split; [exact A|]. split; [exact B1|]. split; [split; [exact C|reflexivity]|].
    split; [intro j; rewrite B2; reflexivity|]. split; [rewrite K in B3; rewrite B3; cbn; destruct (gerr s); reflexivity|]. split; [exact B4|exact B5].
Qed.
Lemma absorb_eff c ev : forall s s1 e, absorb cf kd c ev s = (s1, e) -> e = [] /\ sim s s1 [] /\ quiet s s1 [] /\
  (forall k, gout s1 k = lasts (gout s k) (op_results cf k (map (GC c) ev))) /\
  gerr s1 = (match kd with Gather => gerr s | Join => firsts (gerr s) (failures cf (map (GC c) ev)) end) /\
  (gub s1 = true -> gub s = true \/ exists c, bad (gchs s1 c) <> None) /\ (gub s = true -> gub s1 = true).
Proof.
  induction ev as [|a t IH]; intros s s1 e H; cbn [absorb] in H.
  - injection H as <- <-. split; [reflexivity|]. split; [apply sim_refl; reflexivity|]. split; [apply quiet_refl; reflexivity|]. cbn.
    split; [reflexivity|]. split; [destruct kd; [reflexivity|]; destruct (gerr s); reflexivity|]. auto.
  - destruct (match member cf c a with Some (k, r) => fork_ends cf kd k r s | None => (s, []) end) as [s2 e2] eqn:E2.
    destruct (absorb cf kd c t s2) as [s3 e3] eqn:E3. injection H as <- <-. destruct (IH _ _ _ E3) as (-> & B1 & B2 & B3 & B4 & B5 & B6).
    assert (X : e2 = [] /\ sim s s2 [] /\ quiet s s2 [] /\ (forall k, gout s2 k = lasts (gout s k) (op_results cf k [GC c a])) /\
      gerr s2 = (match kd with Gather => gerr s | Join => firsts (gerr s) (failures cf [GC c a]) end) /\
      (gub s2 = true -> gub s = true \/ exists c, bad (gchs s2 c) <> None) /\ (gub s = true -> gub s2 = true)).
    { rewrite member_eq in E2. unfold op_results, failures. cbn [flat_map]. destruct (done_by cf (GC c a)) as [[k r]|].
      - apply fork_eff in E2 as (A1 & A2 & A3 & A4 & A5 & A6). split; [exact A1|]. split; [exact A2|]. split; [exact A3|].
        split; [intro j; rewrite A4, app_nil_r, (Nat.eqb_sym k j); destruct (Nat.eqb j k); reflexivity|]. split; [rewrite A5, app_nil_r; reflexivity|exact A6].
      - injection E2 as <- <-. split; [reflexivity|]. split; [apply sim_refl; reflexivity|]. split; [apply quiet_refl; reflexivity|]. cbn.
        split; [reflexivity|]. split; [destruct kd; [reflexivity|]; destruct (gerr s); reflexivity|]. auto. }
    destruct X as (-> & A1 & A2 & A3 & A4 & A5 & A6). split; [reflexivity|].
    split; [exact (sim_trans _ _ _ [] [] A1 B1)|]. split; [exact (quiet_trans _ _ _ [] [] A2 B2)|].
    change (map (GC c) (a :: t)) with ([GC c a] ++ map (GC c) t). split; [intro k; rewrite B3, A3, op_app, lasts_app; reflexivity|].
    split; [rewrite B4, A4, fail_app; destruct kd; [reflexivity|rewrite firsts_app; reflexivity]|]. split; [|auto].
    intro U. destruct (B5 U) as [U1|U1]; [|auto]. destruct (A5 U1) as [U0|(c0 & U0)]; [auto|]. right. exists c0. destruct (B1 c0) as [ls R].
    rewrite (run_bad _ _ _ _ R U0). exact U0.
Qed.
Lemma on_ch_eff c l s s1 e : on_ch cf kd c l s = (s1, e) -> eff s s1 e /\ quiet s s1 e /\ exists x ev, step (gchs s c) l = (x, ev) /\ e = map (GC c) ev.
Proof.
  unfold on_ch. destruct (gon c l s) as [s2 ev] eqn:O. destruct (absorb cf kd c ev s2) as [s3 e3] eqn:A. intro H. injection H as <- <-.
  apply absorb_eff in A as (-> & A1 & [A2 _] & A3 & A4 & A5 & A6). rewrite app_nil_r. pose proof (gon_sim _ _ _ _ _ O) as S. apply gon_eq in O as (x & X & ->).
  split; [|split; [split; [exact A2|]|eauto]].
  - constructor.
    + rewrite <- (app_nil_r (map _ _)). exact (sim_trans _ _ _ _ _ S A1).
    + exact A3.
    + exact A4.
    + intro U. destruct (A5 U) as [U1|U1]; [|auto]. cbn in U1. apply orb_true_iff in U1 as [U1|U1]; [auto|]. right. exists c. destruct (A1 c) as [ls R]. cbn in R.
      rewrite upd_eq, Nat.eqb_refl in R. rewrite (run_bad _ _ _ _ R); destruct (bad x); discriminate.
    + intro U. apply A6. cbn. rewrite U. reflexivity.
  - clear. induction ev as [|a t IH]; [reflexivity|exact IH].
Qed.
Lemma interrupt_eff s k s1 e : interrupt_step cf kd s k = (s1, e) -> eff s s1 e /\ quiet s s1 e.
Proof.
  assert (D : (s, []) = (s1, e) -> eff s s1 e /\ quiet s s1 e).
  { intro H. injection H as <- <-. split; [apply eff_refl; reflexivity|apply quiet_refl; reflexivity]. }
  assert (X : on_ch cf kd (chan cf k) (interrupting cf k) s = (s1, e) -> eff s s1 e /\ quiet s s1 e) by (intro H; apply on_ch_eff in H as (A & B & _); auto).
  unfold interrupt_step. generalize X D. clear X D. destruct kd; intros X D; [exact X|]. destruct (garmed s k); [exact X|exact D].
Qed.
Lemma after_eff s s1 e : after_start cf kd s = (s1, e) -> e = [] /\ eff s s1 [] /\ quiet s s1 [].
Proof.
  assert (D : (s, []) = (s1, e) -> e = [] /\ eff s s1 [] /\ quiet s s1 []).
  { intro H. injection H as <- <-. split; [reflexivity|]. split; [apply eff_refl; reflexivity|apply quiet_refl; reflexivity]. }
  unfold after_start. generalize (jcancel_eff s s1 e) D. clear D. destruct kd; intros X D; [exact D|]. destruct (gerr s); [exact X|exact D].
Qed.
Lemma start_eff k s s1 e : start_one cf kd k s = (s1, e) -> eff s s1 e /\ gends e = [] /\ gpc s1 = GStarting (S k) (woke cf e).
Proof.
  unfold start_one. destruct (on_ch _ _ _ _ _) as [s2 e2] eqn:O. intro H. injection H as <- <-. apply on_ch_eff in O as (A & [_ B] & _).
  split; [|auto]. apply (eff_set s s2); [|reflexivity..]. refine (eff_trans _ _ _ [] _ _ A). destruct (op_ready cf k s); apply eff_refl; reflexivity.
Qed.

(** *** An operation ends at most once *)
Definition completed (w : bool) (ev : list (event V)) : list nat := if w then completed_writes ev else completed_reads ev.
Lemma op_count k (tr : list gevent) : length (op_results cf k tr) <= count_occ Nat.eq_dec (completed (isw cf k) (gat_channel (chan cf k) tr)) k.
Proof.
  induction tr as [|a t IH]; [cbn; lia|]. unfold op_results, gat_channel in *. cbn [flat_map]. rewrite app_length.
  destruct a as [c [i r|i v r]|x]; cbn [done_by].
  - destruct ((i <? n cf) && negb (isw cf i) && Nat.eqb (chan cf i) c) eqn:B.
    + apply andb_true_iff in B as [B C]. apply andb_true_iff in B as [_ B]. destruct (Nat.eqb_spec i k) as [->|N].
      * rewrite Nat.eqb_sym in C. rewrite C. apply negb_true_iff in B. rewrite B in *. cbn [completed completed_reads app count_occ length]. destruct (Nat.eq_dec k k); [|congruence]. unfold completed in IH. lia.
      * destruct (Nat.eqb c (chan cf k)); cbn; [|exact IH]. destruct (isw cf k); cbn [completed completed_reads completed_writes count_occ]; [exact IH|].
        destruct (Nat.eq_dec i k); [congruence|exact IH].
    + destruct (Nat.eqb c (chan cf k)); cbn; [|exact IH]. destruct (isw cf k); cbn [completed completed_reads completed_writes count_occ]; [exact IH|].
      destruct (Nat.eq_dec i k); unfold completed in IH; lia.
  - destruct ((i <? n cf) && isw cf i && Nat.eqb (chan cf i) c) eqn:B.
    + apply andb_true_iff in B as [B C]. apply andb_true_iff in B as [_ B]. destruct (Nat.eqb_spec i k) as [->|N].
      * rewrite Nat.eqb_sym in C. rewrite C. rewrite B in *. cbn [completed completed_writes app count_occ length]. destruct (Nat.eq_dec k k); [|congruence]. unfold completed in IH. lia.
      * destruct (Nat.eqb c (chan cf k)); cbn; [|exact IH]. destruct (isw cf k); cbn [completed completed_reads completed_writes count_occ]; [|exact IH].
        destruct (Nat.eq_dec i k); [congruence|exact IH].
    + destruct (Nat.eqb c (chan cf k)); cbn; [|exact IH]. destruct (isw cf k); cbn [completed completed_reads completed_writes count_occ]; [|exact IH].
      destruct (Nat.eq_dec i k); unfold completed in IH; lia.
  - exact IH.
Qed.
Lemma once s tr k : eff (ginit cf) s tr -> length (op_results cf k tr) <= 1.
Proof.
  intros [S _ _ _ _]. destruct (S (chan cf k)) as [ls R]. cbn in R. apply completes_at_most_once in R as (A & B & _).
  pose proof (op_count k tr) as L. assert (N : NoDup (completed (isw cf k) (gat_channel (chan cf k) tr))) by (destruct (isw cf k); assumption).
  rewrite (NoDup_count_occ Nat.eq_dec) in N. specialize (N k). lia.
Qed.
Lemma one_result s tr k r : eff (ginit cf) s tr -> gout s k = Some r -> op_results cf k tr = [r].
Proof.
  intros E O. pose proof (once s tr k E) as L. pose proof (e_out _ _ _ E k) as H. rewrite O in H. cbn [ginit gout] in H.
  destruct (op_results cf k tr) as [|a [|b t]]; cbn in *; try discriminate; [|lia]. injection H as ->. reflexivity.
Qed.
Lemma no_result s tr k : eff (ginit cf) s tr -> gout s k = None -> op_results cf k tr = [].
Proof.
  intros E O. pose proof (once s tr k E) as L. pose proof (e_out _ _ _ E k) as H. rewrite O in H. cbn [ginit gout] in H.
  destruct (op_results cf k tr) as [|a [|b t]]; cbn in *; try discriminate; [reflexivity|lia].
Qed.
Lemma kept_out s tr s1 e k r : eff (ginit cf) s tr -> eff s s1 e -> gout s k = Some r -> gout s1 k = Some r.
Proof.
  intros E F O. pose proof (one_result _ _ _ _ E O) as H. pose proof (once _ _ k (eff_trans _ _ _ _ _ E F)) as L. rewrite op_app, H in L. cbn in L.
  rewrite (e_out _ _ _ F k), O. destruct (op_results cf k e); [reflexivity|cbn in L; lia].
Qed.
Lemma results_some (out : nat -> option (result V)) ks rs : results out ks = Some rs <-> map (fun k => out k) ks = map (@Some (result V)) rs.
Proof.
  revert rs. induction ks as [|k t IH]; intros rs; cbn.
  - split; [intro H; injection H as <-; reflexivity|]. destruct rs; [reflexivity|discriminate].
  - destruct (out k) as [r|]; [|split; [discriminate|destruct rs; discriminate]]. destruct (results out t) as [rs'|].
    + split; [intro H; injection H as <-; cbn; f_equal; apply IH; reflexivity|]. destruct rs as [|a b]; [discriminate|]. cbn. intro H. injection H as <- H.
      apply IH in H. injection H as <-. reflexivity.
    + split; [discriminate|]. destruct rs as [|a b]; [discriminate|]. cbn. intro H. injection H as <- H. apply IH in H. discriminate.
Qed.
Lemma results_none (out : nat -> option (result V)) ks : results out ks = None -> exists k, In k ks /\ out k = @None (result V).
Proof.
  induction ks as [|k t IH]; cbn; [discriminate|]. destruct (out k) eqn:O; [|intros _; exists k; auto]. destruct (results out t); [discriminate|].
  intros _. destruct (IH eq_refl) as (j & J & O'). exists j. auto.
Qed.
Lemma results_nth (out : nat -> option (result V)) m rs k : results out (seq 0 m) = Some rs -> k < m -> exists r, out k = Some r /\ nth_error rs k = Some r.
Proof.
  intros R L. apply results_some in R. assert (H : nth_error (map (fun k => out k) (seq 0 m)) k = nth_error (map (@Some (result V)) rs) k) by (rewrite R; reflexivity).
  rewrite nth_error_map, nth_error_map in H. rewrite (nth_error_nth' (seq 0 m) 0) in H by (rewrite seq_length; exact L). rewrite seq_nth in H by exact L. cbn in H.
  destruct (nth_error rs k) as [r|]; [|discriminate]. injection H as H. eauto.
Qed.
Lemma results_length (out : nat -> option (result V)) ks rs : results out ks = Some rs -> length rs = length ks.
Proof. intro H. apply results_some in H. apply (f_equal (@length _)) in H. rewrite !map_length in H. auto. Qed.

(** The failures are those of the operations. *)
Lemma failures_in r (tr : list gevent) : In r (failures cf tr) <-> ok r = false /\ exists k, k < n cf /\ In r (op_results cf k tr).
Proof.
  unfold failures, op_results. rewrite in_flat_map. split.
  - intros (e & I & J). destruct (done_by cf e) as [[k r']|] eqn:D; [|destruct J]. destruct (ok r') eqn:O; [destruct J|]. destruct J as [<-|[]]. split; [exact O|].
    exists k. split.
    + destruct e as [c [i r|i v r]|]; cbn [done_by] in D; [| |discriminate].
      * destruct ((i <? n cf) && _ && _) eqn:B; [|discriminate]. injection D as <- <-. apply andb_true_iff in B as [B _]. apply andb_true_iff in B as [B _]. apply Nat.ltb_lt. exact B.
      * destruct ((i <? n cf) && _ && _) eqn:B; [|discriminate]. injection D as <- <-. apply andb_true_iff in B as [B _]. apply andb_true_iff in B as [B _]. apply Nat.ltb_lt. exact B.
    + apply in_flat_map. exists e. split; [exact I|]. rewrite D, Nat.eqb_refl. left. reflexivity.
  - intros (O & k & _ & J). apply in_flat_map in J as (e & I & J). exists e. split; [exact I|]. destruct (done_by cf e) as [[j r']|]; [|destruct J].
    destruct (Nat.eqb j k); [|destruct J]. destruct J as [->|[]]. rewrite O. left. reflexivity.
Qed.

(** *** The invariant *)
Definition all_ended (s : gstate) : option (list (result V)) := results (gout s) (seq 0 (n cf)).
Record J (s : gstate) (tr : list gevent) : Prop := {
  j_eff : eff (ginit cf) s tr;
  j_end : (gpc s <> GReturned /\ gends tr = []) \/
          (gpc s = GReturned /\ exists rs x, all_ended s = Some rs /\ outcome kd s rs = Some x /\ gends tr = [x]);
  j_wait : gpc s = GWaiting -> all_ended s = None }.

Lemma kept_all s tr s1 e rs : eff (ginit cf) s tr -> eff s s1 e -> all_ended s = Some rs -> all_ended s1 = Some rs /\ gerr s1 = gerr s.
Proof.
  intros E F A. assert (K : forall k, k < n cf -> gout s1 k = gout s k /\ op_results cf k e = []).
  { intros k L. destruct (results_nth _ _ _ _ A L) as (r & O & _). split; [rewrite O; exact (kept_out _ _ _ _ _ _ E F O)|].
    pose proof (one_result _ _ _ _ E O) as H. pose proof (once _ _ k (eff_trans _ _ _ _ _ E F)) as M. rewrite op_app, H in M. cbn in M.
    destruct (op_results cf k e); [reflexivity|cbn in M; lia]. }
  split.
  - unfold all_ended in *. apply results_some. apply results_some in A. rewrite <- A. apply map_ext_in. intros k I. apply in_seq in I. apply K. lia.
  - rewrite (e_err _ _ _ F). destruct kd; [reflexivity|]. assert (N : failures cf e = []).
    { destruct (failures cf e) as [|r t] eqn:Fe; [reflexivity|]. assert (I : In r (failures cf e)) by (rewrite Fe; left; reflexivity).
      apply failures_in in I as (_ & k & L & I). rewrite (proj2 (K k L)) in I. destruct I. }
    rewrite N. destruct (gerr s); reflexivity.
Qed.
Lemma no_failure_ok s tr rs : eff (ginit cf) s tr -> kd = Join -> all_ended s = Some rs -> gerr s = None -> forallb ok rs = true.
Proof.
  intros E K A N. apply forallb_forall. intros r I. destruct (In_nth_error _ _ I) as [k H].
  assert (L : k < n cf). { rewrite <- (seq_length (n cf) 0), <- (results_length _ _ _ A). apply nth_error_Some. congruence. }
  destruct (results_nth _ _ _ _ A L) as (r' & O & H'). rewrite H in H'. injection H' as <-. pose proof (one_result _ _ _ _ E O) as R.
  destruct (ok r) eqn:Or; [reflexivity|]. assert (F : In r (failures cf tr)).
  { apply failures_in. split; [exact Or|]. exists k. split; [exact L|]. rewrite R. left. reflexivity. }
  pose proof (e_err _ _ _ E) as X. rewrite K in X. cbn in X. rewrite N in X. destruct (failures cf tr); [destruct F|discriminate].
Qed.
Lemma settle_J s tr s1 e : eff (ginit cf) s tr -> ((gpc s <> GReturned /\ gends tr = []) \/ (gpc s = GReturned /\ exists rs x, all_ended s = Some rs /\ outcome kd s rs = Some x /\ gends tr = [x])) ->
  gsettle cf kd s = (s1, e) -> J s1 (tr ++ e) /\ eff s s1 e.
Proof.
  intros E X. unfold gsettle. destruct (gpc s) eqn:P.
  1, 2, 3, 5: intro H; injection H as <- <-; rewrite app_nil_r; split; [constructor; [exact E|rewrite P; exact X|congruence]|apply eff_refl; reflexivity].
  fold (all_ended s). destruct (all_ended s) as [rs|] eqn:A.
  2: { intro H; injection H as <- <-; rewrite app_nil_r; split; [constructor; [exact E|rewrite P; rewrite A; exact X|auto]|apply eff_refl; reflexivity]. }
  destruct X as [[_ X]|[X _]]; [|congruence]. destruct (geach (destroy_one cf) (seq 0 (n cf)) s) as [s2 e2] eqn:D.
  destruct (geach_nil _ destroy_eff _ _ _ _ D) as (-> & F & [Q _]). destruct (kept_all _ _ _ _ _ E F A) as [A2 Er].
  destruct (outcome kd s rs) as [x|] eqn:O.
  - intro H. injection H as <- <-. cbn [app].
    assert (F' : eff s (gset_pc GReturned s2) [Ends x]).
    { destruct F as [F1 F2 F3 F4 F5]. constructor; auto. }
    split; [|exact F']. constructor.
    + exact (eff_trans _ _ _ _ _ E F').
    + right. split; [reflexivity|]. exists rs, x. split; [exact A2|]. split; [|rewrite ends_app, X; reflexivity].
      rewrite <- O. unfold outcome. destruct kd; [reflexivity|]. cbn [gset_pc gerr]. rewrite Er. reflexivity.
    + discriminate.
  - exfalso. unfold outcome in O. destruct kd eqn:K; [discriminate|]. destruct (gerr s) eqn:G; [discriminate|].
    rewrite (no_failure_ok s tr rs) in O; try discriminate; try assumption; rewrite K; try assumption; reflexivity.
Qed.

Lemma J_quiet s tr s1 e : J s tr -> eff s s1 e -> quiet s s1 e -> gpc s <> GWaiting -> J s1 (tr ++ e).
Proof.
  intros [A B C] F [Q1 Q2] P. constructor.
  - exact (eff_trans _ _ _ _ _ A F).
  - rewrite Q1, ends_app, Q2, app_nil_r. destruct B as [B|(B & rs & x & D & O & E)]; [left; exact B|]. right. split; [exact B|].
    destruct (kept_all _ _ _ _ _ A F D) as [D' G]. exists rs, x. split; [exact D'|]. split; [|exact E]. rewrite <- O. unfold outcome. rewrite G. reflexivity.
  - intro W. congruence.
Qed.
(** ... followed by a check whether all have ended. *)
Lemma J_settle s tr s1 e s2 e2 : J s tr -> eff s s1 e -> quiet s s1 e -> gsettle cf kd s1 = (s2, e2) -> J s2 (tr ++ (e ++ e2)).
Proof.
  intros [A B C] F [Q1 Q2] H. rewrite app_assoc. refine (proj1 (settle_J s1 (tr ++ e) s2 e2 _ _ H)).
  - exact (eff_trans _ _ _ _ _ A F).
  - rewrite Q1, ends_app, Q2, app_nil_r. destruct B as [B|(B & rs & x & D & O & E)]; [left; exact B|]. right. split; [exact B|].
    destruct (kept_all _ _ _ _ _ A F D) as [D' G]. exists rs, x. split; [exact D'|]. split; [|exact E]. rewrite <- O. unfold outcome. rewrite G. reflexivity.
Qed.
Lemma J_move s tr s1 e : J s tr -> eff s s1 e -> gends e = [] -> gpc s <> GReturned -> gpc s1 <> GReturned -> gpc s1 <> GWaiting -> J s1 (tr ++ e).
Proof.
  intros [A B C] F Q P P1 P2. constructor.
  - exact (eff_trans _ _ _ _ _ A F).
  - left. split; [exact P1|]. rewrite ends_app, Q, app_nil_r. destruct B as [[_ B]|[B _]]; [exact B|congruence].
  - congruence.
Qed.
Lemma gstep_J s tr l s1 e : J s tr -> gstep cf kd s l = Some (s1, e) -> J s1 (tr ++ e).
Proof.
  intros I. unfold gstep. destruct (gub s); [discriminate|]. destruct l as [| | |c l| |].
  - destruct (gpc s) eqn:P; try discriminate. unfold gseq. destruct (geach _ _ s) as [s2 e2] eqn:E. intro H. injection H as <- <-.
    destruct (geach_nil _ make_eff _ _ _ _ E) as (-> & F & _). apply (J_move s); auto; try (cbn; congruence). apply (eff_set _ s2); [exact F|reflexivity..].
  - destruct (gpc s) eqn:P; try discriminate. intro H. injection H as <- <-. apply (J_move s); auto; try (cbn; congruence). apply eff_refl; reflexivity.
  - destruct (gpc s) as [| |k r| |] eqn:P; try discriminate. destruct (k <? n cf).
    + intro H. injection H as H. apply start_eff in H as (F & Q & W). apply (J_move s); auto; congruence.
    + unfold gseq. destruct (after_start cf kd s) as [s2 e2] eqn:A. destruct (after_eff _ _ _ A) as (-> & F & _). cbn [app].
      destruct (gsettle cf kd (gset_pc GWaiting s2)) as [s3 e3] eqn:T. intro H. injection H as <- <-.
      refine (proj1 (settle_J _ tr _ _ _ _ T)).
      * rewrite <- (app_nil_r tr). refine (eff_trans _ _ _ _ _ (j_eff _ _ I) _). apply (eff_set _ s2); [exact F|reflexivity..].
      * left. split; [discriminate|]. destruct (j_end _ _ I) as [[_ B]|[B _]]; [exact B|congruence].
  - destruct (gmay_run (gpc s) l && negb (own cf l)); [|discriminate]. unfold gseq. destruct (on_ch cf kd c l s) as [s2 e2] eqn:O.
    destruct (gsettle cf kd s2) as [s3 e3] eqn:T. intro H. injection H as <- <-. apply on_ch_eff in O as (F & Q & _). exact (J_settle _ _ _ _ _ _ I F Q T).
  - destruct (gpc s) eqn:P; try discriminate. intro H. injection H as H. destruct (geach_nil _ forward_eff _ _ _ _ H) as (-> & F & [Q _]).
    rewrite app_nil_r. destruct I as [A B C]. constructor.
    + rewrite <- (app_nil_r tr). exact (eff_trans _ _ _ _ _ A F).
    + left. split; [congruence|]. destruct B as [[_ B]|[B _]]; [exact B|congruence].
    + intros _. specialize (C P). unfold all_ended in *. destruct (results_none _ _ C) as (k & Ik & Ok). destruct (results (gout s1) _) as [rs|] eqn:R; [|reflexivity]. exfalso.
      apply in_seq in Ik. destruct (results_nth _ _ _ k R ltac:(lia)) as (r & X & _). rewrite (e_out _ _ _ F k) in X. cbn in X. congruence.
  - destruct (gpc s) eqn:P; try discriminate. unfold gseq. destruct (geach _ _ s) as [s2 e2] eqn:E. destruct (gsettle cf kd s2) as [s3 e3] eqn:T.
    intro H. injection H as <- <-. destruct (geach_eff _ interrupt_eff _ _ _ _ E) as (F & Q). exact (J_settle _ _ _ _ _ _ I F Q T).
Qed.
Lemma J_init : J (ginit cf) [].
Proof. constructor; [apply eff_refl; reflexivity|left; split; [discriminate|reflexivity]|discriminate]. Qed.
Lemma grun_J ls : forall s tr s1 e, J s tr -> grun cf kd s ls = Some (s1, e) -> J s1 (tr ++ e).
Proof.
  induction ls as [|l t IH]; intros s tr s1 e I H; cbn [grun] in H.
  - injection H as <- <-. rewrite app_nil_r. exact I.
  - destruct (gstep cf kd s l) as [[s2 e2]|] eqn:S; [|discriminate]. destruct (grun cf kd s2 t) as [[s3 e3]|] eqn:R; [|discriminate]. injection H as <- <-.
    rewrite app_assoc. exact (IH _ _ _ _ (gstep_J _ _ _ _ _ I S) R).
Qed.
Lemma reach ls s tr : grun cf kd (ginit cf) ls = Some (s, tr) -> J s tr.
Proof. exact (grun_J ls _ [] s tr J_init). Qed.
End Inv.
