(** The loop over a channel: which operations exist when. *)
From Coq Require Import List Bool Arith Lia.
From Verif Require Import Channel_Model Channel_Spec Channel_Inv Channel_Ledger Channel_Complete Channel_Abs Channel_Disc Channel_Close Sel_Model Sel_Chan Gch_Chan Crd_Model Crd_Spec.
Import ListNotations.

Section Inv.
Context {V : Type}.
Notation cstate := (Channel_Model.state V).
Notation clabel := (Channel_Model.label V).
Notation cevent := (Channel_Model.event V).
Notation state := (Crd_Model.state V).
Notation event := (Crd_Model.event V).
Notation label := (Crd_Model.label V).
Notation step := (@Channel_Model.step V).
Notation run := (@Channel_Model.run V).
Notation result := (@Crd_Model.result V).
Notation possible := (@Crd_Model.possible V).

Definition st (c : cstate) (i : nat) : stage := r_stage (rops c i).

Lemma answer_result k (ev : list cevent) : answer false k ev = match result k ev with Some r => Some (Got r) | None => None end.
Proof. induction ev as [|[i r|i v r] t IH]; cbn; auto. destruct (i =? k); auto. Qed.

Lemma one_event (c : cstate) l : Channel_Inv.Inv c -> snd (step c l) = [] \/ exists e, snd (step c l) = [e].
Proof.
  intro I. destruct (step_ev c l I) as [_ E]. destruct (snd (step c l)) as [|e [|e' t]]; eauto. destruct e; cbn in E; contradiction.
Qed.

(** What others do, and what the executor does. *)
Lemma stays c l k : Channel_Inv.Inv c -> bad (fst (step c l)) = None -> ~ acts false k l ->
  (result k (snd (step c l)) = None /\ st (fst (step c l)) k = st c k) \/ exists r, snd (step c l) = [ERead k r] /\ rank (st c k) <= 2 /\ st (fst (step c l)) k = Finished.
Proof.
  intros I B N. destruct (step_ev c l I) as [_ E]. destruct (one_event c l I) as [Z|[e Z]].
  - left. split; [rewrite Z; reflexivity|]. pose proof (other false k c l (fst (step c l)) (snd (step c l)) (surjective_pairing _) I B N) as [[A K]|[r A]].
    + exact (proj1 K).
    + rewrite Z in A. discriminate.
  - rewrite Z in *. pose proof (other false k c l (fst (step c l)) (snd (step c l)) (surjective_pairing _) I B N) as [[A K]|[r A]].
    + left. rewrite Z, answer_result in A. split; [destruct (result k [e]); [discriminate|reflexivity]|]. exact (proj1 K).
    + right. rewrite Z in A. destruct e as [i q|i v q]; cbn in A; [|discriminate]. destruct (Nat.eqb_spec i k) as [->|]; [|discriminate]. exists q. split; [reflexivity|]. exact E.
Qed.

Lemma made (c : cstate) k : bad c = None -> st c k = Absent ->
  step c (MkRead k) = (set_r k (Channel_Model.mkR Made false None false false) c, []).
Proof. unfold step, st. intros B S. rewrite B. cbn. now rewrite S. Qed.

Lemma awaits (c : cstate) k b : Channel_Inv.Inv c -> bad c = None -> bad (fst (step c (AwRead k b))) = None -> st c k = Made ->
  (result k (snd (step c (AwRead k b))) = None /\ st (fst (step c (AwRead k b))) k = Awaited) \/
  exists r, snd (step c (AwRead k b)) = [ERead k r] /\ st (fst (step c (AwRead k b))) k = Finished.
Proof.
  intros I B B1 S. destruct (step_ev c (AwRead k b) I) as [_ E]. unfold step, st in *. rewrite B in *. cbn [step_ok] in *. rewrite S in *.
  unfold read_await in *. destruct (read_ready c || _) eqn:Rr.
  - right. destruct (rr_done _ _ _ _ (surjective_pairing (read_resume c k)) B1) as [r A]. rewrite answer_result in A.
    destruct (snd (read_resume c k)) as [|[i q|i v q] [|e t]]; cbn in A; try discriminate; try (cbn in E; contradiction).
    destruct (Nat.eqb_spec i k) as [->|]; [|discriminate]. exists q. split; [reflexivity|]. exact (proj2 E).
  - destruct (wq c) as [|j q] eqn:Q.
    + left. cbn. unfold upd. rewrite Nat.eqb_refl. auto.
    + destruct (w_handle (wops c j)) eqn:Hh; [|cbn in B1; discriminate]. left.
      match goal with |- context [write_resume ?x j] => pose proof (wr_res_kept x j _ _ false k (surjective_pairing (write_resume x j))) as K end.
      destruct K as [K A]; [discriminate|]. rewrite answer_result in A. split; [match goal with |- result k ?e = _ => destruct (result k e); [discriminate|reflexivity] end|].
      destruct K as [K _]. cbn in K. rewrite K. unfold upd. now rewrite Nat.eqb_refl.
Qed.

Lemma destroyed (c : cstate) k : bad c = None -> st c k = Finished -> bad (fst (step c (DestroyR k))) = None /\
  st (fst (step c (DestroyR k))) k = Destroyed /\ (forall i, i <> k -> st (fst (step c (DestroyR k))) i = st c i) /\ snd (step c (DestroyR k)) = [].
Proof.
  intros B S. unfold step, st in *. rewrite B. cbn [step_ok]. rewrite S. cbn. unfold upd. rewrite Nat.eqb_refl. repeat split; auto.
  intros i N. destruct (Nat.eqb_spec i k); [contradiction|reflexivity].
Qed.

(** ** The invariant *)
Record RI (s : state) : Prop := {
  ri_chan : Channel_Inv.Inv (chan s);
  ri_bad : bad (chan s) = None;
  ri_new : forall n, turn s < n -> st (chan s) (2 * n) = Absent;
  ri_old : forall n, n < turn s -> st (chan s) (2 * n) = Destroyed;
  ri_cur : st (chan s) (mine s) = match at_ s with Waiting => Awaited | _ => Absent end }.

Lemma RI_init n : RI (rinit n).
Proof. constructor; cbn; auto using init_inv. intros k H. lia. Qed.

Lemma even2 n : Nat.odd (2 * n) = false.
Proof. rewrite Nat.odd_mul. reflexivity. Qed.
Lemma others_acts l n : others (V := V) l = true -> ~ acts false (2 * n) l.
Proof. intros O A. destruct l; cbn in O, A; try contradiction; try (destruct A as [A _]; discriminate); destruct A as [_ ->]; change (n + (n + 0)) with (2 * n) in O; rewrite even2 in O; discriminate. Qed.

(** Only a read that waits is completed by others. *)
Lemma wakes (c : cstate) l k r : Channel_Inv.Inv c -> ~ acts false k l -> In (ERead k r) (snd (step c l)) -> st c k = Awaited.
Proof.
  intros I N. unfold Channel_Model.step. destruct (bad c); [intros []|]. destruct l; cbn [step_ok] in *; cbn [snd]; try (intros []).
  - destruct (r_stage (rops c i)); intros [].
  - cbn in N. destruct (r_stage (rops c i)); try (intros []). unfold read_await. destruct (read_ready c || _).
    + intro J. apply read_resume_evs in J. subst. tauto.
    + destruct (wq c) as [|j q]; [intros []|]. destruct (w_handle _); [|intros []]. intro J. now apply write_resume_evs in J.
  - destruct (w_stage (wops c i)); intros [].
  - destruct (w_stage (wops c i)); try (intros []). unfold write_await. destruct (write_ready c || _).
    + intro J. now apply write_resume_evs in J.
    + destruct (rq c) as [|j q] eqn:Q; [intros []|]. destruct (r_handle _) eqn:Hh; [|intros []]. intro J. apply read_resume_evs in J. subst j.
      destruct (q_head_facts _ _ _ (inv_r _ I) k q Q Hh) as (S & _). exact S.
  - cbn in N. assert (Q : In (ERead k r) (snd (read_interrupt c i)) -> i = k). { unfold read_interrupt. destruct (is_some _); [intros []|]. destruct (r_handle _); [|intros []]. intro J. symmetry. exact (read_resume_evs _ _ _ _ J). }
    destruct (r_stage (rops c i)); try (intros []); intro J; apply Q in J; subst; tauto.
  - assert (Q : ~ In (ERead k r) (snd (write_interrupt c i))). { unfold write_interrupt. destruct (w_direct _); [intros []|]. destruct (w_handle _); [|intros []]. apply write_resume_evs. }
    destruct (w_stage (wops c i)); try (intros []); intro J; contradiction.
  - destruct (r_stage (rops c i)); intros [].
  - destruct (w_stage (wops c i)); intros [].
  - unfold run_job. destruct (nth_error _ _) as [[i|i]|]; [| |intros []].
    + destruct (r_stage (rops c i)) eqn:S; cbn [is_awaited]; try (intros []). intro J. apply read_resume_evs in J. subst. exact S.
    + destruct (is_awaited _); [|intros []]. intro J. now apply write_resume_evs in J.
Qed.

(** One label of the channel that is about at most the loop's operation: the other even ones. *)
Lemma rest (c : cstate) l k t : Channel_Inv.Inv c -> bad (fst (step c l)) = None -> (forall n, n <> t -> ~ acts false (2 * n) l) -> k <> t -> st c (2 * k) <> Awaited ->
  st (fst (step c l)) (2 * k) = st c (2 * k) /\ (forall r, ~ In (ERead (2 * k) r) (snd (step c l))).
Proof.
  intros I B Na N S. split.
  - destruct (stays c l (2 * k) I B (Na k N)) as [[_ Z]|(r & Z & _)]; [exact Z|]. exfalso. apply S. apply (wakes c l (2 * k) r I (Na k N)). rewrite Z. left. reflexivity.
  - intros r J. apply S. exact (wakes c l (2 * k) r I (Na k N) J).
Qed.

Lemma even_two i : Nat.even i = true -> exists k, i = 2 * k.
Proof. intro E. apply Nat.even_spec in E. destruct E as [k E]. eauto. Qed.

(** One label of the loop: the channel's part. *)
Definition outcome (s : state) (l : label) (c : cstate) (es : list cevent) : Prop :=
  Channel_Inv.Inv c /\ (forall n, turn s < n -> st c (2 * n) = Absent) /\ (forall n, n < turn s -> st c (2 * n) = Destroyed) /\
  ((exists r, es = [ERead (mine s) r] /\ st c (mine s) = Finished /\ ((exists l0, l = RChan l0 /\ others l0 = true /\ at_ s = Waiting) \/ exists b, l = RNext b /\ condition (chan s) = true)) \/
   (result (mine s) es = None /\ (forall i r, In (ERead i r) es -> Nat.even i = false) /\
    st c (mine s) = match l with RNext _ => if condition (chan s) then Awaited else Absent | _ => match at_ s with Waiting => Awaited | _ => Absent end end)).

Lemma part s l : RI s -> possible s l = true -> bad (fst (run (chan s) (ops s l))) = None ->
  outcome s l (fst (run (chan s) (ops s l))) (snd (run (chan s) (ops s l))).
Proof.
  intros [I B Nw Od Cu] Po B1. unfold outcome.
  assert (Ro : forall (c : cstate) l0, Channel_Inv.Inv c -> bad (fst (step c l0)) = None -> (forall n, n <> turn s -> ~ acts false (2 * n) l0) ->
    (forall n, turn s < n -> st c (2 * n) = Absent) -> (forall n, n < turn s -> st c (2 * n) = Destroyed) ->
    (forall n, turn s < n -> st (fst (step c l0)) (2 * n) = Absent) /\ (forall n, n < turn s -> st (fst (step c l0)) (2 * n) = Destroyed) /\
    (forall n r, n <> turn s -> ~ In (ERead (2 * n) r) (snd (step c l0)))).
  { intros c l0 Ic Bc Na X1 X2. split; [|split].
    - intros n Hn. destruct (rest c l0 n (turn s) Ic Bc Na) as [Z _]; [lia|rewrite X1 by lia; discriminate|]. rewrite Z. auto.
    - intros n Hn. destruct (rest c l0 n (turn s) Ic Bc Na) as [Z _]; [lia|rewrite X2 by lia; discriminate|]. rewrite Z. auto.
    - intros n r Hn. destruct (rest c l0 n (turn s) Ic Bc Na) as [_ Z]; [lia| |apply Z].
      destruct (Nat.lt_ge_cases n (turn s)); [rewrite X2 by lia|rewrite X1 by lia]; discriminate. }
  assert (Si : forall (c : cstate) l0, Channel_Inv.Inv c -> bad (fst (step c l0)) = None -> (forall n, n <> turn s -> ~ acts false (2 * n) l0) ->
    (forall n, turn s < n -> st c (2 * n) = Absent) -> (forall n, n < turn s -> st c (2 * n) = Destroyed) -> result (mine s) (snd (step c l0)) = None ->
    forall i r, In (ERead i r) (snd (step c l0)) -> Nat.even i = false).
  { intros c l0 Ic Bc Na X1 X2 Rn i r J. destruct (Nat.even i) eqn:E; [|reflexivity]. exfalso. apply even_two in E. destruct E as [k ->].
    destruct (Nat.eq_dec k (turn s)) as [->|N]; [|exact (proj2 (proj2 (Ro c l0 Ic Bc Na X1 X2)) k r N J)].
    destruct (one_event c l0 Ic) as [Y|[e Y]]; rewrite Y in *; [destruct J|]. destruct J as [->|[]]. unfold mine in Rn. cbn [Crd_Model.result] in Rn. rewrite Nat.eqb_refl in Rn. discriminate. }
  destruct l as [l|b| |]; cbn [ops] in *.
  - (* others *)
    assert (Po' : others l = true) by (destruct (at_ s); exact Po). cbn [Channel_Model.run] in *. destruct (step (chan s) l) as [c es] eqn:E. cbn [fst snd] in *. rewrite app_nil_r.
    assert (Ec : c = fst (step (chan s) l)) by now rewrite E. assert (Ee : es = snd (step (chan s) l)) by now rewrite E.
    assert (Bc : bad (fst (step (chan s) l)) = None) by now rewrite <- Ec.
    assert (Na : forall n, ~ acts false (2 * n) l) by (intro n; now apply others_acts).
    rewrite Ec, Ee. destruct (Ro (chan s) l I Bc (fun n _ => Na n) Nw Od) as (R1 & R2 & R3).
    split; [now apply step_inv|]. split; [exact R1|]. split; [exact R2|].
    destruct (stays (chan s) l (mine s) I Bc (Na (turn s))) as [[Z1 Z2]|(r & Z1 & Z2 & Z3)].
    + right. split; [exact Z1|]. split; [|rewrite Z2; exact Cu]. exact (Si (chan s) l I Bc (fun n _ => Na n) Nw Od Z1).
    + left. exists r. split; [exact Z1|]. split; [exact Z3|]. left. exists l. split; [reflexivity|]. split; [exact Po'|].
      assert (A : st (chan s) (mine s) = Awaited) by (apply (wakes (chan s) l (mine s) r I (Na (turn s))); rewrite Z1; left; reflexivity).
      rewrite Cu in A. destruct (at_ s); congruence.
  - unfold Crd_Model.possible in Po; destruct (at_ s) eqn:Pc; try discriminate. destruct (condition (chan s)) eqn:Cd.
    + cbn [Channel_Model.run] in *. rewrite (made (chan s) (mine s) B Cu) in *. set (c1 := set_r _ _ (chan s)) in *.
      assert (I1 : Channel_Inv.Inv c1). { pose proof (step_inv (chan s) (MkRead (mine s)) I) as X. rewrite (made (chan s) (mine s) B Cu) in X. cbn [fst] in X. apply X. exact B. }
      destruct (step c1 (AwRead (mine s) b)) as [c es] eqn:E. cbn [fst snd app] in *. rewrite app_nil_r.
      assert (Ec : c = fst (step c1 (AwRead (mine s) b))) by now rewrite E. assert (Ee : es = snd (step c1 (AwRead (mine s) b))) by now rewrite E.
      assert (Bc : bad (fst (step c1 (AwRead (mine s) b))) = None) by now rewrite <- Ec.
      assert (O1 : forall i, i <> mine s -> st c1 i = st (chan s) i) by (intros i N; unfold st, c1, set_r; cbn [rops]; unfold upd; destruct (Nat.eqb_spec i (mine s)); [contradiction|reflexivity]).
      assert (S1 : st c1 (mine s) = Made) by (unfold st, c1, set_r; cbn [rops]; unfold upd; now rewrite Nat.eqb_refl).
      assert (Nw1 : forall n, turn s < n -> st c1 (2 * n) = Absent) by (intros n H; rewrite O1; [auto|unfold mine; lia]).
      assert (Od1 : forall n, n < turn s -> st c1 (2 * n) = Destroyed) by (intros n H; rewrite O1; [auto|unfold mine; lia]).
      assert (Na : forall n, n <> turn s -> ~ acts false (2 * n) (AwRead (V := V) (mine s) b)) by (intros n N [_ A]; unfold mine in A; lia).
      rewrite Ec, Ee. destruct (Ro c1 _ I1 Bc Na Nw1 Od1) as (R1 & R2 & R3).
      split; [now apply step_inv|]. split; [exact R1|]. split; [exact R2|].
      destruct (awaits c1 (mine s) b I1 B Bc S1) as [[Z1 Z2]|(r & Z1 & Z2)].
      * right. split; [exact Z1|]. split; [|exact Z2]. exact (Si c1 _ I1 Bc Na Nw1 Od1 Z1).
      * left. exists r. split; [exact Z1|]. split; [exact Z2|]. right. eauto.
    + cbn. split; [exact I|]. split; [exact Nw|]. split; [exact Od|]. right. split; [reflexivity|]. split; [intros i r []|exact Cu].
  - unfold Crd_Model.possible in Po; destruct (at_ s) eqn:Pc; try discriminate. cbn [Channel_Model.run] in *. destruct (step (chan s) (CancelR (mine s))) as [c es] eqn:E. cbn [fst snd] in *. rewrite app_nil_r.
    assert (Ec : c = fst (step (chan s) (CancelR (mine s)))) by now rewrite E. assert (Ee : es = snd (step (chan s) (CancelR (mine s)))) by now rewrite E.
    assert (Bc : bad (fst (step (chan s) (CancelR (mine s)))) = None) by now rewrite <- Ec.
    assert (Na : forall n, n <> turn s -> ~ acts false (2 * n) (CancelR (V := V) (mine s))) by (intros n N [_ A]; unfold mine in A; lia).
    assert (Z : es = [] /\ st c (mine s) = st (chan s) (mine s)).
    { unfold Channel_Model.step in E. rewrite B in E. cbn [step_ok] in E. injection E as Ec' <-. split; [reflexivity|]. rewrite <- Ec'. unfold read_cancel, st. destruct (r_slot _); [|reflexivity].
      destruct (r_handle _); unfold post, set_posted, set_rq, set_r; cbn [rops]; unfold upd; rewrite Nat.eqb_refl; reflexivity. }
    destruct Z as [Z1 Z2]. rewrite Z1. rewrite Ec at 1. destruct (Ro (chan s) _ I Bc Na Nw Od) as (R1 & R2 & R3). rewrite Ec in Z2 |- *.
    split; [now apply step_inv|]. split; [exact R1|]. split; [exact R2|]. right. split; [reflexivity|]. split; [intros i r []|]. rewrite Z2. exact Cu.
  - cbn. split; [exact I|]. split; [exact Nw|]. split; [exact Od|]. right. split; [reflexivity|]. split; [intros i r []|exact Cu].
Qed.

(** One label of the loop. *)
Inductive act (s : state) (l : label) : state -> list event -> Prop :=
| a_done r : ((exists l0, l = RChan l0 /\ others l0 = true /\ at_ s = Waiting) \/ exists b, l = RNext b /\ at_ s = Body /\ condition (chan s) = true) ->
    snd (run (chan s) (ops s l)) = [ERead (mine s) r] ->
    act s l (mk (fst (step (fst (run (chan s) (ops s l))) (DestroyR (mine s)))) (S (turn s)) (after r)) [C (ERead (mine s) r); report r]
| a_wait b : l = RNext b -> at_ s = Body -> condition (chan s) = true ->
    (forall i r, In (ERead i r) (snd (run (chan s) (ops s l))) -> Nat.even i = false) ->
    act s l (mk (fst (run (chan s) (ops s l))) (turn s) Waiting) (map C (snd (run (chan s) (ops s l))))
| a_leave b : l = RNext b -> at_ s = Body -> condition (chan s) = false -> act s l (mk (chan s) (turn s) Left) [Leave]
| a_break : l = RBreak -> at_ s = Body -> act s l (mk (chan s) (turn s) Left) []
| a_chan l0 : l = RChan l0 -> others l0 = true ->
    (forall i r, In (ERead i r) (snd (run (chan s) (ops s l))) -> Nat.even i = false) ->
    act s l (mk (fst (run (chan s) (ops s l))) (turn s) (at_ s)) (map C (snd (run (chan s) (ops s l))))
| a_cancel : l = RCancel -> at_ s = Waiting ->
    (forall i r, In (ERead i r) (snd (run (chan s) (ops s l))) -> Nat.even i = false) ->
    act s l (mk (fst (run (chan s) (ops s l))) (turn s) (at_ s)) (map C (snd (run (chan s) (ops s l)))).

Lemma sound s l s1 e1 : RI s -> rstep s l = Some (s1, e1) -> bad (chan s1) = None -> RI s1 /\ act s l s1 e1.
Proof.
  unfold rstep. intros Ri H B1. destruct (possible s l) eqn:Po; [|discriminate].
  destruct (run (chan s) (ops s l)) as [c es] eqn:E.
  assert (Bc : bad c = None).
  { assert (X : forall k, bad (fst (step c k)) = None -> bad c = None). { intros k. unfold Channel_Model.step. destruct (bad c) eqn:Z; [cbn; congruence|reflexivity]. }
    destruct (result (mine s) es) as [r|]; [injection H as <- _; exact (X _ B1)|]. destruct l; try (destruct (condition (chan s))); injection H as <- _; exact B1. }
  pose proof (part s l Ri Po) as P. rewrite E in P. cbn [fst snd] in P. specialize (P Bc). destruct P as (Ic & Nw & Od & [(r & Ee & Fi & Wh)|(Rn & Ev & Cu)]).
  - subst es. cbn [Crd_Model.result] in H. rewrite Nat.eqb_refl in H. injection H as <- <-.
    destruct (destroyed c (mine s) Bc Fi) as (D1 & D2 & D3 & _). split.
    + constructor; cbn [chan turn at_]; auto.
      * now apply step_inv.
      * intros n Hn. rewrite D3; [apply Nw; lia|unfold mine; lia].
      * intros n Hn. destruct (Nat.eq_dec n (turn s)) as [->|N]; [exact D2|]. rewrite D3; [apply Od; lia|unfold mine; lia].
      * assert (X : st (fst (step c (DestroyR (mine s)))) (2 * S (turn s)) = Absent) by (rewrite D3; [apply Nw; lia|unfold mine; lia]). transitivity Absent; [exact X|destruct r; reflexivity].
    + assert (Wh' : (exists l0, l = RChan l0 /\ others l0 = true /\ at_ s = Waiting) \/ exists b, l = RNext b /\ at_ s = Body /\ condition (chan s) = true).
      { destruct Wh as [Wh|(b & -> & Cd)]; [auto|]. right. exists b. unfold Crd_Model.possible in Po. destruct (at_ s); try discriminate. auto. }
      pose proof (a_done s l r Wh') as A. rewrite E in A. cbn [fst snd] in A. exact (A eq_refl).
  - rewrite Rn in H. destruct l as [l|b| |]; cbn [Crd_Model.possible] in Po.
    + injection H as <- <-. split; [constructor; auto|]. pose proof (a_chan s (RChan l) l eq_refl) as A. rewrite E in A. apply A; [destruct (at_ s); exact Po|exact Ev].
    + destruct (at_ s) eqn:Pc; try discriminate. destruct (condition (chan s)) eqn:Cd; injection H as <- <-.
      * split; [constructor; auto|]. pose proof (a_wait s (RNext b) b eq_refl Pc Cd) as A. rewrite E in A. exact (A Ev).
      * cbn [ops] in E. rewrite Cd in E. injection E as <- <-. split; [constructor; auto|]. exact (a_leave s (RNext b) b eq_refl Pc Cd).
    + destruct (at_ s) eqn:Pc; try discriminate. injection H as <- <-. split; [constructor; cbn [at_ chan turn]; auto|].
      pose proof (a_cancel s RCancel eq_refl Pc) as A. rewrite E in A. rewrite Pc in A. exact (A Ev).
    + destruct (at_ s) eqn:Pc; try discriminate. injection H as <- <-. cbn in E. injection E as <- <-. split; [constructor; cbn [at_ chan turn]; auto|]. exact (a_break s RBreak eq_refl Pc).
Qed.

Lemma rstep_bad (s : state) l s1 e1 : rstep s l = Some (s1, e1) -> bad (chan s1) = None -> bad (chan s) = None.
Proof.
  unfold rstep. destruct (possible s l); [|discriminate]. destruct (run (chan s) (ops s l)) as [c es] eqn:E. intros H B1.
  assert (Bc : bad c = None).
  { assert (X : forall k, bad (fst (step c k)) = None -> bad c = None). { intros k. unfold Channel_Model.step. destruct (bad c) eqn:Z; [cbn; congruence|reflexivity]. }
    destruct (result (mine s) es) as [r|]; [injection H as <- _; exact (X _ B1)|]. destruct l; try (destruct (condition (chan s))); injection H as <- _; exact B1. }
  apply (run_good_prefix (chan s) (ops s l)). rewrite E. exact Bc.
Qed.
Lemma rrun_bad ls : forall (s s1 : state) es, rrun s ls = Some (s1, es) -> bad (chan s1) = None -> bad (chan s) = None.
Proof.
  induction ls as [|l ls IH]; cbn; intros s s1 es H B; [injection H as <- _; exact B|].
  destruct (rstep s l) as [[s2 e2]|] eqn:E; [|discriminate]. destruct (rrun s2 ls) as [[s3 e3]|] eqn:F; [|discriminate]. injection H as <- _.
  exact (rstep_bad s l s2 e2 E (IH _ _ _ F B)).
Qed.

(** Induction along a history. *)
Lemma lift (J : state -> list event -> list label -> Prop) :
  (forall s l s1 e1 es done, RI s -> J s es done -> rstep s l = Some (s1, e1) -> act s l s1 e1 -> RI s1 -> J s1 (es ++ e1) (done ++ [l])) ->
  forall ls s es done s1 e1, RI s -> J s es done -> rrun s ls = Some (s1, e1) -> bad (chan s1) = None -> RI s1 /\ J s1 (es ++ e1) (done ++ ls).
Proof.
  intros St. induction ls as [|l ls IH]; intros s es dn s1 e1 Ri Js H B; cbn in H.
  - injection H as <- <-. rewrite !app_nil_r. auto.
  - destruct (rstep s l) as [[s2 e2]|] eqn:E; [|discriminate]. destruct (rrun s2 ls) as [[s3 e3]|] eqn:F; [|discriminate]. injection H as <- <-.
    destruct (sound s l s2 e2 Ri E (rrun_bad _ _ _ _ F B)) as [R2 A2].
    destruct (IH s2 (es ++ e2) (dn ++ [l]) s3 e3 R2 (St _ _ _ _ _ _ Ri Js E A2 R2) F B) as [R3 J3]. rewrite <- !app_assoc in J3. cbn in J3. auto.
Qed.
End Inv.
