(** Gather and join over channel operations: what was put into a channel is what was got out of it, and
    both end when they are cancelled. *)
From Coq Require Import List Bool Arith Lia Permutation.
From Verif Require Import Channel_Model Channel_Spec Channel_Inv Channel_Ledger Channel_Complete Channel_Final Rch_Chan Sel_Model Sel_Spec Sel_Chan Gch_Model Gch_Spec Gch_Inv Gch_Chan Gch_Live.
Import ListNotations.

Section Final.
Context {V : Type}.
Variable cf : cfg V.
Variable kd : kind.
Notation gstate := (gstate V).
Notation gevent := (gevent V).

(** *** The events of the members, member by member *)
Lemma flat_if {B} (k : nat) (a : list B) (g : nat -> list B) l : NoDup l -> In k l ->
  Permutation (flat_map (fun j => (if Nat.eqb k j then a else []) ++ g j) l) (a ++ flat_map g l).
Proof.
  induction l as [|j t IH]; intros N I; [destruct I|]. inversion N as [|? ? Nj Nt]; subst. cbn [flat_map]. destruct (Nat.eqb_spec k j) as [->|Nk].
  - rewrite <- app_assoc. apply Permutation_app_head, Permutation_app_head.
    assert (E : flat_map (fun i => (if Nat.eqb j i then a else []) ++ g i) t = flat_map g t).
    { clear - Nj. induction t as [|i t IH]; [reflexivity|]. cbn. destruct (Nat.eqb_spec j i) as [->|]; [destruct Nj; left; reflexivity|]. cbn. rewrite IH; [reflexivity|]. intro; apply Nj; right; assumption. }
    rewrite E. reflexivity.
  - destruct I as [I|I]; [congruence|]. cbn [app]. rewrite (IH Nt I). rewrite !app_assoc. apply Permutation_app_tail, Permutation_app_comm.
Qed.
Definition mem (f : nat -> result V -> list V) (tr : list gevent) : list V :=
  flat_map (fun e => match done_by cf e with Some (k, r) => f k r | None => [] end) tr.
Lemma done_lt e k r : done_by cf e = Some (k, r) -> k < n cf.
Proof.
  destruct e as [c [i x|i v x]|x]; cbn [done_by]; [| |discriminate]; (destruct (Nat.ltb_spec i (n cf)); [|discriminate]); cbn [andb]; destruct (_ && _); intro E; try discriminate; injection E as <- _; assumption.
Qed.
Lemma mem_perm f tr : Permutation (mem f tr) (flat_map (fun k => flat_map (f k) (op_results cf k tr)) (seq 0 (n cf))).
Proof.
  induction tr as [|e t IH].
  - cbn. induction (seq 0 (n cf)); [constructor|exact IHl].
  - unfold mem in *. cbn [flat_map]. destruct (done_by cf e) as [[k r]|] eqn:D.
    + rewrite IH. symmetry. rewrite <- (flat_if k (f k r) _ (seq 0 (n cf)) (seq_NoDup _ _)) by (apply in_seq; pose proof (done_lt _ _ _ D); lia).
      assert (E : forall l, flat_map (fun j => flat_map (f j) (op_results cf j (e :: t))) l = flat_map (fun j => (if Nat.eqb k j then f k r else []) ++ flat_map (f j) (op_results cf j t)) l).
      { intro l. apply flat_map_ext. intro j. unfold op_results. cbn [flat_map]. rewrite D. destruct (Nat.eqb_spec k j) as [->|]; [|reflexivity]. cbn [app flat_map]. reflexivity. }
      rewrite E. reflexivity.
    + cbn [app]. rewrite IH. assert (E : forall l, flat_map (fun j => flat_map (f j) (op_results cf j (e :: t))) l = flat_map (fun j => flat_map (f j) (op_results cf j t)) l).
      { intro l. apply flat_map_ext. intro j. unfold op_results. cbn [flat_map]. rewrite D. reflexivity. }
      rewrite E. reflexivity.
Qed.
Lemma got_split c tr : Permutation (delivered (gat_channel c tr)) (mem (took cf c) tr ++ gtaken_by_others cf c tr).
Proof.
  induction tr as [|e t IH]; [constructor|]. change (e :: t) with ([e] ++ t). unfold gtaken_by_others, mem in *. rewrite gat_app, !flat_map_app, delivered_app, IH. clear IH.
  set (R := flat_map _ t). set (T := flat_map _ (gat_channel c t)). rewrite <- app_assoc.
  assert (X : Permutation (delivered (gat_channel c [e]))
            (flat_map (fun e0 => match done_by cf e0 with Some (k, r) => took cf c k r | None => [] end) [e] ++
             flat_map (fun e0 => match e0 with ERead _ (RVal v) => if is_some (done_by cf (GC c e0)) then [] else [v] | _ => [] end) (gat_channel c [e]))).
  { destruct e as [c' [i x|i v x]|x]; [| |constructor]; cbn [flat_map gat_channel app done_by]; rewrite ?app_nil_r.
    - destruct (Nat.ltb_spec i (n cf)) as [Li|Li]; cbn [andb].
      + unfold took. destruct (isw cf i) eqn:W; cbn [negb andb].
        * destruct (Nat.eqb c' c); cbn -[Nat.ltb]; [|constructor]. destruct x; cbn -[Nat.ltb]; try constructor. apply Nat.ltb_lt in Li. rewrite Li, W. cbn. reflexivity.
        * destruct (Nat.eqb_spec (chan cf i) c') as [Ec|Nc].
          -- destruct (Nat.eqb_spec c' c) as [Ec'|Nc'].
             ++ subst c c'. cbn [flat_map app]. rewrite Nat.eqb_refl, W. cbn [negb andb]. unfold reported. unfold isw in W. destruct (act cf i); [discriminate|].
                destruct x; cbn -[Nat.ltb]; try constructor. apply Nat.ltb_lt in Li. rewrite Li. cbn. constructor.
             ++ cbn. rewrite W. destruct (Nat.eqb_spec (chan cf i) c); [congruence|]. cbn. constructor.
          -- destruct (Nat.eqb_spec c' c) as [->|Nc']; cbn; [|constructor]. destruct x; cbn -[Nat.ltb]; try constructor. destruct (Nat.eqb_spec (chan cf i) c); [congruence|]. rewrite andb_false_r. reflexivity.
      + destruct (Nat.eqb c' c); cbn -[Nat.ltb]; [|constructor]. destruct x; cbn -[Nat.ltb]; try constructor. destruct (Nat.ltb_spec i (n cf)); [lia|]. cbn. reflexivity.
    - destruct (Nat.eqb c' c); cbn [flat_map app]; destruct ((i <? n cf) && isw cf i && Nat.eqb (chan cf i) c') eqn:Q; try constructor; unfold took; apply andb_prop in Q as [Q _]; apply andb_prop in Q as [_ ->]; constructor. }
  rewrite X. clear X. rewrite <- !app_assoc. apply Permutation_app_head. rewrite !app_assoc. apply Permutation_app_tail, Permutation_app_comm.
Qed.
Lemma put_split c tr : (forall i v r, In (EWrite i v r) (gat_channel c tr) -> i < n cf -> act cf i = Some v) ->
  Permutation (written (gat_channel c tr)) (mem (put cf c) tr ++ gwritten_by_others cf c tr).
Proof.
  induction tr as [|e t IH]; [constructor|]. change (e :: t) with ([e] ++ t). unfold gwritten_by_others, mem in *. intro Hv. rewrite gat_app, !flat_map_app, written_app.
  rewrite gat_app in Hv. rewrite IH by (intros i v r I; apply (Hv i v r), in_or_app; right; exact I). clear IH.
  assert (Hv' : forall i v r, In (EWrite i v r) (gat_channel c [e]) -> i < n cf -> act cf i = Some v) by (intros i v r I; apply (Hv i v r), in_or_app; left; exact I). clear Hv.
  set (R := flat_map _ t). set (T := flat_map _ (gat_channel c t)). rewrite <- app_assoc.
  assert (X : Permutation (written (gat_channel c [e]))
            (flat_map (fun e0 => match done_by cf e0 with Some (k, r) => put cf c k r | None => [] end) [e] ++
             flat_map (fun e0 => match e0 with EWrite _ v WOk => if is_some (done_by cf (GC c e0)) then [] else [v] | _ => [] end) (gat_channel c [e]))).
  { destruct e as [c' [i x|i v x]|x]; [| |constructor]; cbn [flat_map gat_channel app done_by] in *; rewrite ?app_nil_r in *.
    - destruct (Nat.eqb c' c); cbn [flat_map app]; destruct ((i <? n cf) && negb (isw cf i) && Nat.eqb (chan cf i) c') eqn:Q; try constructor; unfold put; apply andb_prop in Q as [Q _]; apply andb_prop in Q as [_ Q]; destruct (isw cf i); try discriminate; constructor.
    - destruct (Nat.ltb_spec i (n cf)) as [Li|Li]; cbn [andb].
      + unfold put. destruct (isw cf i) eqn:W; cbn [andb].
        * destruct (Nat.eqb_spec (chan cf i) c') as [Ec|Nc].
          -- destruct (Nat.eqb_spec c' c) as [Ec'|Nc'].
             ++ subst c c'. cbn [flat_map app]. rewrite Nat.eqb_refl, W. cbn [andb]. unfold reported. rewrite (Hv' i v x (or_introl eq_refl) Li).
                destruct x; cbn -[Nat.ltb]; try constructor. apply Nat.ltb_lt in Li. rewrite Li. cbn. constructor.
             ++ cbn. rewrite W. destruct (Nat.eqb_spec (chan cf i) c); [congruence|]. cbn. constructor.
          -- destruct (Nat.eqb_spec c' c) as [->|Nc']; cbn; [|constructor]. destruct x; cbn -[Nat.ltb]; try constructor. destruct (Nat.eqb_spec (chan cf i) c); [congruence|]. rewrite andb_false_r. reflexivity.
        * destruct (Nat.eqb c' c); cbn -[Nat.ltb]; [|constructor]. destruct x; cbn -[Nat.ltb]; try constructor. apply Nat.ltb_lt in Li. rewrite Li, W. cbn. reflexivity.
      + destruct (Nat.eqb c' c); cbn -[Nat.ltb]; [|constructor]. destruct x; cbn -[Nat.ltb]; try constructor. destruct (Nat.ltb_spec i (n cf)); [lia|]. cbn. reflexivity. }
  rewrite X. clear X. rewrite <- !app_assoc. apply Permutation_app_head. rewrite !app_assoc. apply Permutation_app_tail, Permutation_app_comm.
Qed.

Lemma gentle_all ls : forall l : glabel V, In l ls -> gentle false l.
Proof. intros l _ H. discriminate. Qed.
Lemma gentle_und ls : undisturbed ls -> forall l : glabel V, In l ls -> gentle true l.
Proof. intros H l I _. exact (H l I). Qed.
Lemma written_value ls (s : gstate) tr c : grun cf kd (ginit cf) ls = Some (s, tr) -> gub s = false ->
  forall i v r, In (EWrite i v r) (gat_channel c tr) -> i < n cf -> act cf i = Some v.
Proof.
  intros R U i v r I Li. pose proof (grun_L cf kd false ls _ _ _ (gentle_all ls) (L_init cf kd false) R U) as Il.
  destruct (l_bd _ _ _ _ Il c) as (_ & _ & _ & Vc). pose proof (e_sim _ _ _ _ _ (j_eff _ _ _ _ (reach cf kd ls s tr R)) c) as [lc Rc]. cbn in Rc.
  pose proof (Rhist _ _ _ _ _ Rc) as Hh. apply (Vc i v Li).
  - pose proof (proj2 (Rev _ _ _ _ _ Rc i v r I)) as K. unfold wst in K. intro Q. rewrite Q in K. cbn in K. lia.
  - exact (h_val _ _ _ Hh i v r I).
Qed.
Lemma balance ls (s : gstate) tr c : grun cf kd (ginit cf) ls = Some (s, tr) -> gub s = false -> isvoid cf c = false ->
  Permutation (flat_map (fun k => flat_map (took cf c k) (op_results cf k tr)) (seq 0 (n cf)) ++ gtaken_by_others cf c tr ++ buf (gchs s c) ++ held (gchs s c))
              (flat_map (fun k => flat_map (put cf c k) (op_results cf k tr)) (seq 0 (n cf)) ++ gwritten_by_others cf c tr ++ handed (gchs s c)).
Proof.
  intros R U Nv. pose proof (grun_L cf kd false ls _ _ _ (gentle_all ls) (L_init cf kd false) R U) as Il. destruct (l_bd _ _ _ _ Il c) as (_ & B & _).
  pose proof (e_sim _ _ _ _ _ (j_eff _ _ _ _ (reach cf kd ls s tr R)) c) as [lc Rc]. cbn in Rc. rewrite Nv in Rc. pose proof (proj1 (conservation _ _ _ _ Rc B)) as P.
  rewrite (got_split c tr), (put_split c tr (written_value ls s tr c R U)) in P. rewrite <- !mem_perm. rewrite <- !app_assoc in P. exact P.
Qed.
Lemma results_flat (f : nat -> result V -> list V) tr : forall m a (rs : list (result V)), length rs = m ->
  (forall k r, nth_error rs k = Some r -> op_results cf (a + k) tr = [r]) ->
  flat_map (fun k => flat_map (f k) (op_results cf k tr)) (seq a m) = flat_map (fun p => f (fst p) (snd p)) (combine (seq a m) rs).
Proof.
  induction m as [|m IH]; intros a rs E H; [reflexivity|]. destruct rs as [|r rs]; [discriminate|]. cbn [seq flat_map combine fst snd]. pose proof (H 0 r eq_refl) as H0. rewrite Nat.add_0_r in H0. rewrite H0. cbn [flat_map]. rewrite app_nil_r. f_equal.
  apply IH; [injection E; auto|]. intros k r' K. specialize (H (S k) r' K). rewrite <- plus_n_Sm in H. exact H.
Qed.

(** *** How the await ends *)
Lemma ended ls (s : gstate) tr x : grun cf kd (ginit cf) ls = Some (s, tr) -> In x (gends tr) ->
  gends tr = [x] /\ exists rs, length rs = n cf /\ outcome kd s rs = Some x /\ (forall k r, nth_error rs k = Some r -> op_results cf k tr = [r]) /\ (forall k, k < n cf -> length (op_results cf k tr) = 1).
Proof.
  intros R I. pose proof (reach cf kd ls s tr R) as Ij. destruct (j_end _ _ _ _ Ij) as [[_ E]|(_ & rs & y & A & O & E)]; rewrite E in I; [destruct I|]. destruct I as [<-|[]]. split; [exact E|]. exists rs.
  split; [unfold all_ended in A; apply results_length in A; rewrite seq_length in A; exact A|]. split; [exact O|]. split.
  - intros k r K. assert (Lk : k < n cf). { unfold all_ended in A. apply results_length in A. rewrite seq_length in A. rewrite <- A. apply nth_error_Some. congruence. }
    destruct (results_nth _ _ _ _ A Lk) as (r' & G & K'). rewrite K in K'. injection K' as <-. exact (one_result _ _ _ _ _ _ (j_eff _ _ _ _ Ij) G).
  - intros k Lk. destruct (results_nth _ _ _ _ A Lk) as (r' & G & K'). rewrite (one_result _ _ _ _ _ _ (j_eff _ _ _ _ Ij) G). reflexivity.
Qed.
Lemma ends_once ls (s : gstate) tr : grun cf kd (ginit cf) ls = Some (s, tr) -> length (gends tr) <= 1.
Proof.
  intro R. destruct (j_end _ _ _ _ (reach cf kd ls s tr R)) as [[_ E]|(_ & rs & y & A & O & E)]; rewrite E; cbn; lia.
Qed.
Lemma grun_app ls1 : forall (s s2 : gstate) ls2 tr, grun cf kd s (ls1 ++ ls2) = Some (s2, tr) -> exists s1 t1 t2, grun cf kd s ls1 = Some (s1, t1) /\ grun cf kd s1 ls2 = Some (s2, t2) /\ tr = t1 ++ t2.
Proof.
  induction ls1 as [|l t IH]; intros s s2 ls2 tr H.
  - exists s, [], tr. auto.
  - cbn [app grun] in *. destruct (gstep cf kd s l) as [[s3 e3]|]; [|discriminate]. destruct (grun cf kd s3 (t ++ ls2)) as [[s4 e4]|] eqn:R; [|discriminate]. injection H as <- <-.
    destruct (IH _ _ _ _ R) as (s1 & t1 & t2 & R1 & R2 & ->). exists s1, (e3 ++ t1), t2. rewrite R1. rewrite app_assoc. auto.
Qed.
Lemma cancel_ends ls (s : gstate) tr : undisturbed ls -> grun cf kd (ginit cf) (ls ++ [GCancel]) = Some (s, tr) -> gub s = false ->
  exists ls' s' tr', Forall gresumption ls' /\ grun cf kd s ls' = Some (s', tr') /\ gub s' = false /\ exists x, gends (tr ++ tr') = [x].
Proof.
  intros Un R U. pose proof (reach cf kd _ s tr R) as Ij. destruct (grun_app _ _ _ _ _ R) as (s1 & t1 & t2 & R1 & R2 & ->). cbn [grun] in R2.
  destruct (gstep cf kd s1 GCancel) as [[s2 e2]|] eqn:S; [|discriminate]. injection R2 as <- <-.
  pose proof (grun_L cf kd true _ _ _ _ (gentle_und _ Un) (L_init cf kd true) R1 (gstep_back _ _ _ _ _ _ S)) as Il.
  assert (Il2 : L cf kd true s2) by (refine (gstep_L cf kd true _ _ _ _ Il _ S U); intros _; exact Logic.I).
  unfold gstep in S. destruct (gub s1); [discriminate|]. destruct (gpc s1) eqn:Pc; try discriminate. injection S as S.
  destruct (forwards_kp cf kd true _ _ _ _ S (l_bd _ _ _ _ Il)) as (_ & _ & O & _ & Pc2 & _ & K).
  apply (finish cf kd (length (open_ cf s2)) s2 _ (le_n _) Ij Il2 U); [congruence|].
  intros k Lk Ok. rewrite O in Ok. pose proof (l_ph _ _ _ _ Il) as P. unfold Ph in P. rewrite Pc in P. destruct (proj1 (P k Lk) Ok) as (_ & Ha & Hd). apply (K k); [apply in_seq; lia|exact Ha|exact Hd].
Qed.
Lemma failure_ends ls (s : gstate) tr : kd = Join -> undisturbed ls -> grun cf kd (ginit cf) ls = Some (s, tr) -> gub s = false -> gpc s = GWaiting -> failures cf tr <> [] ->
  exists ls' s' tr', Forall gresumption ls' /\ grun cf kd s ls' = Some (s', tr') /\ gub s' = false /\ exists x, gends (tr ++ tr') = [x].
Proof.
  intros Jn Un R U Pc Fl. pose proof (reach cf kd _ s tr R) as Ij. pose proof (grun_L cf kd true _ _ _ _ (gentle_und _ Un) (L_init cf kd true) R U) as Il.
  apply (finish cf kd (length (open_ cf s)) s _ (le_n _) Ij Il U Pc). intros k Lk Ok. pose proof (l_ph _ _ _ _ Il) as P. unfold Ph in P. rewrite Pc in P. apply (proj2 (P k Lk)); auto.
  pose proof (e_err _ _ _ _ _ (j_eff _ _ _ _ Ij)) as E. rewrite Jn in E. rewrite E. cbn. destruct (failures cf tr); [congruence|discriminate].
Qed.
End Final.
