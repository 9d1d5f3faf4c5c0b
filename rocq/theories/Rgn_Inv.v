(** Races over generators: what single steps of a generator do to its awaiters, and that every
    generator goes through a history of Gen_Model. *)
From Coq Require Import List Bool Arith Lia.
From Verif Require Import Gen_Model Gen_Spec Gen_Inv Gen_Final Rgn_Model Rgn_Spec.
Import ListNotations.

Section Inv.
Context {Y P E : Type}.
Notation gstate := (state Y P E).
Notation gevent := (event Y P E).
Notation glabel := (label Y P E).
Notation rstate := (rstate Y P E).
Notation rlabel := (rlabel Y P E).
Notation revent := (revent Y P E).
Notation result := (outcome Y E).
Variable nv : nat -> bool.

(** *** Awaiters of a generator *)
Definition results : list gevent -> list (nat * result) :=
  flat_map (fun e => match e with EResult w r => [(w, r)] | _ => [] end).
Definition rejected : list gevent -> list nat :=
  flat_map (fun e => match e with EReject w => [w] | _ => [] end).

Definition same (f g : nat -> @wstate P) : Prop := forall x, f x = g x.

Lemma gstep_cases n (l : glabel) (s s1 : gstate) ev : step n l s = Some (s1, ev) ->
  (exists w r tp, results ev = [(w, r)] /\ rejected ev = [] /\ ws s w = WSusp tp /\ same (ws s1) (upd (ws s) w WIdle) /\ (forall x p, l <> LAwait x p)) \/
  (exists w p r, l = LAwait w p /\ results ev = [(w, r)] /\ rejected ev = [] /\ ws s w = WIdle /\ same (ws s1) (ws s) /\ lifeof s = Live) \/
  (exists w p, l = LAwait w p /\ ev = [EReject w] /\ s1 = s /\ exists v, aw s = Some v) \/
  (exists w p tp, l = LAwait w p /\ results ev = [] /\ rejected ev = [] /\ ws s w = WIdle /\ same (ws s1) (upd (ws s) w (WSusp tp))) \/
  (exists w, In (EKilled w) ev /\ results ev = [] /\ rejected ev = [] /\ same (ws s1) (upd (ws s) w WKilled) /\ (forall x p, l <> LAwait x p)) \/
  (results ev = [] /\ rejected ev = [] /\ same (ws s1) (ws s) /\ (forall x p, l <> LAwait x p)).
Proof.
  intros S. destruct s as [lf r b x d a lz pu c rc w].
  destruct l.
  all: unfold step, cancel, final, arrive, resume, continue, kill_w, await_resume, store, get_result, ready, live, frame, yielding in S; cbn -[upd] in S; split_step S.
  all: injection S as <- <-.
  all: cbn -[upd] in *.
  all: first
    [ solve [do 5 right; repeat split; congruence]
    | solve [do 4 right; left; eexists; split; [rewrite ?in_app_iff; cbn; eauto|]; repeat split; congruence]
    | solve [do 3 right; left; eexists _, _, _; repeat split; [eassumption|..]; reflexivity || congruence]
    | solve [do 2 right; left; eexists _, _; repeat split; eauto]
    | solve [do 1 right; left; eexists _, _, _; repeat split; eauto]
    | solve [left; eexists _, _, _; repeat split; [eassumption|..]; congruence]
    | idtac ].
Qed.

Lemma interrupt_cases n w (s s1 : gstate) ev : step n (LInterrupt w) s = Some (s1, ev) ->
  exists tp, ws s w = WSusp tp /\ ev = [EInterrupt w; EResult w (RExc XDetached)] /\ same (ws s1) (upd (ws s) w WIdle).
Proof.
  cbn. destruct (ws s w) as [|tp|]; try discriminate. destruct (live s); [|discriminate].
  intros S. injection S as <- <-. exists tp. repeat split.
Qed.

Lemma signal_cases n w t (s s1 : gstate) ev : step n (LSignal w t) s = Some (s1, ev) ->
  s1 = s /\ results ev = [] /\ rejected ev = [].
Proof.
  cbn. destruct (ws s w) as [|tp|]; try discriminate. destruct (frame s); intros S; injection S as <- <-; repeat split.
Qed.

(** *** Numbers of forks *)
Lemma fid_even k : Nat.even (fid k) = true.
Proof. unfold fid. rewrite Nat.even_mul. reflexivity. Qed.
Lemma fid_div2 k : Nat.div2 (fid k) = k.
Proof. apply Nat.div2_double. Qed.
Lemma fid_inj j k : fid j = fid k -> j = k.
Proof. unfold fid. lia. Qed.
Lemma even_fid w : Nat.even w = true -> w = fid (Nat.div2 w).
Proof. intros H. apply Nat.even_spec in H. destruct H as [m ->]. unfold fid. now rewrite Nat.div2_double. Qed.

Lemma woken_results ev : woken ev =
  match filter (fun p => Nat.even (fst p)) (results ev) with [] => None | (w, r) :: _ => Some (Nat.div2 w, r) end.
Proof.
  induction ev as [|e t IH]; [reflexivity|]. destruct e; cbn; auto.
  destruct (Nat.even w) eqn:Ew; [reflexivity|exact IH].
Qed.

Lemma answer_none k ev : results ev = [] -> rejected ev = [] -> answer k ev = None.
Proof. induction ev as [|e t IH]; [reflexivity|]. destruct e; cbn; auto; discriminate. Qed.
Lemma answer_one k r ev : results ev = [(fid k, r)] -> rejected ev = [] -> answer k ev = Some r.
Proof.
  induction ev as [|e t IH]; [discriminate|]. destruct e; cbn; auto; try discriminate.
  intros H _. injection H as -> -> _. now rewrite Nat.eqb_refl.
Qed.

(** *** Traces *)
Definition rr : list (nat * result) -> list result :=
  flat_map (fun p => if Nat.even (fst p) && given (snd p) then [snd p] else []).

Lemma at_gen_app g (a b : list revent) : at_gen g (a ++ b) = at_gen g a ++ at_gen g b.
Proof. apply flat_map_app. Qed.
Lemma at_gen_map g h (ev : list gevent) : at_gen g (map (G h) ev) = if h =? g then ev else [].
Proof.
  induction ev as [|e t IH]; [cbn; now destruct (h =? g)|]. change (at_gen g (map (G h) (e :: t))) with ((if h =? g then [e] else []) ++ at_gen g (map (G h) t)).
  rewrite IH. now destruct (h =? g).
Qed.
Lemma raced_app g (a b : list revent) : raced g (a ++ b) = raced g a ++ raced g b.
Proof. unfold raced. now rewrite at_gen_app, flat_map_app. Qed.
Lemma won_app g (a b : list revent) : won g (a ++ b) = won g a ++ won g b.
Proof. apply flat_map_app. Qed.
Lemma won_map g h (ev : list gevent) : won g (map (G h) ev) = [].
Proof. induction ev; auto. Qed.
Lemma raced_map g h (ev : list gevent) : raced g (map (G h) ev) = if h =? g then rr (results ev) else [].
Proof.
  unfold raced. rewrite at_gen_map. destruct (h =? g); [|reflexivity].
  induction ev as [|e t IH]; [reflexivity|]. destruct e; cbn; auto. rewrite IH. unfold rr. cbn. reflexivity.
Qed.
Lemma results_app a b : results (a ++ b) = results a ++ results b.
Proof. apply flat_map_app. Qed.

(** *** Histories of the generators *)
Lemma run_app n : forall a b (s s1 s2 : gstate) e1 e2, run n s a = Some (s1, e1) -> run n s1 b = Some (s2, e2) ->
  run n s (a ++ b) = Some (s2, e1 ++ e2).
Proof.
  induction a as [|l t IH]; intros b s s1 s2 e1 e2 A B; cbn in *.
  - injection A as <- <-. exact B.
  - destruct (step n l s) as [[x ev]|]; [|discriminate]. destruct (run n x t) as [[y ev']|] eqn:T; [|discriminate].
    injection A as <- <-. rewrite (IH b _ _ _ _ _ T B). now rewrite app_assoc.
Qed.
Lemma correct_app n : forall a b (s s1 : gstate) e1, correct n s a -> run n s a = Some (s1, e1) -> correct n s1 b -> correct n s (a ++ b).
Proof.
  induction a as [|l t IH]; intros b s s1 e1 C A B; cbn in *.
  - injection A as <- <-. exact B.
  - destruct C as [K C]. split; [exact K|]. destruct (step n l s) as [[x ev]|]; [|exact I].
    destruct (run n x t) as [[y ev']|] eqn:T; [|discriminate]. injection A as <- <-. eapply IH; eauto.
Qed.

(** Every generator went through a history of Gen_Model whose labels satisfy [Q]. *)
Definition sim (Q : nat -> glabel -> Prop) (s s1 : rstate) (ev : list revent) : Prop :=
  forall g, exists ls, correct (nv g) (gens s g) ls /\ run (nv g) (gens s g) ls = Some (gens s1 g, at_gen g ev) /\
                       forall l, In l ls -> Q g l.

Lemma sim_refl Q (s s1 : rstate) ev : (forall g, gens s1 g = gens s g) -> (forall g, at_gen g ev = []) -> sim Q s s1 ev.
Proof. intros Hg He g. exists []. rewrite Hg, He. repeat split. intros l []. Qed.
Lemma sim_trans Q s s1 s2 e1 e2 : sim Q s s1 e1 -> sim Q s1 s2 e2 -> sim Q s s2 (e1 ++ e2).
Proof.
  intros A B g. destruct (A g) as (a & Ca & Ra & Qa), (B g) as (b & Cb & Rb & Qb). exists (a ++ b).
  split; [eapply correct_app; eauto|]. split; [rewrite at_gen_app; eapply run_app; eauto|].
  intros l H. apply in_app_or in H. destruct H; auto.
Qed.
Lemma sim_mono (Q R : nat -> glabel -> Prop) s s1 ev : (forall g l, Q g l -> R g l) -> sim Q s s1 ev -> sim R s s1 ev.
Proof. intros H A g. destruct (A g) as (a & Ca & Ra & Qa). exists a. eauto. Qed.
Lemma sim_gens Q s t s1 t1 ev : (forall g, gens t g = gens s g) -> (forall g, gens t1 g = gens s1 g) -> sim Q s s1 ev -> sim Q t t1 ev.
Proof. intros H1 H2 A g. destruct (A g) as (a & X). exists a. now rewrite H1, H2. Qed.

Lemma on_gens g l (s s1 : rstate) ev : on nv g l s = Some (s1, ev) ->
  exists x, step (nv g) l (gens s g) = Some (x, ev) /\ gens s1 g = x /\ (forall h, h <> g -> gens s1 h = gens s h) /\
    pc s1 = pc s /\ mem s1 = mem s /\ idx s1 = idx s /\ out s1 = out s /\ fk s1 = fk s /\ armed s1 = armed s /\ odd s1 = odd s /\
    ub s1 = ub s || existsb fatal ev.
Proof.
  unfold on. destruct (step (nv g) l (gens s g)) as [[x e]|]; [|discriminate]. intros H. injection H as <- <-.
  exists x. repeat split; cbn.
  - unfold upd. now rewrite Nat.eqb_refl.
  - intros h N. unfold upd. apply Nat.eqb_neq in N. now rewrite N.
Qed.
Lemma on_sim (Q : nat -> glabel -> Prop) g l (s s1 : rstate) ev : ok (gens s g) l = true -> Q g l -> on nv g l s = Some (s1, ev) ->
  sim Q s s1 (map (G g) ev).
Proof.
  intros K QL H. destruct (on_gens _ _ _ _ _ H) as (x & S & Hx & Hn & _). intros h.
  destruct (Nat.eq_dec h g) as [->|N].
  - exists [l]. cbn. rewrite S. repeat split; auto.
    + rewrite at_gen_map, Nat.eqb_refl, app_nil_r. now subst x.
    + intros y [<-|[]]. exact QL.
  - exists []. cbn. rewrite at_gen_map, Hn by exact N. apply not_eq_sym, Nat.eqb_neq in N. rewrite N. repeat split. intros y [].
Qed.

(** *** The invariant *)
Record W (s : rstate) : Prop := {
  w_gen : forall g, INV (nv g) (gens s g);
  w_act : forall k, fk s k = Active -> exists mb tp, nth_error (mem s) k = Some mb /\ ws (gens s (gen mb)) (fid k) = WSusp tp;
  w_susp : forall g k tp, ws (gens s g) (fid k) = WSusp tp -> fk s k = Active /\ exists mb, nth_error (mem s) k = Some mb /\ gen mb = g;
  w_idle : pc s = Idle -> (forall k, fk s k = Unborn) /\ idx s = None;
  w_armed : forall k, armed s k = true -> fk s k = Active;
  w_idx : forall i, idx s = Some i -> i < length (mem s) /\ fk s i = Finished /\ out s <> None;
  w_fin : forall k, fk s k = Finished -> idx s <> None;
  w_rest : forall last rest ran, pc s = Starting last rest ran ->
             mem s <> [] /\ NoDup rest /\ (forall k, In k rest -> fk s k = Unborn /\ k < length (mem s)) /\
             (forall k, k < length (mem s) -> ~ In k rest -> fk s k <> Unborn);
  w_wait : pc s = Waiting -> mem s <> [] /\ (idx s = None -> forall k, k < length (mem s) -> fk s k = Active) }.

Definition good (s : rstate) : Prop := odd s = false /\ ub s = false.

Lemma init_W : W rinit.
Proof. constructor; cbn; try congruence; auto. intros g. apply init_INV. Qed.

(** Steps of a generator that change no fork. *)
Lemma W_keep g (s s1 : rstate) : W s -> INV (nv g) (gens s1 g) -> (forall h, h <> g -> gens s1 h = gens s h) ->
  (forall k tp, ws (gens s g) (fid k) = WSusp tp -> exists tp', ws (gens s1 g) (fid k) = WSusp tp') ->
  (forall k tp, ws (gens s1 g) (fid k) = WSusp tp -> exists tp', ws (gens s g) (fid k) = WSusp tp') ->
  pc s1 = pc s -> mem s1 = mem s -> idx s1 = idx s -> out s1 = out s -> fk s1 = fk s ->
  (forall k, armed s1 k = true -> armed s k = true) -> W s1.
Proof.
  intros I Ig Hn Hf Hb Ep Em Ei Eo Ef Ea. constructor; rewrite ?Ep, ?Em, ?Ei, ?Eo, ?Ef.
  - intros h. destruct (Nat.eq_dec h g) as [->|N]; [exact Ig|]. rewrite (Hn _ N). apply (w_gen _ I).
  - intros k A. destruct (w_act _ I _ A) as (mb & tp & M & S). exists mb.
    destruct (Nat.eq_dec (gen mb) g) as [Eg|N]; [|exists tp; now rewrite (Hn _ N)].
    rewrite Eg in *. destruct (Hf _ _ S) as [tp' S']. eauto.
  - intros h k tp S. destruct (Nat.eq_dec h g) as [->|N].
    + destruct (Hb _ _ S) as [tp' S']. apply (w_susp _ I _ _ _ S').
    + rewrite (Hn _ N) in S. apply (w_susp _ I _ _ _ S).
  - apply (w_idle _ I).
  - intros k A. apply (w_armed _ I), Ea, A.
  - apply (w_idx _ I).
  - apply (w_fin _ I).
  - apply (w_rest _ I).
  - apply (w_wait _ I).
Qed.

(** The fork of a member, waiting or just started, ends. *)
Lemma W_complete k r mb (s s1 : rstate) : W s -> nth_error (mem s) k = Some mb -> INV (nv (gen mb)) (gens s1 (gen mb)) ->
  (forall h, h <> gen mb -> gens s1 h = gens s h) ->
  (forall j, j <> k -> ws (gens s1 (gen mb)) (fid j) = ws (gens s (gen mb)) (fid j)) ->
  (forall tp, ws (gens s1 (gen mb)) (fid k) <> WSusp tp) ->
  (fk s k = Active /\ pc s1 = pc s \/
   fk s k = Unborn /\ exists a rest b c, pc s = Starting a (k :: rest) b /\ pc s1 = Starting c rest false) ->
  mem s1 = mem s -> idx s1 = idx s -> out s1 = out s -> (forall j, j <> k -> fk s1 j = fk s j) ->
  (forall j, armed s1 j = true -> armed s j = true) -> W (complete k r s1).
Proof.
  intros I M Ig Hn Hj Hk Hp Em Ei Eo Ef Ea.
  assert (Hlen : k < length (mem s)) by (apply nth_error_Some; congruence).
  assert (NI : pc s1 <> Idle).
  { destruct Hp as [[A ->]|(_ & a & rest & b & c & _ & ->)]; [|discriminate]. intros Hi. destruct (w_idle _ I Hi) as [U _]. congruence. }
  assert (NK : forall g tp, ws (gens s1 g) (fid k) <> WSusp tp).
  { intros g tp. destruct (Nat.eq_dec g (gen mb)) as [->|N]; [apply Hk|]. rewrite (Hn _ N). intros S.
    destruct (w_susp _ I _ _ _ S) as (_ & mb' & M' & G'). congruence. }
  constructor; cbn [complete gens pc mem idx out fk armed]; rewrite ?Em, ?Ei, ?Eo.
  - intros h. destruct (Nat.eq_dec h (gen mb)) as [->|N]; [exact Ig|]. rewrite (Hn _ N). apply (w_gen _ I).
  - intros j. destruct (Nat.eq_dec j k) as [->|N]; [rewrite upd_eq; discriminate|]. rewrite upd_ne by exact N. rewrite Ef by exact N.
    intros A. destruct (w_act _ I _ A) as (mj & tp & Mj & S). exists mj, tp. split; [exact Mj|].
    destruct (Nat.eq_dec (gen mj) (gen mb)) as [Eg|Ng]; [|now rewrite Hn]. rewrite Eg in *. now rewrite Hj.
  - intros g j tp S. destruct (Nat.eq_dec j k) as [->|N]; [now apply NK in S|]. rewrite upd_ne by exact N. rewrite Ef by exact N.
    apply (w_susp _ I g j tp). destruct (Nat.eq_dec g (gen mb)) as [->|Ng]; [now rewrite <- Hj|now rewrite <- Hn].
  - intros Hi. now apply NI in Hi.
  - intros j. destruct (Nat.eq_dec j k) as [->|N]; [rewrite upd_eq; discriminate|]. rewrite !upd_ne by exact N. rewrite Ef by exact N.
    intros A. apply (w_armed _ I), Ea, A.
  - intros i H. injection H as <-. destruct (idx s) as [i|] eqn:Ix.
    + destruct (w_idx _ I _ Ix) as (L & F & O). split; [exact L|]. split.
      * destruct (Nat.eq_dec i k) as [->|N]; [now rewrite upd_eq|]. rewrite upd_ne by exact N. now rewrite Ef.
      * destruct (i =? k); [discriminate|exact O].
    + split; [exact Hlen|]. rewrite upd_eq, Nat.eqb_refl. split; [reflexivity|discriminate].
  - discriminate.
  - intros last rest ran Hs. destruct Hp as [[A Hp]|(U & a & r0 & b & c & Hp & Hp1)].
    + rewrite Hp in Hs. destruct (w_rest _ I _ _ _ Hs) as (X1 & X2 & X3 & X4). split; [exact X1|]. split; [exact X2|]. split.
      * intros j Hj'. destruct (X3 _ Hj') as [Uj Lj]. split; [|exact Lj]. destruct (Nat.eq_dec j k) as [->|N]; [congruence|]. rewrite upd_ne by exact N. now rewrite Ef.
      * intros j Lj Nj. destruct (Nat.eq_dec j k) as [->|N]; [rewrite upd_eq; discriminate|]. rewrite upd_ne by exact N. rewrite Ef by exact N. auto.
    + rewrite Hp1 in Hs. injection Hs as <- <- <-. destruct (w_rest _ I _ _ _ Hp) as (X1 & X2 & X3 & X4). inversion X2 as [|? ? Nk Nr]; subst.
      split; [exact X1|]. split; [exact Nr|]. split.
      * intros j Hj'. destruct (X3 j (or_intror Hj')) as [Uj Lj]. split; [|exact Lj]. destruct (Nat.eq_dec j k) as [->|N]; [contradiction|]. rewrite upd_ne by exact N. now rewrite Ef.
      * intros j Lj Nj. destruct (Nat.eq_dec j k) as [->|N]; [rewrite upd_eq; discriminate|]. rewrite upd_ne by exact N. rewrite Ef by exact N.
        apply X4; [exact Lj|]. intros [->|X]; [now apply N|contradiction].
  - intros Hw. split; [|discriminate]. destruct Hp as [[A Hp]|(U & a & r0 & b & c & Hp & Hp1)]; [|congruence]. rewrite Hp in Hw. apply (w_wait _ I Hw).
Qed.
End Inv.
