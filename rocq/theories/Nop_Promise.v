(** A promise made from noop and one whose coroutine has returned: step by step the same. *)
From Coq Require Import List Bool Arith Lia.
From Verif Require Import Promise_Model.
Import ListNotations.

Section Nop.
Context {V E : Type}.
Notation event := (event V E).
Notation state := (state V E).
Notation handle := (handle V E).
Notation label := (label V E).

Definition good (e : event) : bool := match e with EBad _ => false | _ => true end.
Definition goods (es : list event) : bool := forallb good es.
Lemma goods_app a b : goods (a ++ b) = goods a && goods b.
Proof. apply forallb_app. Qed.

(** [c] has ended; [x] has never had a coroutine. *)
Definition Rh (c : nat) (x y : handle) : Prop :=
  y = x \/ (done x = true /\ ref x = None /\ exists a, y = mkH (life_of x) true (exc x) (res x) (taken x) (aw x) (Some c) a (from x)).
Record R (c : nat) (s t : state) : Prop := mkRel {
  r_h : forall h, Rh c (hs s h) (hs t h);
  r_c : forall d, co t d = co s d;
  r_w : forall w, ws t w = ws s w;
  r_d : co s c = mkC Dead None }.

Lemma Rh_life c x y : Rh c x y -> life_of y = life_of x.
Proof. intros [->|(_ & _ & a & ->)]; reflexivity. Qed.
Lemma Rh_done c x y : Rh c x y -> done y = done x.
Proof. intros [->|(D & _ & a & ->)]; [reflexivity|]. cbn. now rewrite D. Qed.
Lemma Rh_exc c x y : Rh c x y -> exc y = exc x.
Proof. intros [->|(_ & _ & a & ->)]; reflexivity. Qed.
Lemma Rh_res c x y : Rh c x y -> res y = res x.
Proof. intros [->|(_ & _ & a & ->)]; reflexivity. Qed.
Lemma Rh_taken c x y : Rh c x y -> taken y = taken x.
Proof. intros [->|(_ & _ & a & ->)]; reflexivity. Qed.
Lemma Rh_aw c x y : Rh c x y -> aw y = aw x.
Proof. intros [->|(_ & _ & a & ->)]; reflexivity. Qed.
Lemma Rh_from c x y : Rh c x y -> from y = from x.
Proof. intros [->|(_ & _ & a & ->)]; reflexivity. Qed.
Lemma Rh_open c x y : Rh c x y -> done x = false -> y = x.
Proof. intros [->|(D & _)]; [reflexivity|]. congruence. Qed.

Lemma R_h c s t h x y : R c s t -> Rh c x y -> R c (set_h h x s) (set_h h y t).
Proof.
  intros [H C W D] X. constructor; cbn [hs co ws set_h]; auto. intros k. unfold upd. destruct (k =? h); auto.
Qed.
Lemma R_w c s t w x : R c s t -> R c (set_w w x s) (set_w w x t).
Proof. intros [H C W D]. constructor; cbn [hs co ws set_w]; auto. intros k. unfold upd. destruct (k =? w); auto. Qed.
Lemma R_c c s t d x : R c s t -> (d = c -> x = mkC Dead None) -> R c (set_c d x s) (set_c d x t).
Proof.
  intros [H C W D] X. constructor; cbn [hs co ws set_c]; auto.
  - intros k. unfold upd. destruct (k =? d); auto.
  - unfold upd. destruct (Nat.eqb_spec c d); auto.
Qed.

Definition same {A} (c : nat) (p q : state * A) : Prop := R c (fst p) (fst q) /\ snd q = snd p.

Lemma live_R c s t h : R c s t -> live t h = live s h.
Proof. intros X. unfold live. now rewrite (Rh_life _ _ _ (r_h _ _ _ X h)). Qed.
Lemma frame_R c s t d : R c s t -> frame t d = frame s d.
Proof. intros X. unfold frame. now rewrite (r_c _ _ _ X). Qed.

Lemma get_result_R c s t h : R c s t -> same c (get_result h s) (get_result h t).
Proof.
  intros X. pose proof (r_h _ _ _ X h) as H. unfold get_result.
  rewrite (Rh_exc _ _ _ H), (Rh_done _ _ _ H), (Rh_res _ _ _ H), (Rh_life _ _ _ H), (Rh_taken _ _ _ H), (Rh_aw _ _ _ H), (Rh_from _ _ _ H).
  destruct (exc (hs s h)) eqn:Ex; [destruct (done (hs s h)) eqn:D|destruct (res (hs s h)) eqn:Rs]; (split; [|reflexivity]); cbn [fst];
    apply R_h; auto; destruct H as [->|(D' & F & a & ->)]; try (left; reflexivity); cbn [ref att]; right; cbn; rewrite ?D'; eauto; congruence.
Qed.
Lemma resume_R c s t w : R c s t -> same c (resume w s) (resume w t).
Proof.
  intros X. unfold resume. rewrite (r_w _ _ _ X). destruct (ws s w) as [|h d|]; try (split; auto; fail).
  rewrite (live_R _ _ _ _ X). destruct (live s h); [|split; auto].
  destruct (get_result_R c _ _ h (R_w _ _ _ w WIdle X)) as [G1 G2].
  destruct (get_result h (set_w w WIdle s)) as [a o]. destruct (get_result h (set_w w WIdle t)) as [b o']. cbn in G1, G2. subst o'.
  destruct o; split; auto.
Qed.
Lemma kill_w_R c s t o : R c s t -> same c (kill_w o s) (kill_w o t).
Proof. intros X. destruct o; split; auto. apply R_w. exact X. Qed.
Lemma Rh_set_aw c o x y : Rh c x y -> Rh c (set_aw o x) (set_aw o y).
Proof. intros [->|(D & F & a & ->)]; [left; reflexivity|]. right. unfold set_aw. cbn. rewrite D. eauto. Qed.
Lemma Rh_set_life c o x y : Rh c x y -> Rh c (set_life o x) (set_life o y).
Proof. intros [->|(D & F & a & ->)]; [left; reflexivity|]. right. unfold set_life. cbn. rewrite D. eauto. Qed.
Lemma Rh_set_att c o x y : Rh c x y -> Rh c (set_att o x) (set_att o y).
Proof. intros [->|(D & F & a & ->)]; [left; reflexivity|]. right. unfold set_att. cbn. rewrite D. eauto. Qed.
Lemma Rh_set_from c o x y : Rh c x y -> Rh c (set_from o x) (set_from o y).
Proof. intros [->|(D & F & a & ->)]; [left; reflexivity|]. right. unfold set_from. cbn. rewrite D. eauto. Qed.
(** The coroutine of [x] writes its outcome. *)
Lemma Rh_end c e r w f x y : Rh c x y -> Rh c (mkH (life_of x) true e r w (aw x) (ref x) (att x) f) (mkH (life_of y) true e r w (aw y) (ref y) (att y) f).
Proof. intros [->|(D & F & a & ->)]; [left; reflexivity|]. right. cbn. eauto. Qed.

Lemma final_R c s t d : R c s t -> same c (final d s) (final d t).
Proof.
  intros X. unfold final. rewrite (r_c _ _ _ X). pose proof (R_c _ _ _ d (mkC Dead None) X (fun _ => eq_refl)) as X1.
  destruct (rec (co s d)) as [h|]; [|split; auto]. rewrite (live_R _ _ _ _ X). destruct (live s h); [|split; auto].
  pose proof (r_h _ _ _ X h) as H. rewrite (Rh_aw _ _ _ H). destruct (aw (hs s h)) as [w|]; [|split; auto].
  destruct (resume_R c _ _ w (R_h _ _ _ h _ _ X1 (Rh_set_aw _ None _ _ H))) as [A B].
  destruct (resume w (set_h h (set_aw None (hs s h)) _)) as [a e]. destruct (resume w (set_h h (set_aw None (hs t h)) _)) as [b e'].
  cbn in A, B. subst e'. split; auto.
Qed.
Lemma cancel_R c s t h k : R c s t -> same c (cancel h k s) (cancel h k t).
Proof.
  intros X. unfold cancel. pose proof (r_h _ _ _ X h) as H. rewrite (Rh_done _ _ _ H). destruct (done (hs s h)) eqn:D; [split; auto|].
  rewrite (Rh_open _ _ _ H D). destruct (ref (hs s h)) as [d|]; [|split; auto]. rewrite (frame_R _ _ _ _ X), (r_c _ _ _ X).
  destruct (frame s d); [|split; auto]. destruct (rec (co s d)) as [h'|]; [destruct (h' =? h)|]; split; auto.
Qed.
Lemma unlink_R c s t h : R c s t -> match unlink h t with Some t1 => exists s1, match ref (hs s h) with None => Some s | Some _ => unlink h s end = Some s1 /\ R c s1 t1 | None => True end.
Proof.
  intros X. unfold unlink. pose proof (r_h _ _ _ X h) as H. rewrite ?(r_c _ _ _ X).
  destruct H as [->|(D & F & a & ->)]; cbn [ref].
  - destruct (ref (hs s h)) as [d|]; [|exact I]. rewrite (frame_R _ _ _ _ X), (r_c _ _ _ X). destruct (frame s d) eqn:F; [|exact I].
    destruct (rec (co s d)) as [h'|]; [destruct (h' =? h)|]; eexists; split; eauto. apply R_c; auto. intros ->. unfold frame in F. rewrite (r_d _ _ _ X) in F. discriminate F.
  - rewrite (frame_R _ _ _ _ X). unfold frame. rewrite (r_d _ _ _ X). cbn. exact I.
Qed.
Lemma unlink_open c s t h : R c s t -> done (hs s h) = false -> match unlink h t with Some t1 => exists s1, unlink h s = Some s1 /\ R c s1 t1 | None => True end.
Proof.
  intros X D. unfold unlink. pose proof (r_h _ _ _ X h) as H. rewrite (Rh_open _ _ _ H D).
  destruct (ref (hs s h)) as [d|]; [|exact I]. rewrite (frame_R _ _ _ _ X), (r_c _ _ _ X). destruct (frame s d) eqn:F; [|exact I].
  destruct (rec (co s d)) as [h'|]; [destruct (h' =? h)|]; eexists; split; eauto. apply R_c; auto. intros ->. unfold frame in F. rewrite (r_d _ _ _ X) in F. discriminate F.
Qed.
Lemma transfer_R c s t b g h : R c s t -> same c (transfer b g h s) (transfer b g h t).
Proof.
  intros X. unfold transfer. pose proof (r_h _ _ _ X h) as H.
  rewrite (Rh_done _ _ _ H), (Rh_exc _ _ _ H).
  assert (Z : done (hs s h) = true \/ hs t h = hs s h) by (destruct (done (hs s h)) eqn:D; [now left|right; exact (Rh_open _ _ _ H D)]).
  assert (Q : forall e', same c
     (set_h g (mkH Live (done (hs s h)) (exc (hs s h)) (res (hs s h)) (taken (hs s h)) (aw (hs s h)) (ref (hs s h)) (att (hs s h)) None)
        (set_h h (mkH (life_of (hs s h)) (b || done (hs s h)) e' (hollow (res (hs s h))) (taken (hs s h)) None (ref (hs s h)) false (from (hs s h))) s), @nil event)
     (set_h g (mkH Live (done (hs s h)) (exc (hs s h)) (res (hs t h)) (taken (hs t h)) (aw (hs t h)) (ref (hs t h)) (att (hs t h)) None)
        (set_h h (mkH (life_of (hs t h)) (b || done (hs s h)) e' (hollow (res (hs t h))) (taken (hs t h)) None (ref (hs t h)) false (from (hs t h))) t), [])).
  { intros e'. split; [|reflexivity]. cbn [fst]. apply R_h; [apply R_h; [exact X|]|].
    - destruct H as [->|(D & F & a & ->)]; [left; reflexivity|]. right. cbn. rewrite D, orb_true_r. eauto.
    - destruct H as [->|(D & F & a & ->)]; [left; reflexivity|]. right. cbn. rewrite D. eauto. }
  destruct (done (hs s h)) eqn:D; [apply Q|]. destruct (exc (hs s h)) eqn:Ex; [apply Q|].
  destruct Z as [Z|Z]; [discriminate|]. rewrite Z. destruct (ref (hs s h)) as [d|]; [|split; auto]. rewrite (frame_R _ _ _ _ X), (r_c _ _ _ X).
  destruct (frame s d) eqn:F; [|split; auto]. split; [|reflexivity]. cbn [fst]. apply R_h; [apply R_h|]; try (left; reflexivity).
  apply R_c; auto. intros ->. unfold frame in F. rewrite (r_d _ _ _ X) in F. discriminate F.
Qed.

(** One step. *)
Definition agree (c : nat) (a b : option (state * list event)) : Prop :=
  match b with
  | None => a = None
  | Some (t, e) => goods e = false \/ exists s, a = Some (s, e) /\ R c s t
  end.
Lemma agree_same c p q : same c p q -> agree c (Some p) (Some q).
Proof. destruct p as [s e], q as [t e']. intros [X Y]. cbn in *. subst e'. right. eauto. Qed.
Lemma agree_pre {A} c (p q : state * A) (f : A -> list event) : same c p q -> agree c (let (s, e) := p in Some (s, f e)) (let (s, e) := q in Some (s, f e)).
Proof. destruct p as [s e], q as [t e']. intros [X Y]. cbn in *. subst e'. right. eauto. Qed.

Lemma step_R c s t l : R c s t -> agree c (step l s) (step l t).
Proof.
  intros X. destruct l as [d h|d h v|d v|d e|d|d|w h|h|w|w k|h k|g h|g h|g|h|h|h b]; cbn [step].
  - rewrite (r_c _ _ _ X), (Rh_life _ _ _ (r_h _ _ _ X h)). destruct (cs (co s d)) eqn:C; try reflexivity.
    destruct (is_absent _); [|reflexivity]. apply agree_same. split; [|reflexivity]. cbn [fst]. apply R_h; [|left; reflexivity]. apply R_c; auto.
    intros ->. rewrite (r_d _ _ _ X) in C. discriminate C.
  - rewrite (r_c _ _ _ X), (Rh_life _ _ _ (r_h _ _ _ X h)). destruct (cs (co s d)) eqn:C; try reflexivity.
    destruct (is_absent _); [|reflexivity]. apply agree_same. split; [|reflexivity]. cbn [fst]. apply R_h; [|left; reflexivity]. apply R_c; auto.
  - rewrite (r_c _ _ _ X). destruct (cs (co s d)) eqn:C; try reflexivity.
    assert (N : d <> c) by (intros ->; rewrite (r_d _ _ _ X) in C; discriminate C).
    destruct (rec (co s d)) as [h|]; [rewrite (live_R _ _ _ _ X); destruct (live s h)|]; apply agree_same; (split; [|reflexivity]); cbn [fst]; auto.
    + pose proof (r_h _ _ _ X h) as H. rewrite (Rh_exc _ _ _ H), (Rh_taken _ _ _ H), (Rh_from _ _ _ H). apply R_h; [|apply Rh_end; exact H]. apply R_c; auto. intros; congruence.
    + apply R_c; auto. intros; congruence.
  - rewrite (r_c _ _ _ X). destruct (cs (co s d)) eqn:C; try reflexivity.
    assert (N : d <> c) by (intros ->; rewrite (r_d _ _ _ X) in C; discriminate C).
    destruct (rec (co s d)) as [h|]; [rewrite (live_R _ _ _ _ X); destruct (live s h)|].
    + apply (agree_pre c _ _ (fun ev => EThrow d e :: ev)). apply final_R.
      pose proof (r_h _ _ _ X h) as H. rewrite (Rh_res _ _ _ H), (Rh_taken _ _ _ H), (Rh_from _ _ _ H). apply R_h; auto. apply Rh_end. exact H.
    + apply agree_same. split; auto.
    + apply agree_same. split; [|reflexivity]. cbn [fst]. apply R_c; auto. intros; congruence.
  - rewrite (r_c _ _ _ X). destruct (cs (co s d)); try reflexivity. apply agree_same, final_R, X.
  - rewrite (r_c _ _ _ X). destruct (cs (co s d)) eqn:C; try reflexivity.
    pose proof (R_c _ _ _ d (mkC Dead None) X (fun _ => eq_refl)) as X1.
    destruct (rec (co s d)) as [h|]; [rewrite (live_R _ _ _ _ X); destruct (live s h)|].
    + pose proof (r_h _ _ _ X h) as H. rewrite (Rh_done _ _ _ H), (Rh_exc _ _ _ H), (Rh_res _ _ _ H), (Rh_taken _ _ _ H), (Rh_from _ _ _ H), (Rh_aw _ _ _ H).
      apply (agree_pre c _ _ (fun ev => EKill d :: ev)). apply kill_w_R. apply R_h; auto.
      destruct H as [->|(D & F & a & ->)]; [left; reflexivity|]. right. cbn. eauto.
    + apply agree_same. split; auto.
    + apply agree_same. split; auto.
  - rewrite (r_w _ _ _ X). destruct (ws s w); try reflexivity. pose proof (r_h _ _ _ X h) as H.
    rewrite (Rh_life _ _ _ H), (Rh_done _ _ _ H), (Rh_aw _ _ _ H). destruct (is_live _); [|reflexivity].
    destruct (done (hs s h)) eqn:D.
    + apply (agree_pre c _ _ (fun r => EAwait w h :: match r with Some r => [EResult w h r] | None => [EBad BEmpty] end)). apply get_result_R, X.
    + rewrite (Rh_open _ _ _ H D). destruct (aw (hs s h)); apply agree_same; (split; [|reflexivity]); auto.
      cbn [fst]. apply R_w. apply R_h; auto. left. reflexivity.
  - pose proof (r_h _ _ _ X h) as H. rewrite (Rh_life _ _ _ H), (Rh_done _ _ _ H). destruct (is_live _); [|reflexivity].
    destruct (done (hs s h)); [|apply agree_same; split; auto].
    apply (agree_pre c _ _ (fun r => match r with Some r => [EGet h r] | None => [EBad BEmpty] end)). apply get_result_R, X.
  - rewrite (r_w _ _ _ X). destruct (ws s w) as [|h d|]; try reflexivity. pose proof (r_h _ _ _ X h) as H.
    rewrite (live_R _ _ _ _ X), (Rh_aw _ _ _ H). destruct (live s h); [|apply agree_same; split; auto].
    destruct (aw (hs s h)) as [w'|]; [destruct (w' =? w)|]; apply agree_same; (split; [|reflexivity]); auto.
    cbn [fst]. apply R_w. apply R_h; auto. apply Rh_set_aw. exact H.
  - rewrite (r_w _ _ _ X). destruct (ws s w) as [|h [d|]|]; try reflexivity.
    + rewrite (frame_R _ _ _ _ X). apply agree_same. split; auto.
    + apply agree_same. split; auto.
  - rewrite (Rh_life _ _ _ (r_h _ _ _ X h)). destruct (is_live _); [|reflexivity]. apply agree_same, cancel_R, X.
  - rewrite (Rh_life _ _ _ (r_h _ _ _ X h)), (Rh_life _ _ _ (r_h _ _ _ X g)). destruct (_ && _); [|reflexivity].
    apply (agree_pre c _ _ (fun ev => EMove g h :: ev)). apply transfer_R, X.
  - rewrite (Rh_life _ _ _ (r_h _ _ _ X h)), (Rh_life _ _ _ (r_h _ _ _ X g)), (Rh_from _ _ _ (r_h _ _ _ X g)). destruct (_ && _); [|reflexivity].
    destruct (from (hs s g)); [reflexivity|].
    assert (Z : same c (if att (hs s g) then cancel g ct_all s else (s, [])) (if att (hs t g) then cancel g ct_all t else (t, []))).
    { destruct (done (hs s g)) eqn:D.
      - unfold cancel. rewrite (Rh_done _ _ _ (r_h _ _ _ X g)), D. destruct (att (hs s g)), (att (hs t g)); split; auto.
      - rewrite (Rh_open _ _ _ (r_h _ _ _ X g) D). destruct (att (hs s g)); [apply cancel_R, X|split; auto]. }
    destruct (if att (hs s g) then _ else _) as [s1 e]. destruct (if att (hs t g) then _ else _) as [t1 e']. destruct Z as [Z1 Z2]. cbn in Z1, Z2. subst e'.
    right. eexists. split; [reflexivity|]. apply R_h; auto. apply Rh_set_from. apply (r_h _ _ _ Z1).
  - rewrite (Rh_from _ _ _ (r_h _ _ _ X g)). destruct (from (hs s g)) as [h|]; [|reflexivity].
    rewrite (Rh_life _ _ _ (r_h _ _ _ X h)), (Rh_life _ _ _ (r_h _ _ _ X g)), (Rh_aw _ _ _ (r_h _ _ _ X g)). destruct (_ && _); [|reflexivity].
    assert (Z : match match ref (hs t g) with None => Some t | Some _ => unlink g t end with
                | Some t1 => exists s1, match ref (hs s g) with None => Some s | Some _ => unlink g s end = Some s1 /\ R c s1 t1
                | None => True end).
    { pose proof (unlink_R c s t g X) as U. destruct (ref (hs t g)) eqn:F; [exact U|].
      exists s. split; [|exact X]. destruct (r_h _ _ _ X g) as [H|(_ & _ & a & H)]; rewrite H in F; [now rewrite F|discriminate F]. }
    destruct (match ref (hs t g) with None => Some t | Some _ => unlink g t end) as [t1|]; [|left; reflexivity].
    destruct Z as (s1 & -> & X1).
    destruct (kill_w_R c _ _ (aw (hs s g)) X1) as [K1 K2]. destruct (kill_w (aw (hs s g)) s1) as [s2 e2]. destruct (kill_w (aw (hs s g)) t1) as [t2 e2'].
    cbn in K1, K2. subst e2'. destruct (transfer_R c _ _ false g h K1) as [T1 T2]. destruct (transfer false g h s2) as [s3 e3]. destruct (transfer false g h t2) as [t3 e3'].
    cbn in T1, T2. subst e3'. right. eauto.
  - rewrite (Rh_life _ _ _ (r_h _ _ _ X h)). destruct (is_live _); [|reflexivity].
    assert (Z : same c (if att (hs s h) then cancel h ct_all s else (s, [])) (if att (hs t h) then cancel h ct_all t else (t, []))).
    { destruct (done (hs s h)) eqn:D.
      - unfold cancel. rewrite (Rh_done _ _ _ (r_h _ _ _ X h)), D. destruct (att (hs s h)), (att (hs t h)); split; auto.
      - rewrite (Rh_open _ _ _ (r_h _ _ _ X h) D). destruct (att (hs s h)); [apply cancel_R, X|split; auto]. }
    destruct (if att (hs s h) then _ else _) as [s1 e]. destruct (if att (hs t h) then _ else _) as [t1 e']. destruct Z as [Z1 Z2]. cbn in Z1, Z2. subst e'.
    right. eexists. split; [reflexivity|]. apply R_h; auto. apply Rh_set_life. apply (r_h _ _ _ Z1).
  - rewrite (Rh_life _ _ _ (r_h _ _ _ X h)), (Rh_done _ _ _ (r_h _ _ _ X h)), (Rh_aw _ _ _ (r_h _ _ _ X h)). destruct (is_dying _); [|reflexivity].
    assert (Z : match (if done (hs s h) then Some t else unlink h t) with
                | Some t1 => exists s1, (if done (hs s h) then Some s else unlink h s) = Some s1 /\ R c s1 t1 | None => True end).
    { destruct (done (hs s h)) eqn:D; [eauto|]. apply unlink_open; assumption. }
    destruct (if done (hs s h) then Some t else unlink h t) as [t1|]; [|left; reflexivity]. destruct Z as (s1 & -> & X1).
    destruct (kill_w_R c _ _ (aw (hs s h)) X1) as [K1 K2]. destruct (kill_w (aw (hs s h)) s1) as [s2 e2]. destruct (kill_w (aw (hs s h)) t1) as [t2 e2'].
    cbn in K1, K2. subst e2'. right. eexists. split; [reflexivity|]. apply R_h; auto. apply Rh_set_life, Rh_set_aw. apply (r_h _ _ _ K1).
  - rewrite (Rh_life _ _ _ (r_h _ _ _ X h)). destruct (is_live _); [|reflexivity]. apply agree_same. split; [|reflexivity]. cbn [fst]. apply R_h; auto.
    apply Rh_set_att. apply (r_h _ _ _ X).
Qed.

(** A history: the run over the ended coroutine is the run over the noop, unless it has undefined behaviour. *)
Lemma run_R c ls : forall s t, R c s t ->
  (exists a l r, ls = a ++ l :: r /\ exists t1 e1 t2 e2, run t a = Some (t1, e1) /\ step l t1 = Some (t2, e2) /\ goods e2 = false) \/
  match run t ls with
  | None => run s ls = None
  | Some (t1, e) => exists s1, run s ls = Some (s1, e) /\ R c s1 t1
  end.
Proof.
  induction ls as [|l r IH]; intros s t X; cbn [run].
  - right. eauto.
  - pose proof (step_R c s t l X) as A. unfold agree in A. destruct (step l t) as [[t1 e1]|] eqn:S.
    + destruct A as [B|(s1 & A & X1)].
      * left. exists [], l, r. split; [reflexivity|]. exists t, [], t1, e1. auto.
      * rewrite A. destruct (IH s1 t1 X1) as [(a & l' & r' & -> & t2 & e2 & t3 & e3 & Ra & Sl & G)|Q].
        -- left. exists (l :: a), l', r'. split; [reflexivity|]. exists t2, (e1 ++ e2), t3, e3. split; [|auto]. cbn [run]. now rewrite S, Ra.
        -- right. destruct (run t1 r) as [[t2 e2]|].
           ++ destruct Q as (s2 & -> & X2). eauto.
           ++ now rewrite Q.
    + right. now rewrite A.
Qed.

(** After the creation. *)
Lemma made_R c h v (s s1 t1 : state) e1 f1 :
  run s [LNoop c h v] = Some (s1, e1) -> run s [LStart c h; LReturn c v; LFinal c] = Some (t1, f1) -> R c s1 t1.
Proof.
  intros A B. cbn [run step] in A, B. destruct (cs (co s c)) eqn:C; try discriminate. destruct (is_absent (life_of (hs s h))); [|discriminate].
  injection A as <- _. assert (U : forall A (f : nat -> A) k x, upd f k x k = x) by (intros; unfold upd; now rewrite Nat.eqb_refl).
  unfold final, live in B. repeat (progress (cbn -[Nat.eqb upd] in B; rewrite ?U in B)).
  injection B as <- _.
  constructor; cbn [hs co ws set_h set_c].
  - intros k. unfold upd. destruct (k =? h); [|left; reflexivity]. right. cbn. eauto.
  - intros k. unfold upd. destruct (k =? c); reflexivity.
  - reflexivity.
  - unfold upd. now rewrite Nat.eqb_refl.
Qed.
End Nop.
