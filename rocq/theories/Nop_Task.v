(** A task made from noop and one whose coroutine returns as soon as it is started: a simulation. *)
From Coq Require Import List Bool Arith Lia.
From Verif Require Import Nop_Spec Task_Model.
Import ListNotations.

Section Nop.
Context {V E : Type}.
Notation event := (event V E).
Notation state := (state V E).
Notation handle := (handle V E).
Notation label := (label V E).

(** The handles: the same on both sides; one that the noop made, after its value was
    determined; one that was moved from before; the one that holds the noop; one
    destroyed before it was used. *)
Inductive kind := KSame | KDone | KMoved | KHere | KGone.

Section Sim.
Variable c : nat.
Variable v : V.
Definition Rh (k : kind) (x y : handle) : Prop :=
  match k with
  | KSame => y = x /\ pr x <> Some c
  | KDone => done x = true /\ pr x = None /\ y = mkH (life_of x) true (exc x) (res x) (aw x) (Some c) (priv x)
  | KMoved => exists l, x = mkH l true None (Some Hollow) None None None /\ y = mkH l true (Some XMoved) None None (Some c) None
  | KHere => x = mkH Live true None (Some (Fresh v)) None None None /\ y = mkH Live false None None None (Some c) None
  | KGone => life_of x = Gone /\ life_of y = Gone /\ priv y = priv x
  end.

Definition places (K : nat -> kind) (s : state) (x : wstate) : Prop :=
  match x with
  | WAwait h | WSpawn h => K h = KSame /\ absent s h = false
  | WPosted h => (K h = KSame \/ K h = KDone) /\ absent s h = false
  | _ => True
  end.

Record R (K : nat -> kind) (M : list nat) (s t : state) : Prop := mkRel {
  r_h : forall h, Rh (K h) (hs s h) (hs t h);
  r_c : forall d, d <> c -> co t d = co s d;
  r_s : co s c = mkC Dead None;
  r_t : (co t c = mkC Dead None /\ forall h, K h <> KHere) \/
        (exists k, co t c = mkC Ready (Some k) /\ K k = KHere /\ forall h, K h = KHere -> h = k);
  r_w : forall w, ws t w = ws s w;
  r_rec : forall d h, rec (co s d) = Some h -> K h = KSame /\ absent s h = false;
  r_ws : forall w, places K s (ws s w);
  r_m : forall h, K h = KMoved -> In h M }.

Lemma upd_eq {A} (f : nat -> A) k x : upd f k x k = x.
Proof. unfold upd. now rewrite Nat.eqb_refl. Qed.
Lemma upd_ne {A} (f : nat -> A) k x j : j <> k -> upd f k x j = f j.
Proof. intros N. unfold upd. apply Nat.eqb_neq in N. now rewrite N. Qed.

Lemma Rh_life k x y : Rh k x y -> life_of y = life_of x.
Proof. destruct k; cbn; [intros [-> _]|intros (_ & _ & ->)|intros (l & -> & ->)|intros (-> & ->)|intros (? & ? & ?)]; try reflexivity; congruence. Qed.
Lemma Rh_priv k x y : Rh k x y -> priv y = priv x.
Proof. destruct k; cbn; [intros [-> _]|intros (_ & _ & ->)|intros (l & -> & ->)|intros (-> & ->)|intros (? & ? & ?)]; try reflexivity; congruence. Qed.
Lemma live_R K M s t h : R K M s t -> live t h = live s h.
Proof. intros X. unfold live. now rewrite (Rh_life _ _ _ (r_h _ _ _ _ X h)). Qed.
Lemma absent_R K M s t h : R K M s t -> absent t h = absent s h.
Proof. intros X. unfold absent. now rewrite (Rh_life _ _ _ (r_h _ _ _ _ X h)). Qed.
Lemma user_R K M s t h : R K M s t -> user t h = user s h.
Proof. intros X. unfold user. now rewrite (live_R _ _ _ _ _ X), (Rh_priv _ _ _ (r_h _ _ _ _ X h)). Qed.
Lemma frame_R K M s t d : R K M s t -> d <> c -> frame t d = frame s d.
Proof. intros X N. unfold frame. now rewrite (r_c _ _ _ _ X d N). Qed.

Lemma places_ext K (s s' : state) x : (forall h, absent s h = false -> absent s' h = false) -> places K s x -> places K s' x.
Proof. intros A. destruct x; cbn; intuition. Qed.

Lemma R_h K M s t h x y : R K M s t -> Rh (K h) x y -> (absent s h = false -> life_of x <> Absent) -> R K M (set_h h x s) (set_h h y t).
Proof.
  intros X Y Z.
  assert (A : forall k, absent s k = false -> absent (set_h h x s) k = false).
  { intros k B. unfold absent in *. cbn [hs set_h]. unfold upd. destruct (Nat.eqb_spec k h) as [->|]; auto.
    specialize (Z B). destruct (life_of x); auto. contradiction. }
  constructor; cbn [hs co ws set_h]; try apply X.
  - intros k. unfold upd. destruct (Nat.eqb_spec k h) as [->|]; auto. apply X.
  - intros d k B. destruct (r_rec _ _ _ _ X d k B); auto.
  - intros w. apply (places_ext K s); auto. apply X.
Qed.
Lemma R_w K M s t w x : R K M s t -> places K s x -> R K M (set_w w x s) (set_w w x t).
Proof.
  intros X P. constructor; cbn [hs co ws set_w]; try apply X.
  - intros k. unfold upd. destruct (k =? w); auto. apply X.
  - intros k. unfold upd. destruct (k =? w); [exact P|apply X].
Qed.
Lemma R_c K M s t d x : R K M s t -> d <> c -> (forall h, rec x = Some h -> K h = KSame /\ absent s h = false) -> R K M (set_c d x s) (set_c d x t).
Proof.
  intros X N P. constructor; cbn [hs co ws set_c]; try apply X.
  - intros k B. unfold upd. destruct (k =? d); auto. apply X. exact B.
  - rewrite upd_ne; auto. apply X.
  - rewrite upd_ne; auto. apply X.
  - intros k h. unfold upd. destruct (k =? d); [apply P|apply X].
Qed.

Definition same {A} K M (p q : state * A) : Prop := R K M (fst p) (fst q) /\ snd q = snd p.
Lemma not_absent (s : state) h : live s h = true -> absent s h = false.
Proof. unfold live, absent. destruct (life_of (hs s h)); auto; discriminate. Qed.

Lemma get_result_R K M s t h : R K M s t -> K h = KSame \/ K h = KDone -> live s h = true -> same K M (get_result h s) (get_result h t).
Proof.
  intros X [Z|Z] L; pose proof (r_h _ _ _ _ X h) as H; rewrite Z in H; unfold get_result; assert (La : life_of (hs s h) <> Absent) by (unfold live in L; destruct (life_of (hs s h)); discriminate).
  - destruct H as [-> N]. destruct (exc (hs s h)); [destruct (done (hs s h)); [split; auto|]|destruct (res (hs s h)); [|split; auto]];
      (split; [|reflexivity]); cbn [fst]; apply R_h; auto; rewrite Z; cbn; auto.
  - destruct H as (D & F & ->). cbn [exc done res life_of aw pr priv]. destruct (exc (hs s h)) eqn:Ex.
    + rewrite D. split; auto.
    + destruct (res (hs s h)); [|split; auto]. split; [|reflexivity]. cbn [fst]. apply R_h; auto. rewrite Z. cbn. rewrite D. auto.
Qed.
Lemma resume_R K M s t w : R K M s t -> same K M (resume w s) (resume w t).
Proof.
  intros X. pose proof (r_ws _ _ _ _ X w) as P. unfold resume. rewrite (r_w _ _ _ _ X). destruct (ws s w) as [|h|h|h| |]; try (split; auto; fail).
  - cbn in P. destruct P as [P Q]. rewrite (live_R _ _ _ _ _ X). destruct (live s h) eqn:L; [|split; auto].
    destruct (get_result_R K M _ _ h (R_w _ _ _ _ w WIdle X Logic.I) (or_introl P) L) as [G1 G2].
    destruct (get_result h (set_w w WIdle s)) as [a o]. destruct (get_result h (set_w w WIdle t)) as [b o']. cbn in G1, G2. subst o'.
    destruct o; split; auto.
  - cbn in P. split; [|reflexivity]. cbn [fst]. apply R_w; auto. cbn. tauto.
Qed.
Lemma kill_w_R K M s t o : R K M s t -> same K M (kill_w o s) (kill_w o t).
Proof. intros X. destruct o; split; auto. apply R_w; auto. exact Logic.I. Qed.
Lemma final_R K M s t d : R K M s t -> d <> c -> same K M (final d s) (final d t).
Proof.
  intros X N. unfold final. rewrite (r_c _ _ _ _ X d N).
  assert (X1 : R K M (set_c d (mkC Dead None) s) (set_c d (mkC Dead None) t)) by (apply R_c; auto; discriminate).
  destruct (rec (co s d)) as [h|] eqn:Rc; [|split; auto]. rewrite (live_R _ _ _ _ _ X). destruct (live s h) eqn:L; [|split; auto].
  destruct (r_rec _ _ _ _ X d h Rc) as [Z _]. pose proof (r_h _ _ _ _ X h) as H. rewrite Z in H. destruct H as [H Hp]. rewrite H. destruct (aw (hs s h)) as [w|]; [|split; auto].
  assert (X2 : R K M (set_h h (set_aw None (hs s h)) (set_c d (mkC Dead None) s)) (set_h h (set_aw None (hs s h)) (set_c d (mkC Dead None) t))).
  { apply R_h; auto. - rewrite Z. cbn. auto. - intros _. unfold live in L. cbn. destruct (life_of (hs s h)); discriminate. }
  destruct (resume_R K M _ _ w X2) as [A B].
  destruct (resume w (set_h h (set_aw None (hs s h)) (set_c d (mkC Dead None) s))) as [a e]. destruct (resume w (set_h h (set_aw None (hs s h)) (set_c d (mkC Dead None) t))) as [b e'].
  cbn in A, B. subst e'. split; auto.
Qed.
Definition osame K M (p q : option (state * list event)) : Prop :=
  match p with None => q = None | Some p => exists q', q = Some q' /\ same K M p q' end.
Lemma osame_some K M p q : same K M p q -> osame K M (Some p) (Some q).
Proof. intros X. exists q. auto. Qed.
Lemma osame_pre {A} K M (p q : state * A) (f : A -> list event) : same K M p q -> osame K M (let (s, e) := p in Some (s, f e)) (let (s, e) := q in Some (s, f e)).
Proof. destruct p as [s e], q as [t e']. intros [X Y]. cbn in X, Y. subst e'. eexists. split; [reflexivity|]. split; auto. Qed.
Lemma destroyed_R K M s t d e : R K M s t -> d <> c -> osame K M (destroyed d e s) (destroyed d e t).
Proof.
  intros X N. unfold destroyed. rewrite (r_c _ _ _ _ X d N).
  assert (X1 : R K M (set_c d (mkC Dead None) s) (set_c d (mkC Dead None) t)) by (apply R_c; auto; discriminate).
  destruct (rec (co s d)) as [h|] eqn:Rc; [|apply osame_some; split; auto]. rewrite (live_R _ _ _ _ _ X). destruct (live s h) eqn:L; [|apply osame_some; split; auto].
  destruct (r_rec _ _ _ _ X d h Rc) as [Z _]. pose proof (r_h _ _ _ _ X h) as H. rewrite Z in H. destruct H as [H Hp]. rewrite H.
  apply (osame_pre K M _ _ (fun ev => e :: ev)). apply kill_w_R. apply R_h; auto.
  - rewrite Z. cbn. auto.
  - intros _. unfold live in L. cbn. destruct (life_of (hs s h)); discriminate.
Qed.

(** A handle that is not the noop's is moved. *)
Lemma transfer_R K M s t p g h : R K M s t -> K h = KSame \/ K h = KDone -> absent s g = true -> live s h = true ->
  exists K', same K' (h :: M) (transfer p g h s) (transfer p g h t) /\
    (snd (transfer p g h s) = [] -> K' g = K h /\ live (fst (transfer p g h s)) g = true /\ hs (fst (transfer p g h s)) g = mkH Live (done (hs s h)) (exc (hs s h)) (res (hs s h)) (aw (hs s h)) (pr (hs s h)) p).
Proof.
  intros X Z A L.
  assert (gh : g <> h) by (intros ->; apply not_absent in L; congruence).
  assert (La : life_of (hs s h) <> Absent) by (unfold live in L; destruct (life_of (hs s h)); discriminate).
  assert (Kg : K g <> KHere).
  { intro B. pose proof (r_h _ _ _ _ X g) as H. rewrite B in H. destruct H as [H _]. unfold absent in A. rewrite H in A. discriminate A. }
  assert (Ng : forall d, rec (co s d) <> Some g) by (intros d B; apply (r_rec _ _ _ _ X) in B; destruct B; congruence).
  (* the new K on the old states *)
  assert (G : forall s' t' y y', (forall k, k <> g -> k <> h -> hs s' k = hs s k /\ hs t' k = hs t k) -> hs s' g = y -> hs t' g = y' -> Rh (K h) y y' -> Rh (K h) (hs s' h) (hs t' h) ->
    life_of y <> Absent -> life_of (hs s' h) <> Absent ->
    (forall d, d <> c -> co t' d = co s' d) -> co s' c = co s c -> co t' c = co t c -> ws s' = ws s -> ws t' = ws t ->
    (forall d, rec (co s' d) = rec (co s d) \/ (rec (co s' d) = Some g /\ K h = KSame)) -> R (upd K g (K h)) (h :: M) s' t').
  { intros s' t' y y' Ho Hg Hg' Ry Rhh Ly Lh Cd Cs Ct Ws Wt Rc.
    assert (Abs : forall k, absent s k = false -> absent s' k = false).
    { intros k B. destruct (Nat.eq_dec k g) as [->|n1]; [congruence|]. destruct (Nat.eq_dec k h) as [->|n2].
      - unfold absent. destruct (life_of (hs s' h)); auto. contradiction.
      - unfold absent in *. now rewrite (proj1 (Ho k n1 n2)). }
    assert (Pl : forall x, places K s x -> places (upd K g (K h)) s' x).
    { intros x. destruct x as [|k|k|k| |]; cbn; auto; intros [B C]; (rewrite upd_ne; [auto|intros ->; congruence]). }
    constructor.
    - intros k. destruct (Nat.eq_dec k g) as [->|n1]; [rewrite upd_eq, Hg, Hg'; exact Ry|]. rewrite (upd_ne _ _ _ _ n1).
      destruct (Nat.eq_dec k h) as [->|n2]; [exact Rhh|]. destruct (Ho k n1 n2) as [-> ->]. apply X.
    - exact Cd.
    - rewrite Cs. apply X.
    - rewrite Ct. destruct (r_t _ _ _ _ X) as [[B C]|(k & B & C & D)].
      + left. split; auto. intros k. destruct (Nat.eq_dec k g) as [->|n1]; [rewrite upd_eq|rewrite upd_ne; auto].
        destruct Z as [Z|Z]; rewrite Z; discriminate.
      + right. exists k. split; auto. assert (k <> g) by congruence. rewrite upd_ne by auto. split; auto.
        intros k'. destruct (Nat.eq_dec k' g) as [->|n1]; [rewrite upd_eq|rewrite upd_ne; auto].
        destruct Z as [Z|Z]; rewrite Z; discriminate.
    - intros w. rewrite Ws, Wt. apply X.
    - intros d k B. destruct (Rc d) as [C|[C C']]; rewrite C in B.
      + assert (k <> g) by (intros ->; exact (Ng _ B)). rewrite upd_ne by auto. destruct (r_rec _ _ _ _ X d k B). auto.
      + injection B as <-. rewrite upd_eq. split; auto. unfold absent. rewrite Hg. destruct (life_of y); auto. contradiction.
    - intros w. rewrite Ws. apply Pl. apply X.
    - intros k. destruct (Nat.eq_dec k g) as [->|n1]; [rewrite upd_eq; destruct Z as [Z|Z]; rewrite Z; discriminate|].
      rewrite upd_ne by auto. intros B. right. apply (r_m _ _ _ _ X). exact B. }
  assert (Bad : R K (h :: M) s t).
  { destruct X. constructor; auto. intros k B. right. auto. }
  set (y := mkH Live (done (hs s h)) (exc (hs s h)) (res (hs s h)) (aw (hs s h)) (pr (hs s h)) p).
  assert (U : forall x : state, absent s g = true -> live (set_h g y x) g = true /\ hs (set_h g y x) g = y).
  { intros x _. unfold live. cbn [hs set_h]. rewrite upd_eq. auto. }
  pose proof (r_h _ _ _ _ X h) as H. unfold transfer. fold y.
  destruct Z as [Z|Z]; rewrite Z in H, G |- *; cbn [Rh] in H.
  - destruct H as [H Hp]. rewrite H. fold y.
    assert (Q : forall e, exists K', same K' (h :: M)
        (set_h g y (set_h h (mkH (life_of (hs s h)) true e (hollow (res (hs s h))) None (pr (hs s h)) (priv (hs s h))) s), @nil event)
        (set_h g y (set_h h (mkH (life_of (hs s h)) true e (hollow (res (hs s h))) None (pr (hs s h)) (priv (hs s h))) t), []) /\ K' g = KSame).
    { intros e. exists (upd K g KSame). rewrite upd_eq. split; [|reflexivity]. split; [|reflexivity]. cbn [fst].
      apply (G _ _ y y); cbn [hs co ws set_h]; rewrite ?upd_eq; rewrite ?(upd_ne _ g _ h) by auto; rewrite ?upd_eq; cbn; auto.
      - intros k n1 n2. rewrite !upd_ne by auto. auto.
      - discriminate.
      - apply X. }
    assert (Q' : forall e, exists K', same K' (h :: M)
        (set_h g y (set_h h (mkH (life_of (hs s h)) true e (hollow (res (hs s h))) None (pr (hs s h)) (priv (hs s h))) s), @nil event)
        (set_h g y (set_h h (mkH (life_of (hs s h)) true e (hollow (res (hs s h))) None (pr (hs s h)) (priv (hs s h))) t), []) /\
        (@nil event = [] -> K' g = KSame /\ live (set_h g y (set_h h (mkH (life_of (hs s h)) true e (hollow (res (hs s h))) None (pr (hs s h)) (priv (hs s h))) s)) g = true /\
           hs (set_h g y (set_h h (mkH (life_of (hs s h)) true e (hollow (res (hs s h))) None (pr (hs s h)) (priv (hs s h))) s)) g = y)).
    { intros e. destruct (Q e) as (K' & Q1 & Q2). exists K'. split; [exact Q1|]. intros _. split; auto. }
    destruct (done (hs s h)) eqn:D; [apply Q'|]. destruct (exc (hs s h)) eqn:Ex; [apply Q'|]. clear Q Q'.
    destruct (pr (hs s h)) as [d|] eqn:Pr; [|exists K; split; [split; auto|discriminate]].
    assert (N : d <> c) by congruence. rewrite (frame_R _ _ _ _ _ X N), (r_c _ _ _ _ X d N).
    destruct (frame s d) eqn:F; [|exists K; split; [split; auto|discriminate]].
    exists (upd K g KSame). rewrite upd_eq. split; [|intros _; split; [reflexivity|exact (U _ A)]]. split; [|reflexivity]. cbn [fst].
    apply (G _ _ y y); cbn [hs co ws set_h set_c]; rewrite ?upd_eq; rewrite ?(upd_ne _ g _ h) by auto; rewrite ?upd_eq; cbn; auto.
    + intros k n1 n2. rewrite !upd_ne by auto. auto.
    + discriminate.
    + intros k n. unfold upd. destruct (k =? d); auto. apply X. exact n.
    + rewrite upd_ne by auto. reflexivity.
    + rewrite upd_ne by auto. reflexivity.
    + intros k. unfold upd. destruct (k =? d); auto.
  - destruct H as (D & Pr & H). rewrite H. cbn [done exc res aw pr priv life_of]. rewrite D.
    exists (upd K g KDone). rewrite upd_eq. split; [|intros _; split; [reflexivity|exact (U _ A)]]. split; [|reflexivity]. cbn [fst].
    apply (G _ _ y (mkH Live true (exc (hs s h)) (res (hs s h)) (aw (hs s h)) (Some c) p)); cbn [hs co ws set_h set_c]; rewrite ?upd_eq; rewrite ?(upd_ne _ g _ h) by auto; rewrite ?upd_eq; cbn; auto.
    + intros k n1 n2. rewrite !upd_ne by auto. auto.
    + discriminate.
    + apply X.
Qed.

Notation inner := (@inner V E c v).
Notation visible := (@visible V E c).
Notation filled := (@filled V E c v).
Lemma visible_app a b : visible (a ++ b) = visible a ++ visible b.
Proof. apply filter_app. Qed.

Lemma weaken K M s t o : R K M s t -> R K (add o M) s t.
Proof. intros []. constructor; auto. intros h B. destruct o; cbn; auto. Qed.

Lemma holder K M s t k : R K M s t -> K k = KHere ->
  hs s k = mkH Live true None (Some (Fresh v)) None None None /\ hs t k = mkH Live false None None None (Some c) None /\
  co t c = mkC Ready (Some k) /\ (forall h, K h = KHere -> h = k) /\
  (forall d, rec (co s d) <> Some k) /\ (forall w, ws s w <> WAwait k /\ ws s w <> WSpawn k /\ ws s w <> WPosted k).
Proof.
  intros X B. pose proof (r_h _ _ _ _ X k) as H. rewrite B in H. destruct H as [H1 H2].
  destruct (r_t _ _ _ _ X) as [[_ C]|(k' & C & D & F)]; [destruct (C _ B)|].
  pose proof (F _ B) as ->. repeat split; auto.
  - intros d Q. apply (r_rec _ _ _ _ X) in Q. destruct Q. congruence.
  - intros Q. pose proof (r_ws _ _ _ _ X w) as P. rewrite Q in P. destruct P. congruence.
  - intros Q. pose proof (r_ws _ _ _ _ X w) as P. rewrite Q in P. destruct P. congruence.
  - intros Q. pose proof (r_ws _ _ _ _ X w) as P. rewrite Q in P. destruct P as [[] _]; congruence.
Qed.

(** The holder becomes an ordinary finished handle; the coroutine is gone. *)
Lemma settle K M M' s t s' t' k g x : R K M s t -> K k = KHere -> (forall j, In j M -> In j M') -> (g <> k -> In k M') ->
  g = k \/ absent s g = true ->
  (forall j, j <> k -> j <> g -> hs s' j = hs s j /\ hs t' j = hs t j) ->
  Rh KDone (hs s' g) (hs t' g) -> life_of (hs s' g) <> Absent ->
  (g <> k -> Rh KMoved (hs s' k) (hs t' k) /\ life_of (hs s' k) <> Absent) ->
  (forall d, d <> c -> co s' d = co s d /\ co t' d = co s d) -> co s' c = mkC Dead None -> co t' c = mkC Dead None ->
  (forall w, ws t' w = ws s' w) -> (forall w, ws s' w = ws s w \/ (ws s' w = x)) -> (x = WIdle \/ x = WPosted g) ->
  R (upd (upd K k KMoved) g KDone) M' s' t'.
Proof.
  intros X B M1 M2 G Ho Rg Lg Rk Cd Cs Ct Wt Ws Xx.
  destruct (holder _ _ _ _ _ X B) as (H1 & H2 & H3 & H4 & H5 & H6).
  assert (Abs : forall j, absent s j = false -> absent s' j = false).
  { intros j Q. destruct (Nat.eq_dec j g) as [->|n1].
    - unfold absent. destruct (life_of (hs s' g)); auto. contradiction.
    - destruct (Nat.eq_dec j k) as [->|n2].
      + unfold absent. destruct (Rk (not_eq_sym n1)) as [_ L]. destruct (life_of (hs s' k)); auto. contradiction.
      + unfold absent in *. now rewrite (proj1 (Ho j n2 n1)). }
  assert (NA : forall j, absent s j = false -> j <> k -> upd (upd K k KMoved) g KDone j = K j).
  { intros j Q n. rewrite !upd_ne; auto. intros ->. destruct G as [->|G]; congruence. }
  constructor.
  - intros j. destruct (Nat.eq_dec j g) as [->|n1]; [rewrite upd_eq; exact Rg|]. rewrite (upd_ne _ _ _ _ n1).
    destruct (Nat.eq_dec j k) as [->|n2]; [rewrite upd_eq; apply Rk; auto|]. rewrite (upd_ne _ _ _ _ n2).
    destruct (Ho j n2 n1) as [-> ->]. apply X.
  - intros d n. destruct (Cd d n) as [-> ->]. reflexivity.
  - exact Cs.
  - left. split; [exact Ct|]. intros j. destruct (Nat.eq_dec j g) as [->|n1]; [rewrite upd_eq; discriminate|]. rewrite (upd_ne _ _ _ _ n1).
    destruct (Nat.eq_dec j k) as [->|n2]; [rewrite upd_eq; discriminate|]. rewrite (upd_ne _ _ _ _ n2). intro Q. apply n2. apply H4. exact Q.
  - exact Wt.
  - intros d j Q. destruct (Nat.eq_dec d c) as [->|n]; [rewrite Cs in Q; discriminate|]. rewrite (proj1 (Cd d n)) in Q.
    destruct (r_rec _ _ _ _ X d j Q) as [Q1 Q2]. split; auto. rewrite NA; auto. intros ->. exact (H5 _ Q).
  - intros w. destruct (Ws w) as [Q|Q]; rewrite Q.
    + pose proof (r_ws _ _ _ _ X w) as P. destruct (H6 w) as (W1 & W2 & W3). destruct (ws s w) as [|j|j|j| |]; cbn in *; auto; destruct P as [P1 P2]; (split; [|auto]).
      all: rewrite NA; auto; congruence.
    + destruct Xx as [->| ->]; cbn; auto. rewrite upd_eq. split; auto. unfold absent. destruct (life_of (hs s' g)); auto. contradiction.
  - intros j. destruct (Nat.eq_dec j g) as [->|n1]; [rewrite upd_eq; discriminate|]. rewrite (upd_ne _ _ _ _ n1).
    destruct (Nat.eq_dec j k) as [->|n2]; [intros _; auto|]. rewrite (upd_ne _ _ _ _ n2). intros Q. apply M1. apply (r_m _ _ _ _ X). exact Q.
Qed.


(** A new handle. *)
Lemma R_new K M s t h x : R K M s t -> absent s h = true -> life_of x = Live -> pr x <> Some c -> R (upd K h KSame) M (set_h h x s) (set_h h x t).
Proof.
  intros X A L P.
  assert (Abs : forall j, absent s j = false -> j <> h /\ absent (set_h h x s) j = false).
  { intros j Q. assert (j <> h) by congruence. split; auto. unfold absent in *. cbn [hs set_h]. now rewrite upd_ne. }
  assert (Kh : K h <> KHere).
  { intro B. pose proof (r_h _ _ _ _ X h) as H. rewrite B in H. destruct H as [H _]. unfold absent in A. rewrite H in A. discriminate A. }
  constructor; cbn [hs co ws set_h]; try apply X.
  - intros j. destruct (Nat.eq_dec j h) as [->|n]; [rewrite !upd_eq; cbn; auto|rewrite !upd_ne by auto; apply X].
  - destruct (r_t _ _ _ _ X) as [[B C]|(k & B & C & D)].
    + left. split; auto. intros j. destruct (Nat.eq_dec j h) as [->|n]; [rewrite upd_eq; discriminate|rewrite upd_ne; auto].
    + right. exists k. split; auto. assert (k <> h) by congruence. rewrite upd_ne by auto. split; auto.
      intros j. destruct (Nat.eq_dec j h) as [->|n]; [rewrite upd_eq; discriminate|rewrite upd_ne; auto].
  - intros d j B. destruct (r_rec _ _ _ _ X d j B) as [Q1 Q2]. destruct (Abs _ Q2). rewrite upd_ne; auto.
  - intros w. pose proof (r_ws _ _ _ _ X w) as Q. destruct (ws s w) as [|j|j|j| |]; cbn in *; auto; destruct Q as [Q1 Q2]; destruct (Abs _ Q2); rewrite upd_ne; auto.
  - intros j. destruct (Nat.eq_dec j h) as [->|n]; [rewrite upd_eq; discriminate|]. rewrite upd_ne by auto. apply X.
Qed.

(** The holder of the noop is moved. *)
Lemma shift K M s t k g : R K M s t -> K k = KHere -> absent s g = true ->
  R (upd (upd K k KMoved) g KHere) (k :: M)
    (set_h g (mkH Live true None (Some (Fresh v)) None None None) (set_h k (mkH Live true None (Some Hollow) None None None) s))
    (set_h g (mkH Live false None None None (Some c) None) (set_h k (mkH Live true (Some XMoved) None None (Some c) None) (set_c c (mkC Ready (Some g)) t))).
Proof.
  intros X B A. destruct (holder _ _ _ _ _ X B) as (H1 & H2 & H3 & H4 & H5 & H6).
  assert (gk : g <> k) by (intros ->; unfold absent in A; rewrite H1 in A; discriminate A).
  set (s' := set_h g _ (set_h k _ s)).
  assert (Abs : forall j, absent s j = false -> j <> g /\ absent s' j = false).
  { intros j Q. assert (j <> g) by congruence. split; auto. unfold absent in *. unfold s'. cbn [hs set_h]. rewrite upd_ne by auto.
    unfold upd. destruct (j =? k); auto. }
  assert (NA : forall j, absent s j = false -> j <> k -> upd (upd K k KMoved) g KHere j = K j).
  { intros j Q n. rewrite !upd_ne; auto. apply Abs. exact Q. }
  constructor; unfold s'; cbn [hs co ws set_h set_c].
  - intros j. destruct (Nat.eq_dec j g) as [->|n1]; [rewrite !upd_eq; cbn; auto|]. rewrite !(upd_ne _ g _ j n1).
    destruct (Nat.eq_dec j k) as [->|n2]; [rewrite !upd_eq; cbn; eauto|]. rewrite !upd_ne by auto. apply X.
  - intros d n. rewrite upd_ne by auto. apply X. exact n.
  - apply X.
  - right. exists g. rewrite !upd_eq. split; auto. split; auto. intros j.
    destruct (Nat.eq_dec j g) as [->|n1]; auto. rewrite (upd_ne _ g _ j n1).
    destruct (Nat.eq_dec j k) as [->|n2]; [rewrite upd_eq; discriminate|]. rewrite upd_ne by auto. intros Q. destruct n2. apply H4. exact Q.
  - apply X.
  - intros d j Q. destruct (r_rec _ _ _ _ X d j Q) as [Q1 Q2]. destruct (Abs _ Q2). rewrite NA; auto. intros ->. exact (H5 _ Q).
  - intros w. pose proof (r_ws _ _ _ _ X w) as P. destruct (H6 w) as (W1 & W2 & W3). destruct (ws s w) as [|j|j|j| |]; cbn in *; auto; destruct P as [P1 P2]; destruct (Abs _ P2); (rewrite NA; [auto|auto|congruence]).
  - intros j. destruct (Nat.eq_dec j g) as [->|n1]; [rewrite upd_eq; discriminate|]. rewrite (upd_ne _ g _ j n1).
    destruct (Nat.eq_dec j k) as [->|n2]; [left; auto|]. rewrite upd_ne by auto. intros Q. right. apply (r_m _ _ _ _ X). exact Q.
Qed.

(** The holder of the noop is destroyed. *)
Lemma dropped K M s t k x y : R K M s t -> K k = KHere -> life_of x = Gone -> life_of y = Gone -> priv y = priv x ->
  R (upd K k KGone) M (set_h k x s) (set_h k y (set_c c (mkC Dead None) t)).
Proof.
  intros X B Lx Ly P. destruct (holder _ _ _ _ _ X B) as (H1 & H2 & H3 & H4 & H5 & H6).
  assert (Abs : forall j, absent s j = false -> absent (set_h k x s) j = false).
  { intros j Q. unfold absent in *. cbn [hs set_h]. unfold upd. destruct (j =? k); auto. now rewrite Lx. }
  constructor; cbn [hs co ws set_h set_c].
  - intros j. destruct (Nat.eq_dec j k) as [->|n1]; [rewrite !upd_eq; cbn; auto|]. rewrite !(upd_ne _ k _ j n1). apply X.
  - intros d n. rewrite upd_ne by auto. apply X. exact n.
  - apply X.
  - left. rewrite upd_eq. split; auto. intros j. destruct (Nat.eq_dec j k) as [->|n2]; [rewrite upd_eq; discriminate|].
    rewrite upd_ne by auto. intros Q. destruct n2. apply H4. exact Q.
  - apply X.
  - intros d j Q. destruct (r_rec _ _ _ _ X d j Q) as [Q1 Q2]. rewrite upd_ne; auto. intros ->. exact (H5 _ Q).
  - intros w. pose proof (r_ws _ _ _ _ X w) as Q. destruct (H6 w) as (W1 & W2 & W3). destruct (ws s w) as [|j|j|j| |]; cbn in *; auto; destruct Q as [P1 P2]; (rewrite upd_ne; [auto|congruence]).
  - intros j. destruct (Nat.eq_dec j k) as [->|n2]; [rewrite upd_eq; discriminate|]. rewrite upd_ne by auto. apply X.
Qed.

Lemma kill_w_hs o (s : state) : hs (fst (kill_w o s)) = hs s /\ co (fst (kill_w o s)) = co s.
Proof. destruct o; auto. Qed.
Lemma live_life (s : state) h : live s h = true -> life_of (hs s h) = Live.
Proof. unfold live. destruct (life_of (hs s h)); congruence. Qed.

(** The waiter registers with a handle whose coroutine waits to be started. *)
Lemma register_R K M s t h d st x o : R K M s t -> K h = KSame -> live s h = true -> d <> c -> places K s x ->
  same K M (let (s1, ev) := kill_w (aw (hs s h)) s in (set_w o x (set_h h (set_aw (Some o) (hs s h)) (set_c d (mkC st (rec (co s d))) s1)), ev))
           (let (s1, ev) := kill_w (aw (hs s h)) t in (set_w o x (set_h h (set_aw (Some o) (hs s h)) (set_c d (mkC st (rec (co s d))) s1)), ev)).
Proof.
  intros X Z L N Px. destruct (kill_w_hs (aw (hs s h)) s) as [E1 E2]. destruct (kill_w_R K M _ _ (aw (hs s h)) X) as [A B].
  destruct (kill_w (aw (hs s h)) s) as [s1 ev], (kill_w (aw (hs s h)) t) as [t1 ev']. cbn in A, B, E1, E2. subst ev'.
  split; [|reflexivity]. cbn [fst].
  pose proof (r_h _ _ _ _ X h) as H. rewrite Z in H. destruct H as [H Hp].
  apply R_w.
  - apply R_h.
    + apply R_c; auto. cbn. intros j Q. unfold absent. rewrite E1. apply (r_rec _ _ _ _ X d j Q).
    + rewrite Z. cbn. auto.
    + intros _. cbn. rewrite (live_life _ _ L). discriminate.
  - refine (places_ext K s _ x _ Px). intros j Q. unfold absent in *. cbn [hs set_h set_c]. unfold upd. destruct (j =? h); [cbn; now rewrite (live_life _ _ L)|]. now rewrite E1.
Qed.

Lemma run_cons l ls (t t1 t2 : state) e1 e2 : step l t = Some (t1, e1) -> run t1 ls = Some (t2, e2) -> run t (l :: ls) = Some (t2, e1 ++ e2).
Proof. intros A B. cbn [run]. now rewrite A, B. Qed.

Definition answers (K : nat -> kind) (M : list nat) (l : label) (s : state) (t : state) : Prop :=
  forall s' e, step l s = Some (s', e) ->
  exists more t' f K', Forall inner more /\ run t (l :: more) = Some (t', f) /\ visible f = visible e /\ R K' (add (moves l) M) s' t'.

Lemma answers_same K K' M l s t : osame K' (add (moves l) M) (step l s) (step l t) -> answers K M l s t.
Proof.
  intros O s' e S. rewrite S in O. destruct O as ([t' f] & T & X & Y). cbn in X, Y. subst f.
  exists [], t', e, K'. cbn [run]. rewrite T, app_nil_r. auto.
Qed.
Lemma answers_none K M l s t : step l s = None -> answers K M l s t.
Proof. intros S s' e Q. congruence. Qed.

Lemma step_R K M s t l : R K M s t -> (forall h, uses l = Some h -> ~ In h M) -> answers K M l s t.
Proof.
  intros X U.
  destruct l as [d h|d h x|d|d|d x|d x|d|d|w h|w g h|w|w|w k|g h|h].
  (* create *)
  - destruct (Nat.eq_dec d c) as [->|N]; [apply answers_none; cbn; now rewrite (r_s _ _ _ _ X)|].
    apply (answers_same _ (upd K h KSame)). cbn [moves add step]. rewrite (r_c _ _ _ _ X d N), (absent_R _ _ _ _ _ X).
    destruct (cs (co s d)); try reflexivity. destruct (absent s h) eqn:A; [|reflexivity].
    apply osame_some. split; [|reflexivity]. cbn [fst].
    apply (R_c (upd K h KSame) M (set_h h _ s) (set_h h _ t)); auto.
    + apply R_new; auto. cbn. congruence.
    + cbn. intros j Q. injection Q as <-. rewrite upd_eq. split; auto. unfold absent. cbn [hs set_h]. rewrite upd_eq. reflexivity.
  (* noop *)
  - destruct (Nat.eq_dec d c) as [->|N]; [apply answers_none; cbn; now rewrite (r_s _ _ _ _ X)|].
    apply (answers_same _ (upd K h KSame)). cbn [moves add step]. rewrite (r_c _ _ _ _ X d N), (absent_R _ _ _ _ _ X).
    destruct (cs (co s d)); try reflexivity. destruct (absent s h) eqn:A; [|reflexivity].
    apply osame_some. split; [|reflexivity]. cbn [fst].
    apply (R_c (upd K h KSame) M (set_h h _ s) (set_h h _ t)); auto.
    + apply R_new; auto. cbn. congruence.
    + cbn. discriminate.
  (* begin *)
  - destruct (Nat.eq_dec d c) as [->|N]; [apply answers_none; cbn; now rewrite (r_s _ _ _ _ X)|].
    apply (answers_same _ K). cbn [moves add step]. rewrite (r_c _ _ _ _ X d N). destruct (cs (co s d)); try reflexivity.
    apply osame_some. split; [|reflexivity]. cbn [fst]. apply R_c; auto. cbn. intros j. apply X.
  (* drop *)
  - destruct (Nat.eq_dec d c) as [->|N]; [apply answers_none; cbn; now rewrite (r_s _ _ _ _ X)|].
    apply (answers_same _ K). cbn [moves add step]. rewrite (r_c _ _ _ _ X d N). destruct (cs (co s d)); try reflexivity.
    apply destroyed_R; auto.
  (* return *)
  - destruct (Nat.eq_dec d c) as [->|N]; [apply answers_none; cbn; now rewrite (r_s _ _ _ _ X)|].
    apply (answers_same _ K). cbn [moves add step]. rewrite (r_c _ _ _ _ X d N). destruct (cs (co s d)); try reflexivity.
    destruct (rec (co s d)) as [h|] eqn:Rc; [|apply osame_some; split; [|reflexivity]; cbn [fst]; apply R_c; auto; discriminate].
    rewrite (live_R _ _ _ _ _ X). destruct (live s h) eqn:L; [|apply osame_some; split; auto].
    destruct (r_rec _ _ _ _ X d h Rc) as [Z A]. pose proof (r_h _ _ _ _ X h) as H. rewrite Z in H. destruct H as [H Hp]. rewrite H.
    apply osame_some; split; [|reflexivity]. cbn [fst]. apply R_h.
    + apply R_c; auto. cbn. intros j Q. injection Q as <-. auto.
    + rewrite Z. cbn. auto.
    + intros _. cbn. unfold live in L. destruct (life_of (hs s h)); discriminate.
  (* throw *)
  - destruct (Nat.eq_dec d c) as [->|N]; [apply answers_none; cbn; now rewrite (r_s _ _ _ _ X)|].
    apply (answers_same _ K). cbn [moves add step]. rewrite (r_c _ _ _ _ X d N). destruct (cs (co s d)); try reflexivity.
    destruct (rec (co s d)) as [h|] eqn:Rc; [|apply osame_some; split; [|reflexivity]; cbn [fst]; apply R_c; auto; discriminate].
    rewrite (live_R _ _ _ _ _ X). destruct (live s h) eqn:L; [|apply osame_some; split; auto].
    destruct (r_rec _ _ _ _ X d h Rc) as [Z A]. pose proof (r_h _ _ _ _ X h) as H. rewrite Z in H. destruct H as [H Hp]. rewrite H.
    apply (osame_pre K M _ _ (fun ev => EThrow d x :: ev)). apply final_R; auto. apply R_h; auto.
    + rewrite Z. cbn. auto.
    + intros _. cbn. unfold live in L. destruct (life_of (hs s h)); discriminate.
  (* final *)
  - destruct (Nat.eq_dec d c) as [->|N]; [apply answers_none; cbn; now rewrite (r_s _ _ _ _ X)|].
    apply (answers_same _ K). cbn [moves add step]. rewrite (r_c _ _ _ _ X d N). destruct (cs (co s d)); try reflexivity.
    apply osame_some. apply final_R; auto.
  (* kill *)
  - destruct (Nat.eq_dec d c) as [->|N]; [apply answers_none; cbn; now rewrite (r_s _ _ _ _ X)|].
    apply (answers_same _ K). cbn [moves add step]. rewrite (r_c _ _ _ _ X d N). destruct (cs (co s d)); try reflexivity.
    apply destroyed_R; auto.
  (* await *)
  - assert (Md : K h <> KMoved) by (intro B; apply (U h eq_refl); apply (r_m _ _ _ _ X); exact B).
    pose proof (r_h _ _ _ _ X h) as H. destruct (K h) eqn:Z; try contradiction.
    + destruct H as [H Hp]. apply (answers_same _ K). cbn [moves add step]. rewrite (r_w _ _ _ _ X), (user_R _ _ _ _ _ X), H.
      destruct (ws s w); try reflexivity. destruct (user s h) eqn:Us; [|reflexivity].
      assert (L : live s h = true) by (unfold user in Us; apply andb_prop in Us; tauto).
      destruct (done (hs s h)).
      * apply (osame_pre K M _ _ (fun r => EAwait w h :: match r with Some r => [EResult w h r] | None => [EBad BEmpty] end)). apply get_result_R; auto.
      * destruct (pr (hs s h)) as [d|]; [|apply osame_some; split; auto].
        assert (N : d <> c) by congruence. rewrite (r_c _ _ _ _ X d N). destruct (cs (co s d)) eqn:Cs; try (apply osame_some; split; auto; fail).
        assert (Pl : places K s (WAwait h)) by (cbn; split; [exact Z|apply not_absent; exact L]).
        destruct (register_R K M s t h d Running (WAwait h) w X Z L N Pl) as [A B].
        destruct (kill_w (aw (hs s h)) s) as [s1 ev], (kill_w (aw (hs s h)) t) as [t1 ev']. cbn in A, B. subst ev'.
        apply osame_some. split; auto.
    + apply (answers_same _ K). cbn [moves add step]. rewrite (r_w _ _ _ _ X), (user_R _ _ _ _ _ X).
      destruct (ws s w); try reflexivity. destruct (user s h) eqn:Us; [|reflexivity].
      assert (L : live s h = true) by (unfold user in Us; apply andb_prop in Us; tauto).
      destruct H as (D & Pr & H). rewrite H, D. cbn [done].
      apply (osame_pre K M _ _ (fun r => EAwait w h :: match r with Some r => [EResult w h r] | None => [EBad BEmpty] end)). apply get_result_R; auto.
    + intros s' e S. cbn in S. destruct (ws s w) eqn:W; try discriminate S. destruct (user s h) eqn:Us; [|discriminate S].
      destruct (holder _ _ _ _ _ X Z) as (H1 & H2 & H3 & H4 & H5 & H6).
      unfold get_result in S. rewrite H1 in S. cbn in S. injection S as <- <-.
      exists [LReturn c v; LFinal c].
      eexists. eexists. exists (upd (upd K h KMoved) h KDone).
      split; [repeat (apply Forall_cons; [unfold Nop_Spec.inner; auto|]); apply Forall_nil|]. split.
      { eapply run_cons; [cbn [step]; rewrite (r_w _ _ _ _ X w), W, (user_R _ _ _ _ _ X), Us, H2; cbn [done pr aw kill_w]; rewrite H3; cbn [cs rec]; reflexivity|].
        eapply run_cons; [cbn [step]; unfold live; repeat (progress (cbn -[upd]; rewrite ?upd_eq)); reflexivity|].
        eapply run_cons; [cbn [step]; unfold final, resume, get_result, live; repeat (progress (cbn -[upd]; rewrite ?upd_eq)); reflexivity|].
        reflexivity. }
      split; [unfold Nop_Spec.visible; cbn; rewrite Nat.eqb_refl; reflexivity|].
      apply (settle K M M s t _ _ h h WIdle); auto; cbn [hs co ws set_h set_c set_w]; rewrite ?upd_eq; cbn; auto.
      * congruence.
      * intros j n _. rewrite !upd_ne by auto. auto.
      * discriminate.
      * congruence.
      * intros d n. rewrite !upd_ne by auto. split; auto. apply X. exact n.
      * apply X.
      * intros j. unfold upd. destruct (Nat.eqb_spec j w) as [->|n]; auto. apply X.
    + apply answers_none. cbn. unfold user, live. destruct H as [-> _]. cbn. destruct (ws s w); reflexivity.
  (* spawn *)
  - assert (Md : K h <> KMoved) by (intro B; apply (U h eq_refl); apply (r_m _ _ _ _ X); exact B).
    pose proof (r_h _ _ _ _ X h) as H.
    destruct (ws s w) eqn:W; try (apply answers_none; cbn; now rewrite W).
    destruct (absent s g && user s h) eqn:AU; [|apply answers_none; cbn; now rewrite W, AU].
    destruct (andb_prop _ _ AU) as [A Us]. assert (L : live s h = true) by (unfold user in Us; apply andb_prop in Us; tauto).
    assert (gh : g <> h) by (intros ->; apply not_absent in L; congruence).
    assert (Plain : K h = KSame \/ K h = KDone -> answers K M (LSpawn w g h) s t).
    { intros Z. destruct (transfer_R K M s t (Some w) g h X Z A L) as (K' & [Y1 Y2] & Y3).
      apply (answers_same _ K'). cbn [moves add step]. rewrite (r_w _ _ _ _ X w), W, (absent_R _ _ _ _ _ X), (user_R _ _ _ _ _ X), AU.
      destruct (transfer (Some w) g h s) as [s1 ev], (transfer (Some w) g h t) as [t1 ev']. cbn in Y1, Y2, Y3. subst ev'.
      destruct ev as [|e0 ev]; [|apply osame_some; split; auto]. destruct (Y3 eq_refl) as (Kg & Lg & Hg). clear Y3.
      pose proof (r_h _ _ _ _ Y1 g) as G. rewrite Kg in G. destruct Z as [Z|Z]; rewrite Z in G, Kg.
      - destruct G as [G Gp]. rewrite G. destruct (done (hs s1 g)).
        + destruct (exc (hs s1 g)); [|destruct (res (hs s1 g)); [|apply osame_some; split; auto]].
          all: apply osame_some; split; [|reflexivity]; cbn [fst]; apply R_w; auto; cbn; split; [auto|apply not_absent; exact Lg].
        + destruct (pr (hs s1 g)) as [d|]; [|apply osame_some; split; auto].
          assert (N : d <> c) by congruence. rewrite (r_c _ _ _ _ Y1 d N). destruct (cs (co s1 d)) eqn:Cs; try (apply osame_some; split; auto; fail).
          assert (Pl : places K' s1 (WSpawn g)) by (cbn; split; [exact Kg|apply not_absent; exact Lg]).
          destruct (register_R K' (h :: M) s1 t1 g d Queued (WSpawn g) w Y1 Kg Lg N Pl) as [P1 P2].
          destruct (kill_w (aw (hs s1 g)) s1) as [s2 ev2], (kill_w (aw (hs s1 g)) t1) as [t2 ev2']. cbn in P1, P2. subst ev2'.
          apply osame_some. split; auto.
      - destruct G as (D & Gp & G). rewrite G, D. cbn [done exc res].
        destruct (exc (hs s1 g)); [|destruct (res (hs s1 g)); [|apply osame_some; split; auto]].
        all: apply osame_some; split; [|reflexivity]; cbn [fst]; apply R_w; auto; cbn; split; [auto|apply not_absent; exact Lg]. }
    destruct (K h) eqn:Z; try contradiction; auto.
    + intros s' e S. destruct (holder _ _ _ _ _ X Z) as (H1 & H2 & H3 & H4 & H5 & H6).
      cbn in S. rewrite W, AU in S. unfold transfer in S. rewrite H1 in S. repeat (progress (cbn -[upd] in S; rewrite ?upd_eq in S)). injection S as <- <-.
      exists [LBegin c; LReturn c v; LFinal c].
      eexists. eexists. exists (upd (upd K h KMoved) g KDone).
      split; [repeat (apply Forall_cons; [unfold Nop_Spec.inner; auto|]); apply Forall_nil|]. split.
      { eapply run_cons; [cbn [step]; rewrite (r_w _ _ _ _ X w), W, (absent_R _ _ _ _ _ X), (user_R _ _ _ _ _ X), AU; unfold transfer, frame; rewrite H2; cbn [done exc pr]; rewrite H3; repeat (progress (cbn -[upd]; rewrite ?upd_eq)); reflexivity|].
        eapply run_cons; [cbn [step]; repeat (progress (cbn -[upd]; rewrite ?upd_eq)); reflexivity|].
        eapply run_cons; [cbn [step]; unfold live; repeat (progress (cbn -[upd]; rewrite ?upd_eq)); reflexivity|].
        eapply run_cons; [cbn [step]; unfold final, resume, get_result, live; repeat (progress (cbn -[upd]; rewrite ?upd_eq)); reflexivity|].
        reflexivity. }
      split; [unfold Nop_Spec.visible; cbn; rewrite Nat.eqb_refl; reflexivity|].
      apply (settle K M (h :: M) s t _ _ h g (WPosted g)); auto; cbn [hs co ws set_h set_c set_w]; rewrite ?upd_eq; cbn; auto.
      * intros j n n'. rewrite !upd_ne by auto. auto.
      * discriminate.
      * intros _. rewrite !(upd_ne _ g _ h) by auto. rewrite !upd_eq. split; [eexists; split; reflexivity|discriminate].
      * intros d n. rewrite !upd_ne by auto. split; auto. apply X. exact n.
      * apply X.
      * intros j. unfold upd. destruct (Nat.eqb_spec j w) as [->|n]; auto. apply X.
      * intros j. unfold upd. destruct (Nat.eqb_spec j w) as [->|n]; auto.
    + exfalso. unfold live in L. rewrite (proj1 H) in L. discriminate L.
  (* handler *)
  - apply (answers_same _ K). cbn [moves add step]. pose proof (r_ws _ _ _ _ X w) as P. rewrite (r_w _ _ _ _ X).
    destruct (ws s w) as [|h|h|h| |]; try reflexivity. cbn in P. rewrite (live_R _ _ _ _ _ X). destruct (live s h) eqn:L; [|apply osame_some; split; auto].
    apply osame_some. pose proof (r_h _ _ _ _ X h) as H. destruct P as [P A]. split.
    + cbn [fst]. apply R_w; [|exact Logic.I]. apply R_h; auto.
      * destruct P as [P|P]; rewrite P in *; destruct H as [H1 H2]; [rewrite H1; cbn; auto|]. destruct H2 as [H2 ->]. cbn. auto.
      * intros _. discriminate.
    + cbn [snd]. destruct P as [P|P]; rewrite P in *; destruct H as [H1 H2]; [rewrite H1; reflexivity|]. destruct H2 as [H2 ->]. reflexivity.
  (* interrupt *)
  - apply (answers_same _ K). cbn [moves add step]. pose proof (r_ws _ _ _ _ X w) as P. rewrite (r_w _ _ _ _ X).
    destruct (ws s w) as [|h|h|h| |]; try reflexivity. cbn in P. rewrite (live_R _ _ _ _ _ X). destruct (live s h) eqn:L; [|apply osame_some; split; auto].
    pose proof (r_h _ _ _ _ X h) as H. destruct P as [P A]. rewrite P in H. destruct H as [H Hp]. rewrite H.
    destruct (aw (hs s h)) as [w'|]; [|apply osame_some; split; auto]. destruct (w' =? w); [|apply osame_some; split; auto].
    apply osame_some. split; [|reflexivity]. cbn [fst]. apply R_w; [|exact Logic.I]. apply R_h; auto.
    * rewrite P. cbn. auto.
    * intros _. unfold live in L. cbn. destruct (life_of (hs s h)); discriminate.
  (* signal *)
  - apply (answers_same _ K). cbn [moves add step]. pose proof (r_ws _ _ _ _ X w) as P. rewrite (r_w _ _ _ _ X).
    assert (Q : forall h, K h = KSame -> hs t h = hs s h /\ (forall d, pr (hs s h) = Some d -> frame t d = frame s d)).
    { intros h Z. pose proof (r_h _ _ _ _ X h) as H. rewrite Z in H. destruct H as [H Hp]. split; auto. intros d Q. apply (frame_R _ _ _ _ _ X). congruence. }
    destruct (ws s w) as [|h|h|h| |]; try reflexivity; cbn in P.
    + destruct (Q h (proj1 P)) as [-> F]. destruct (pr (hs s h)) as [d|]; [rewrite (F d eq_refl)|]; apply osame_some; split; auto.
    + destruct (Q h (proj1 P)) as [-> F]. destruct (done (hs s h)); [apply osame_some; split; auto|].
      destruct (pr (hs s h)) as [d|]; [rewrite (F d eq_refl)|]; apply osame_some; split; auto.
    + destruct P as [[P|P] A].
      * destruct (Q h P) as [-> F]. destruct (done (hs s h)); [apply osame_some; split; auto|].
        destruct (pr (hs s h)) as [d|]; [rewrite (F d eq_refl)|]; apply osame_some; split; auto.
      * pose proof (r_h _ _ _ _ X h) as H. rewrite P in H. destruct H as (D & _ & H). rewrite H, D. cbn. apply osame_some; split; auto.
    + apply osame_some; split; auto.
  (* move *)
  - assert (Md : K h <> KMoved) by (intro B; apply (U h eq_refl); apply (r_m _ _ _ _ X); exact B).
    pose proof (r_h _ _ _ _ X h) as H.
    destruct (absent s g && user s h) eqn:AU; [|apply answers_none; cbn; now rewrite AU].
    destruct (andb_prop _ _ AU) as [A Us]. assert (L : live s h = true) by (unfold user in Us; apply andb_prop in Us; tauto).
    assert (Plain : K h = KSame \/ K h = KDone -> answers K M (LMove g h) s t).
    { intros Z. destruct (transfer_R K M s t None g h X Z A L) as (K' & Y & _).
      apply (answers_same _ K'). cbn [moves add step]. rewrite (absent_R _ _ _ _ _ X), (user_R _ _ _ _ _ X), AU.
      apply (osame_pre K' (h :: M) _ _ (fun ev => EMove g h :: ev)). exact Y. }
    destruct (K h) eqn:Z; try contradiction; auto.
    + intros s' e S. destruct (holder _ _ _ _ _ X Z) as (H1 & H2 & H3 & H4 & H5 & H6).
      cbn in S. rewrite AU in S. unfold transfer in S. rewrite H1 in S. cbn -[upd] in S. injection S as <- <-.
      exists []. eexists. eexists. exists (upd (upd K h KMoved) g KHere). split; [apply Forall_nil|]. split.
      { eapply run_cons; [cbn [step]; rewrite (absent_R _ _ _ _ _ X), (user_R _ _ _ _ _ X), AU; unfold transfer, frame; rewrite H2; cbn [done exc pr]; rewrite H3; cbn -[upd]; reflexivity|reflexivity]. }
      split; [reflexivity|]. cbn [moves add]. apply shift; auto.
    + exfalso. unfold live in L. rewrite (proj1 H) in L. discriminate L.
  (* destroy *)
  - pose proof (r_h _ _ _ _ X h) as H.
    destruct (user s h) eqn:Us; [|apply answers_none; cbn; now rewrite Us].
    assert (L : live s h = true) by (unfold user in Us; apply andb_prop in Us; tauto).
    assert (Gon : forall (s0 t0 : state) ev, R K M s0 t0 -> hs s0 h = hs s h -> hs t0 h = hs t h -> K h = KSame \/ K h = KDone \/ K h = KMoved ->
       same K M (let (s1, e1) := kill_w (aw (hs s h)) s0 in (set_h h (set_life Gone (set_aw None (hs s1 h))) s1, ev ++ e1))
                (let (s1, e1) := kill_w (aw (hs s h)) t0 in (set_h h (set_life Gone (set_aw None (hs s1 h))) s1, ev ++ e1))).
    { intros s0 t0 ev X0 E1 E2 Z. destruct (kill_w_hs (aw (hs s h)) s0) as [F1 _]. destruct (kill_w_hs (aw (hs s h)) t0) as [F2 _].
      destruct (kill_w_R K M _ _ (aw (hs s h)) X0) as [P1 P2]. destruct (kill_w (aw (hs s h)) s0) as [s1 e1], (kill_w (aw (hs s h)) t0) as [t1 e2]. cbn in *. subst e2.
      split; [|reflexivity]. cbn [fst]. rewrite F1, F2, E1, E2. apply R_h; auto.
      - destruct Z as [Z|[Z|Z]]; rewrite Z in *.
        + destruct H as [-> H]. cbn. auto.
        + destruct H as (D & Q & ->). cbn. auto.
        + destruct H as (l & Q1 & Q2). rewrite Q1, Q2. cbn. exists Gone. auto.
      - intros _. discriminate. }
    destruct (K h) eqn:Z.
    + destruct H as [H Hp]. apply (answers_same _ K). cbn [moves add step]. rewrite (user_R _ _ _ _ _ X), Us, H.
      assert (G : forall (s0 t0 : state) ev, R K M s0 t0 -> hs s0 h = hs s h -> hs t0 h = hs t h ->
       osame K M (let (s1, e1) := kill_w (aw (hs s h)) s0 in Some (set_h h (set_life Gone (set_aw None (hs s1 h))) s1, ev ++ e1))
                (let (s1, e1) := kill_w (aw (hs s h)) t0 in Some (set_h h (set_life Gone (set_aw None (hs s1 h))) s1, ev ++ e1))).
      { intros s0 t0 ev X0 E1 E2. pose proof (Gon s0 t0 ev X0 E1 E2 (or_introl eq_refl)) as Q.
        destruct (kill_w (aw (hs s h)) s0) as [s1 e1], (kill_w (aw (hs s h)) t0) as [t1 e2]. apply osame_some. exact Q. }
      destruct (done (hs s h)); [apply (G s t [EDestroy h]); auto|].
      destruct (pr (hs s h)) as [d|]; [|apply (G s t [EDestroy h]); auto].
      assert (N : d <> c) by congruence. rewrite (frame_R _ _ _ _ _ X N), (r_c _ _ _ _ X d N).
      destruct (frame s d); [|apply osame_some; split; auto].
      destruct (rec (co s d)) as [h'|]; [|apply (G s t [EDestroy h]); auto].
      destruct (h' =? h); [|apply (G s t [EDestroy h]); auto].
      assert (Xc : forall st, R K M (set_c d (mkC st None) s) (set_c d (mkC st None) t)) by (intros st; apply R_c; auto; discriminate).
      destruct (cs (co s d)); try (apply (G (set_c d _ s) (set_c d _ t) [EDestroy h]); auto; fail).
      all: apply (G (set_c d _ s) (set_c d _ t) [EDestroy h; EDiscard d]); auto.
    + apply (answers_same _ K). cbn [moves add step]. rewrite (user_R _ _ _ _ _ X), Us. pose proof H as H0. destruct H as (D & Q & H). rewrite H, D. cbn [done aw].
      pose proof (Gon s t [EDestroy h] X eq_refl eq_refl (or_intror (or_introl eq_refl))) as P.
      destruct (kill_w (aw (hs s h)) s) as [s1 e1], (kill_w (aw (hs s h)) t) as [t1 e2]. apply osame_some. exact P.
    + apply (answers_same _ K). cbn [moves add step]. rewrite (user_R _ _ _ _ _ X), Us. pose proof (Gon s t [EDestroy h] X eq_refl eq_refl (or_intror (or_intror eq_refl))) as P.
      destruct H as (l & Q1 & Q2). rewrite Q1 in P |- *. rewrite Q2. cbn [done aw]. cbn [kill_w aw] in P |- *. apply osame_some. exact P.
    + intros s' e S. destruct (holder _ _ _ _ _ X Z) as (H1 & H2 & H3 & H4 & H5 & H6).
      cbn in S. rewrite Us, H1 in S. cbn -[upd] in S. rewrite H1 in S. injection S as <- <-.
      exists []. eexists. eexists. exists (upd K h KGone). split; [apply Forall_nil|]. split.
      { eapply run_cons; [cbn [step]; rewrite (user_R _ _ _ _ _ X), Us; unfold frame; rewrite H2; cbn [done pr]; rewrite H3; cbn -[upd Nat.eqb]; rewrite Nat.eqb_refl, H2; reflexivity|reflexivity]. }
      split; [unfold Nop_Spec.visible; cbn; rewrite Nat.eqb_refl; reflexivity|]. cbn [moves add]. apply dropped; auto.
    + exfalso. unfold live in L. rewrite (proj1 H) in L. discriminate L.
Qed.

Lemma filled_inner more r r' : Forall inner more -> filled r r' -> filled r (more ++ r').
Proof. intros F. induction F; cbn; auto. intros Q. apply filled_more; auto. Qed.

Lemma run_app (a b : list label) : forall s, run s (a ++ b) = match run s a with None => None | Some (s1, e1) => match run s1 b with None => None | Some (s2, e2) => Some (s2, e1 ++ e2) end end.
Proof.
  induction a as [|l r IH]; intros s; cbn [run app].
  - destruct (run s b) as [[s2 e2]|]; reflexivity.
  - destruct (step l s) as [[s1 e1]|]; [|reflexivity]. rewrite IH. destruct (run s1 r) as [[s2 e2]|]; [|reflexivity].
    destruct (run s2 b) as [[s3 e3]|]; [|reflexivity]. now rewrite app_assoc.
Qed.

Lemma run_R ls : forall K M s t s' e, R K M s t -> keeps M ls -> run s ls = Some (s', e) ->
  exists ls' t' f, filled ls ls' /\ run t ls' = Some (t', f) /\ visible f = visible e.
Proof.
  induction ls as [|l r IH]; intros K M s t s' e X Kp Rn; cbn [run] in Rn.
  - injection Rn as <- <-. exists [], t, []. split; [constructor|]. auto.
  - destruct Kp as [U Kp]. destruct (step l s) as [[s1 e1]|] eqn:S; [|discriminate Rn].
    destruct (run s1 r) as [[s2 e2]|] eqn:Rr; [|discriminate Rn]. injection Rn as <- <-.
    destruct (step_R K M s t l X U s1 e1 S) as (more & t1 & f1 & K1 & Fm & T1 & V1 & X1).
    destruct (IH K1 _ s1 t1 s2 e2 X1 Kp Rr) as (r' & t2 & f2 & F2 & T2 & V2).
    exists (l :: more ++ r'), t2, (f1 ++ f2). split; [|split].
    + apply filled_keep. apply filled_inner; auto.
    + change (l :: more ++ r') with ((l :: more) ++ r'). rewrite run_app, T1, T2. reflexivity.
    + now rewrite !visible_app, V1, V2.
Qed.

(** What every history keeps. *)
Record Inv (s : state) : Prop := mkInv {
  i_rec : forall d h, rec (co s d) = Some h -> absent s h = false;
  i_ws : forall w, match ws s w with WAwait h | WSpawn h | WPosted h => absent s h = false | _ => True end;
  i_pr : forall h d, pr (hs s h) = Some d -> cs (co s d) <> NotYet }.

End Sim.

Lemma Inv_init : Inv init.
Proof. constructor; cbn; auto; discriminate. Qed.
Lemma inv_h s h x : Inv s -> (absent s h = false -> life_of x <> Absent) -> (pr x = pr (hs s h) \/ pr x = None) -> Inv (set_h h x s).
Proof.
  intros [A B C] L P.
  assert (Abs : forall j, absent s j = false -> absent (set_h h x s) j = false).
  { intros j Q. unfold absent. cbn [hs set_h]. unfold upd. destruct (Nat.eqb_spec j h) as [->|]; [|exact Q]. specialize (L Q). destruct (life_of x); auto; contradiction. }
  constructor.
  - intros d k Q. apply Abs. apply (A d). exact Q.
  - intros w. specialize (B w). cbn [ws set_h]. destruct (ws s w); auto.
  - intros k d. cbn [hs co set_h]. unfold upd. destruct (Nat.eqb_spec k h) as [->|]; [|apply C]. destruct P as [-> | ->]; [apply C|discriminate].
Qed.
Lemma inv_c s d x : Inv s -> (forall h, rec x = Some h -> absent s h = false) -> (cs (co s d) <> NotYet -> cs x <> NotYet) -> Inv (set_c d x s).
Proof.
  intros [A B C] P N. constructor; cbn [hs co ws set_c].
  - intros k h. unfold upd. destruct (Nat.eqb_spec k d) as [->|]; [apply P|apply A].
  - intros w. apply (B w).
  - intros h k Q. unfold upd. destruct (Nat.eqb_spec k d) as [->|]; [|apply (C h); exact Q]. apply N. apply (C h). exact Q.
Qed.
Lemma inv_w s w x : Inv s -> (match x with WAwait h | WSpawn h | WPosted h => absent s h = false | _ => True end) -> Inv (set_w w x s).
Proof. intros [A B C] P. constructor; auto. intros k. cbn [ws set_w]. unfold upd. destruct (k =? w); auto. apply B. Qed.

Lemma life_na (s : state) h : live s h = true -> life_of (hs s h) <> Absent.
Proof. intros L. rewrite (live_life _ _ L). discriminate. Qed.
Lemma inv_get s h : Inv s -> live s h = true -> Inv (fst (get_result h s)).
Proof.
  intros X L. pose proof (life_na _ _ L). unfold get_result. destruct (exc (hs s h)); [destruct (done (hs s h))|destruct (res (hs s h))]; cbn [fst]; auto; apply inv_h; auto.
Qed.
Lemma inv_kill o s : Inv s -> Inv (fst (kill_w o s)).
Proof. intros X. destruct o; cbn [kill_w fst]; auto. apply inv_w; auto. Qed.
Lemma inv_resume w s : Inv s -> Inv (fst (resume w s)).
Proof.
  intros X. pose proof (i_ws _ X w) as P. unfold resume. destruct (ws s w) as [|h|h|h| |]; auto.
  - destruct (live s h) eqn:L; auto. assert (Y : Inv (fst (get_result h (set_w w WIdle s)))) by (apply inv_get; auto; apply inv_w; auto; exact Logic.I).
    destruct (get_result h (set_w w WIdle s)) as [s1 [r|]]; auto.
  - cbn [fst]. apply inv_w; auto.
Qed.
Lemma inv_final d s : Inv s -> Inv (fst (final d s)).
Proof.
  intros X. unfold final. assert (X1 : Inv (set_c d (mkC Dead None) s)) by (apply inv_c; auto; discriminate).
  destruct (rec (co s d)) as [h|]; [|exact X1]. destruct (live s h) eqn:L; [|exact X]. destruct (aw (hs s h)) as [w|]; [|exact X1].
  assert (Y : Inv (fst (resume w (set_h h (set_aw None (hs s h)) (set_c d (mkC Dead None) s))))).
  { apply inv_resume. apply inv_h; auto. intros _. cbn. apply life_na. exact L. }
  destruct (resume w _) as [s2 ev]. exact Y.
Qed.
Lemma inv_destroyed d e s s' ev : Inv s -> destroyed d e s = Some (s', ev) -> Inv s'.
Proof.
  intros X. unfold destroyed. assert (X1 : Inv (set_c d (mkC Dead None) s)) by (apply inv_c; auto; discriminate).
  destruct (rec (co s d)) as [h|]; [|intros Q; injection Q as <- _; exact X1]. destruct (live s h) eqn:L; [|intros Q; injection Q as <- _; exact X].
  match goal with |- context[kill_w (aw (hs s h)) ?z] => assert (Y : Inv (fst (kill_w (aw (hs s h)) z))) end.
  { apply inv_kill. apply inv_h; auto. intros _. cbn. apply life_na. exact L. }
  destruct (kill_w _ _) as [s2 e2]. intros Q; injection Q as <- _. exact Y.
Qed.
(** A copy of a handle in a place that was free. *)
Lemma inv_new s g d x : Inv s -> absent s g = true -> (pr x = None \/ pr x = Some d /\ cs (co s d) <> NotYet) -> Inv (set_h g x s).
Proof.
  intros [A B C] Ab P.
  assert (Abs : forall j, absent s j = false -> absent (set_h g x s) j = false).
  { intros j Q. unfold absent. cbn [hs set_h]. rewrite upd_ne; [exact Q|congruence]. }
  constructor.
  - intros k h Q. apply Abs. apply (A k). exact Q.
  - intros w. specialize (B w). cbn [ws set_h]. destruct (ws s w); auto.
  - intros k d'. cbn [hs co set_h]. unfold upd. destruct (Nat.eqb_spec k g) as [->|]; [|apply C]. destruct P as [-> |[-> Q]]; [discriminate|]. congruence.
Qed.
Lemma inv_transfer p g h s : Inv s -> absent s g = true -> live s h = true -> Inv (fst (transfer p g h s)).
Proof.
  intros X Ab L. pose proof (life_na _ _ L) as La. assert (gh : g <> h) by (intros ->; apply not_absent in L; congruence).
  assert (Y : forall e, Inv (set_h g (mkH Live (done (hs s h)) (exc (hs s h)) (res (hs s h)) (aw (hs s h)) (pr (hs s h)) p)
     (set_h h (mkH (life_of (hs s h)) true e (hollow (res (hs s h))) None (pr (hs s h)) (priv (hs s h))) s))).
  { intros e. assert (Z : Inv (set_h h (mkH (life_of (hs s h)) true e (hollow (res (hs s h))) None (pr (hs s h)) (priv (hs s h))) s)) by (apply inv_h; auto).
    assert (A1 : absent (set_h h (mkH (life_of (hs s h)) true e (hollow (res (hs s h))) None (pr (hs s h)) (priv (hs s h))) s) g = true) by (unfold absent; cbn [hs set_h]; rewrite upd_ne by auto; exact Ab).
    destruct (pr (hs s h)) as [d|] eqn:P; [apply (inv_new _ g d)|apply (inv_new _ g 0)]; auto. right. split; auto. cbn [co set_h]. apply (i_pr _ X h). exact P. }
  unfold transfer. destruct (done (hs s h)) eqn:D; [apply Y|]. destruct (exc (hs s h)) eqn:Ex; [apply Y|].
  destruct (pr (hs s h)) as [d|] eqn:P; [|exact X]. destruct (frame s d) eqn:F; [|exact X]. cbn [fst].
  specialize (Y (Some XMoved)). unfold frame in F.
  assert (N : cs (co s d) <> NotYet) by (intro Q; rewrite Q in F; discriminate F).
  match goal with |- Inv ?z => change z with (set_c d (mkC (cs (co s d)) (Some g)) (set_h g (mkH Live false None (res (hs s h)) (aw (hs s h)) (Some d) p) (set_h h (mkH (life_of (hs s h)) true (Some XMoved) (hollow (res (hs s h))) None (Some d) (priv (hs s h))) s))) end.
  apply inv_c; [exact Y| |intros _; exact N]. intros k Q. cbn in Q. injection Q as <-. unfold absent. cbn [hs set_h]. rewrite upd_eq. reflexivity.
Qed.
Lemma user_live (s : state) h : user s h = true -> live s h = true.
Proof. unfold user. intros U. apply andb_prop in U. tauto. Qed.
Lemma inv_gone h o s : Inv s -> Inv (let (s1, e1) := kill_w o s in set_h h (set_life Gone (set_aw None (hs s1 h))) s1).
Proof. intros X. pose proof (inv_kill o s X) as Y. destruct (kill_w o s) as [s1 e1]. cbn [fst] in Y. apply inv_h; auto. intros _. discriminate. Qed.
Lemma inv_register s h d st x o : Inv s -> live s h = true -> cs (co s d) <> NotYet /\ st <> NotYet -> match x with WAwait k | WSpawn k | WPosted k => k = h | _ => True end ->
  Inv (let (s1, ev) := kill_w (aw (hs s h)) s in set_w o x (set_h h (set_aw (Some o) (hs s h)) (set_c d (mkC st (rec (co s d))) s1))).
Proof.
  intros X L [N1 N2] Px. destruct (kill_w_hs (aw (hs s h)) s) as [E1 E2]. pose proof (inv_kill (aw (hs s h)) s X) as Y.
  destruct (kill_w (aw (hs s h)) s) as [s1 ev]. cbn [fst] in *.
  apply inv_w.
  - apply inv_h.
    + apply inv_c; auto. cbn. intros k Q. unfold absent. rewrite E1. apply (i_rec _ X d k Q).
    + intros _. cbn. apply life_na. exact L.
    + left. cbn [hs set_c set_aw pr]. now rewrite E1.
  - destruct x; auto; subst; unfold absent; cbn [hs set_h set_c]; rewrite upd_eq; cbn; now rewrite (live_life _ _ L).
Qed.

Lemma step_Inv l s s' e : Inv s -> step l s = Some (s', e) -> Inv s'.
Proof.
  intros X S. destruct l as [d h|d h x|d|d|d x|d x|d|d|w h|w g h|w|w|w k|g h|h]; cbn [step] in S.
  - destruct (cs (co s d)) eqn:C; try discriminate S. destruct (absent s h) eqn:A; [|discriminate S]. injection S as <- _.
    match goal with |- Inv ?z => change z with (set_h h (mkH Live false None None None (Some d) None) (set_c d (mkC Ready (Some h)) s)) end.
    constructor; cbn [hs co ws set_h set_c].
    + intros k j. unfold absent. cbn [hs set_h set_c]. unfold upd. destruct (Nat.eqb_spec k d) as [->|n].
      * cbn. intros Q. injection Q as <-. now rewrite Nat.eqb_refl.
      * intros Q. destruct (j =? h); [reflexivity|]. apply (i_rec _ X k). exact Q.
    + intros w. pose proof (i_ws _ X w) as P. destruct (ws s w); auto; unfold absent; cbn [hs set_h set_c]; unfold upd; destruct (_ =? h); auto.
    + intros k j. unfold upd. destruct (Nat.eqb_spec k h) as [->|n].
      * cbn. intros Q. injection Q as <-. rewrite Nat.eqb_refl. discriminate.
      * intros Q. destruct (j =? d); [discriminate|]. apply (i_pr _ X k). exact Q.
  - destruct (cs (co s d)) eqn:C; try discriminate S. destruct (absent s h) eqn:A; [|discriminate S]. injection S as <- _.
    apply (inv_new _ h 0); [|exact A|left; reflexivity]. apply inv_c; auto; discriminate.
  - destruct (cs (co s d)); try discriminate S. injection S as <- _. apply inv_c; auto; [|discriminate]. cbn. apply (i_rec _ X).
  - destruct (cs (co s d)); try discriminate S. exact (inv_destroyed _ _ _ _ _ X S).
  - destruct (cs (co s d)); try discriminate S. destruct (rec (co s d)) as [h|] eqn:Rc.
    + destruct (live s h) eqn:L; injection S as <- _; auto. apply inv_h; auto.
      * apply inv_c; auto; [|discriminate]. cbn. intros k Q. injection Q as <-. apply (i_rec _ X d). exact Rc.
      * intros _. cbn. apply life_na. exact L.
    + injection S as <- _. apply inv_c; auto; discriminate.
  - destruct (cs (co s d)); try discriminate S. destruct (rec (co s d)) as [h|] eqn:Rc.
    + destruct (live s h) eqn:L; [|injection S as <- _; auto].
      match type of S with context[final d ?z] => pose proof (inv_final d z) as Y; destruct (final d z) as [s1 ev] end. injection S as <- _. apply Y.
      apply inv_h; auto. intros _. cbn. apply life_na. exact L.
    + injection S as <- _. apply inv_c; auto; discriminate.
  - destruct (cs (co s d)); try discriminate S. pose proof (inv_final d s X) as Y. injection S as S. rewrite S in Y. exact Y.
  - destruct (cs (co s d)); try discriminate S. exact (inv_destroyed _ _ _ _ _ X S).
  - destruct (ws s w); try discriminate S. destruct (user s h) eqn:U; [|discriminate S]. pose proof (user_live _ _ U) as L.
    destruct (done (hs s h)).
    + pose proof (inv_get s h X L) as Y. destruct (get_result h s) as [s1 r]. injection S as <- _. exact Y.
    + destruct (pr (hs s h)) as [d|]; [|injection S as <- _; exact X]. pose proof (inv_register s h d Running (WAwait h) w X L) as Y.
      destruct (cs (co s d)); try (injection S as <- _; exact X). destruct (kill_w _ s) as [s1 ev]. injection S as <- _. apply Y; auto. split; discriminate.
  - destruct (ws s w); try discriminate S. destruct (absent s g) eqn:A; [|discriminate S]. destruct (user s h) eqn:U; [|discriminate S]. pose proof (user_live _ _ U) as L. cbn [andb] in S.
    pose proof (inv_transfer (Some w) g h s X A L) as Y.
    assert (Lg : snd (transfer (Some w) g h s) = [] -> live (fst (transfer (Some w) g h s)) g = true).
    { unfold transfer, live. destruct (done (hs s h)), (exc (hs s h)); [| | |destruct (pr (hs s h)); [destruct (frame s _)|]]; cbn; rewrite ?upd_eq; auto; discriminate. }
    destruct (transfer (Some w) g h s) as [s1 ev]. cbn [fst snd] in Y, Lg. destruct ev; [|injection S as <- _; exact Y]. specialize (Lg eq_refl).
    destruct (done (hs s1 g)).
    + assert (Z : Inv (set_w w (WPosted g) s1)) by (apply inv_w; auto; apply not_absent; exact Lg).
      destruct (exc (hs s1 g)); [|destruct (res (hs s1 g))]; injection S as <- _; auto.
    + destruct (pr (hs s1 g)) as [d|]; [|injection S as <- _; exact Y]. pose proof (inv_register s1 g d Queued (WSpawn g) w Y Lg) as Z.
      destruct (cs (co s1 d)); try (injection S as <- _; exact Y). destruct (kill_w _ s1) as [s2 ev]. injection S as <- _. apply Z; auto. split; discriminate.
  - destruct (ws s w) as [|h|h|h| |]; try discriminate S. destruct (live s h) eqn:L; injection S as <- _; auto. apply inv_w; [|exact Logic.I]. apply inv_h; auto. intros _. discriminate.
  - destruct (ws s w) as [|h|h|h| |]; try discriminate S. destruct (live s h) eqn:L; [|injection S as <- _; auto]. destruct (aw (hs s h)) as [w'|]; [|injection S as <- _; auto].
    destruct (w' =? w); injection S as <- _; auto. apply inv_w; [|exact Logic.I]. apply inv_h; auto. intros _. cbn. apply life_na. exact L.
  - destruct (ws s w) as [|h|h|h| |]; try discriminate S; try (destruct (done (hs s h))); try (destruct (pr (hs s h))); injection S as <- _; exact X.
  - destruct (absent s g) eqn:A; [|discriminate S]. destruct (user s h) eqn:U; [|discriminate S]. pose proof (user_live _ _ U) as L. cbn [andb] in S.
    pose proof (inv_transfer None g h s X A L) as Y. destruct (transfer None g h s) as [s1 ev]. injection S as <- _. exact Y.
  - destruct (user s h) eqn:U; [|discriminate S].
    pose proof (fun s0 => inv_gone h (aw (hs s h)) s0) as G.
    destruct (done (hs s h)).
    { specialize (G s X). destruct (kill_w _ s) as [s1 ev]. injection S as <- _. exact G. }
    destruct (pr (hs s h)) as [d|].
    2: { specialize (G s X). destruct (kill_w _ s) as [s1 ev]. injection S as <- _. exact G. }
    destruct (frame s d); [|injection S as <- _; exact X].
    assert (Xc : forall st, st <> NotYet -> Inv (set_c d (mkC st None) s)) by (intros st N; apply inv_c; auto; discriminate).
    destruct (rec (co s d)) as [h'|].
    2: { specialize (G s X). destruct (kill_w _ s) as [s1 ev]. injection S as <- _. exact G. }
    destruct (h' =? h).
    2: { specialize (G s X). destruct (kill_w _ s) as [s1 ev]. injection S as <- _. exact G. }
    assert (Xd : forall st, st <> NotYet -> Inv (let (s1, e1) := kill_w (aw (hs s h)) (set_c d (mkC st None) s) in set_h h (set_life Gone (set_aw None (hs s1 h))) s1)) by auto.
    assert (Nc : cs (co s d) = NotYet -> Inv s').
    { intros Q. rewrite Q in S. specialize (G (set_c d (mkC NotYet None) s)). destruct (kill_w _ _) as [s1 ev]. injection S as <- _. apply G. apply inv_c; auto; discriminate. }
    destruct (cs (co s d)); auto;
      match type of S with context[kill_w (aw (hs s h)) (set_c d (mkC ?st None) s)] => specialize (Xd st); destruct (kill_w (aw (hs s h)) (set_c d (mkC st None) s)) as [s1 ev] end; injection S as <- _; apply Xd; discriminate.
Qed.
Lemma run_Inv ls : forall s s' e, Inv s -> run s ls = Some (s', e) -> Inv s'.
Proof.
  induction ls as [|l r IH]; intros s s' e X Q; cbn [run] in Q; [injection Q as <- _; exact X|].
  destruct (step l s) as [[s1 e1]|] eqn:S; [|discriminate Q]. destruct (run s1 r) as [[s2 e2]|] eqn:Rr; [|discriminate Q]. injection Q as <- _.
  apply (IH s1 s2 e2); auto. exact (step_Inv _ _ _ _ X S).
Qed.

(** After the creation. *)
Lemma made_R c h v s s1 t1 e1 f1 M : Inv s -> step (LNoop c h v) s = Some (s1, e1) -> step (LCreate c h) s = Some (t1, f1) ->
  R c v (upd (fun _ => KSame) h KHere) M s1 t1 /\ e1 = [ECreate c h; EReturn c v; EFinal c] /\ f1 = [ECreate c h].
Proof.
  intros X A B. cbn [step] in A, B. destruct (cs (co s c)) eqn:C; try discriminate. destruct (absent s h) eqn:Ab; [|discriminate].
  injection A as <- <-. injection B as <- <-. split; [|split; reflexivity].
  assert (Abs : forall j, absent s j = false -> j <> h /\ absent (set_h h (mkH Live true None (Some (Fresh v)) None None None) (set_c c (mkC Dead None) s)) j = false).
  { intros j Q. assert (j <> h) by congruence. split; auto. unfold absent. cbn [hs set_h]. now rewrite upd_ne. }
  constructor; cbn [hs co ws set_h set_c].
  - intros k. destruct (Nat.eq_dec k h) as [->|n]; [rewrite !upd_eq; cbn; auto|]. rewrite !upd_ne by auto. cbn. split; auto.
    intros Q. apply (i_pr _ X k c Q). exact C.
  - intros d n. now rewrite !upd_ne.
  - apply upd_eq.
  - right. exists h. rewrite !upd_eq. split; [reflexivity|]. split; [reflexivity|]. intros k. unfold upd. destruct (Nat.eqb_spec k h); [auto|discriminate].
  - reflexivity.
  - intros d k. unfold upd at 1. destruct (Nat.eqb_spec d c) as [->|n]; [discriminate|]. intros Q. destruct (Abs _ (i_rec _ X d k Q)). rewrite upd_ne; auto.
  - intros w. pose proof (i_ws _ X w) as P. destruct (ws s w); cbn; auto; destruct (Abs _ P); rewrite upd_ne; auto.
  - intros k. unfold upd. destruct (k =? h); discriminate.
Qed.
End Nop.
