(** * Proofs about the socket objects *)
From Coq Require Import List Bool Arith Lia.
From Verif Require Import Ssl_Model Ssl_Spec.
Import ListNotations.

Lemma upd_same {A} (f : nat -> A) k v : upd f k v k = v.
Proof. unfold upd. now rewrite Nat.eqb_refl. Qed.
Lemma upd_other {A} (f : nat -> A) k v n : n <> k -> upd f k v n = f n.
Proof. intros H. unfold upd. destruct (Nat.eqb_spec n k); congruence. Qed.

Record inv (s : state) : Prop := Inv
  { i_made : forall o x, obs s o = Some x -> made s o = true;
    i_upg : forall o x, obs s o = Some x -> upg x = false;
    i_plain : forall o x, obs s o = Some x -> kd x = KPlain -> ref x = o /\ est x = false;
    i_fd : forall o x d, obs s o = Some x -> fd x = Some d -> d < next s;
    i_one : forall o o' d, desc s o = Some d -> desc s o' = Some d -> o = o' }.

Lemma init_inv : inv init.
Proof. constructor; cbn; discriminate. Qed.

Lemma desc_upd s o v q : desc (set_obj o v s) q = if Nat.eqb q o then match v with Some x => fd x | None => None end else desc s q.
Proof. unfold desc. cbn [set_obj obs]. unfold upd. now destruct (Nat.eqb q o). Qed.

(** Changing one object *)
Lemma inv_set s o x x' : inv s -> obs s o = Some x -> kd x' = kd x -> upg x' = false -> ref x' = ref x ->
  (kd x = KPlain -> est x' = false) -> (fd x' = fd x \/ fd x' = None) -> inv (set_obj o (Some x') s).
Proof.
  intros [A1 A2 A3 A4 A5] E K U R Es F. constructor.
  - intros q y. cbn [set_obj obs made]. unfold upd. destruct (Nat.eqb_spec q o) as [->|N]; [intros _; eauto|eauto].
  - intros q y. cbn [set_obj obs]. unfold upd. destruct (Nat.eqb_spec q o) as [->|N]; [injection 1 as <-; exact U|eauto].
  - intros q y. cbn [set_obj obs]. unfold upd. destruct (Nat.eqb_spec q o) as [->|N]; [injection 1 as <-|eauto].
    rewrite K, R. intros P. split; [now apply (A3 o x)|auto].
  - intros q y d. cbn [set_obj obs next]. unfold upd. destruct (Nat.eqb_spec q o) as [->|N]; [injection 1 as <-|eauto].
    intros D. destruct F as [F|F]; [|congruence]. apply (A4 o x d E). congruence.
  - intros q q' d. rewrite !desc_upd.
    assert (W : fd x' = Some d -> desc s o = Some d) by (intros D; unfold desc; rewrite E; destruct F; congruence).
    destruct (Nat.eqb_spec q o) as [->|N]; destruct (Nat.eqb_spec q' o) as [->|N']; auto; intros D D'.
    + now apply (A5 o q' d); [apply W|].
    + now apply (A5 q o d); [|apply W].
    + now apply (A5 q q' d).
Qed.

Lemma inv_ext s s' : obs s' = obs s -> made s' = made s -> next s' = next s -> inv s -> inv s'.
Proof.
  intros E1 E2 E3 [A1 A2 A3 A4 A5]. constructor; rewrite ?E1, ?E2, ?E3; auto.
  intros o o' d. unfold desc. rewrite E1. apply A5.
Qed.

Lemma through_obs s o q y : through s o = Some (q, y) -> obs s q = Some y.
Proof.
  unfold through. destruct (obs s o) as [x|]; [|discriminate]. destruct (obs s (ref x)) eqn:E; [|discriminate]. injection 1 as <- <-. exact E.
Qed.

Lemma step_inv s l s' r : inv s -> step s l = Some (s', r) -> inv s'.
Proof.
  intros I S. pose proof I as [A1 A2 A3 A4 A5]. destruct l as [o k|o o'|o|o|o|o|o ok|o|o|o b|o|d x]; cbn [step] in S.
  - destruct (made s o) eqn:M; [discriminate|]. injection S as <- <-.
    assert (N0 : obs s o = None) by (destruct (obs s o) eqn:E; [apply A1 in E; congruence|reflexivity]).
    constructor; cbn [obs made next].
    + intros q y. unfold upd. destruct (Nat.eqb_spec q o) as [->|N]; [reflexivity|apply A1].
    + intros q y. unfold upd. destruct (Nat.eqb_spec q o) as [->|N]; [injection 1 as <-; reflexivity|apply A2].
    + intros q y. unfold upd. destruct (Nat.eqb_spec q o) as [->|N]; [injection 1 as <-; auto|apply A3].
    + intros q y d. unfold upd. destruct (Nat.eqb_spec q o) as [->|N]; [injection 1 as <-; discriminate|apply A4].
    + intros q q' d. unfold desc. cbn [obs]. unfold upd.
      destruct (Nat.eqb_spec q o) as [->|N]; [discriminate|]. destruct (Nat.eqb_spec q' o) as [->|N']; [discriminate|]. apply A5.
  - destruct (made s o') eqn:M; [discriminate|]. destruct (obs s o) as [x|] eqn:E; [|discriminate]. injection S as <- <-.
    assert (N0 : obs s o' = None) by (destruct (obs s o') eqn:Q; [apply A1 in Q; congruence|reflexivity]).
    assert (No : o <> o') by congruence.
    assert (Mx : upg (moved o' x) = false /\ fd (moved o' x) = fd x /\ kd (moved o' x) = kd x) by (unfold moved; pose proof (A2 o x E); destruct (kd x); auto).
    destruct Mx as (M1 & M2 & M3).
    constructor; cbn [obs made next].
    + intros q y. unfold upd at 1 3. destruct (Nat.eqb_spec q o') as [->|N]; [reflexivity|]. unfold upd.
      destruct (Nat.eqb_spec q o) as [->|N']; [intros _; eauto|apply A1].
    + intros q y. unfold upd at 1. destruct (Nat.eqb_spec q o') as [->|N]; [injection 1 as <-; exact M1|]. unfold upd.
      destruct (Nat.eqb_spec q o) as [->|N']; [injection 1 as <-; cbn; eauto|apply A2].
    + intros q y. unfold upd at 1. destruct (Nat.eqb_spec q o') as [->|N].
      { injection 1 as <-. rewrite M3. intros K. unfold moved. rewrite K. cbn. split; [reflexivity|now apply (A3 o x)]. }
      unfold upd. destruct (Nat.eqb_spec q o) as [->|N']; [injection 1 as <-; cbn; intros K; split; [now apply (A3 o x)|reflexivity]|apply A3].
    + intros q y d. unfold upd at 1. destruct (Nat.eqb_spec q o') as [->|N]; [injection 1 as <-; rewrite M2; now apply (A4 o x)|]. unfold upd.
      destruct (Nat.eqb_spec q o) as [->|N']; [injection 1 as <-; discriminate|apply A4].
    + assert (D : forall q, desc (mk (upd (upd (obs s) o (Some (emptied x))) o' (Some (moved o' x))) (upd (made s) o' true) (next s) (sent s) (inbox s)) q
                 = if Nat.eqb q o' then desc s o else if Nat.eqb q o then None else desc s q).
      { intros q. unfold desc. cbn [obs]. unfold upd. destruct (Nat.eqb q o'); [now rewrite M2, E|]. now destruct (Nat.eqb q o). }
      intros q q' d. rewrite !D.
      destruct (Nat.eqb_spec q o') as [->|N]; destruct (Nat.eqb_spec q' o') as [->|N']; auto.
      * destruct (Nat.eqb_spec q' o) as [->|N2]; [discriminate|]. intros D1 D2. elim N2. now apply (A5 q' o d).
      * destruct (Nat.eqb_spec q o) as [->|N2]; [discriminate|]. intros D1 D2. elim N2. now apply (A5 q o d).
      * destruct (Nat.eqb_spec q o) as [->|N2]; [discriminate|]. destruct (Nat.eqb_spec q' o) as [->|N2']; [discriminate|]. apply A5.
  - destruct (obs s o) as [x|] eqn:E; [|discriminate]. injection S as <- <-. constructor; cbn [set_obj obs made next].
    + intros q y. unfold upd. destruct (Nat.eqb_spec q o); [discriminate|apply A1].
    + intros q y. unfold upd. destruct (Nat.eqb_spec q o); [discriminate|apply A2].
    + intros q y. unfold upd. destruct (Nat.eqb_spec q o); [discriminate|apply A3].
    + intros q y d. unfold upd. destruct (Nat.eqb_spec q o); [discriminate|apply A4].
    + intros q q' d. rewrite !desc_upd. destruct (Nat.eqb_spec q o); [discriminate|]. destruct (Nat.eqb_spec q' o); [discriminate|]. apply A5.
  - destruct (obs s o) as [x|] eqn:E; [|discriminate]. destruct (through s o) as [[q y]|] eqn:T; [|now injection S as <- <-].
    apply through_obs in T. destruct (fd y) as [d|] eqn:F; injection S as <- <-; [exact I|].
    constructor; cbn [obs made next].
    + intros p z. unfold upd. destruct (Nat.eqb_spec p q) as [->|N]; [intros _; eauto|apply A1].
    + intros p z. unfold upd. destruct (Nat.eqb_spec p q) as [->|N]; [injection 1 as <-; cbn; eauto|apply A2].
    + intros p z. unfold upd. destruct (Nat.eqb_spec p q) as [->|N]; [injection 1 as <-; cbn; eauto|apply A3].
    + intros p z d. unfold upd. destruct (Nat.eqb_spec p q) as [->|N]; [injection 1 as <-; cbn; injection 1 as <-; lia|].
      intros X Y. specialize (A4 p z d X Y). lia.
    + assert (D : forall p, desc (mk (upd (obs s) q (Some (set_fd (Some (next s)) y))) (made s) (S (next s)) (sent s) (inbox s)) p
                 = if Nat.eqb p q then Some (next s) else desc s p).
      { intros p. unfold desc. cbn [obs]. unfold upd. now destruct (Nat.eqb p q). }
      assert (L : forall p d, desc s p = Some d -> d <> next s).
      { intros p d. unfold desc. destruct (obs s p) as [z|] eqn:Z; [|discriminate]. intros X. specialize (A4 p z d Z X). lia. }
      intros p p' d. rewrite !D. destruct (Nat.eqb_spec p q) as [->|N]; destruct (Nat.eqb_spec p' q) as [->|N']; auto.
      * intros H1 H2. apply L in H2. congruence.
      * intros H1 H2. apply L in H1. congruence.
      * apply A5.
  - destruct (obs s o) as [x|] eqn:E; [|discriminate]. destruct (through s o) as [[q y]|] eqn:T; [|now injection S as <- <-].
    apply through_obs in T. injection S as <- <-. apply inv_set with (x := y); auto; cbn; eauto. intros K. now apply (A3 q y).
  - destruct (obs s o) as [x|] eqn:E; [|discriminate]. destruct (through s o) as [[q y]|]; injection S as <- <-; exact I.
  - destruct (obs s o) as [x|] eqn:E; [|discriminate]. destruct (kd x) eqn:K; [discriminate|].
    destruct (upg x) eqn:U; [injection S as <- <-; exact I|]. destruct (fd x) as [d|] eqn:F; [|injection S as <- <-; exact I].
    destruct ok; injection S as <- <-; [|now apply inv_ext with (s := s)].
    eapply inv_ext with (s := set_obj o _ s); [reflexivity..|]. apply inv_set with (x := x); auto; cbn; congruence.
  - destruct (obs s o) as [x|] eqn:E; [|discriminate]. destruct (kd x) eqn:K; [discriminate|].
    rewrite (A2 o x E) in S. injection S as <- <-. exact I.
  - destruct (obs s o) as [x|] eqn:E; [|discriminate]. destruct (kd x); [discriminate|]. injection S as <- <-. exact I.
  - destruct (obs s o) as [x|] eqn:E; [|discriminate]. destruct (fd x) as [d|]; [|injection S as <- <-; exact I].
    rewrite (A2 o x E) in S. destruct (kd x); injection S as <- <-; now apply inv_ext with (s := s).
  - destruct (obs s o) as [x|] eqn:E; [|discriminate]. destruct (fd x) as [d|]; [|injection S as <- <-; exact I].
    destruct (inbox s d) as [|i t]; [injection S as <- <-; exact I|]. rewrite (A2 o x E) in S.
    destruct (kd x); destruct i; injection S as <- <-; now apply inv_ext with (s := s).
  - injection S as <- <-. now apply inv_ext with (s := s).
Qed.

Lemma run_inv ls : forall s s' os, inv s -> run s ls = Some (s', os) -> inv s'.
Proof.
  induction ls as [|l r IH]; intros s s' os I R; cbn [run] in R; [now injection R as <- <-|].
  destruct (step s l) as [[s1 o]|] eqn:S; [|discriminate]. destruct (run s1 r) as [[s2 o2]|] eqn:R2; [|discriminate].
  injection R as <- <-. eapply IH; [|exact R2]. eapply step_inv; eauto.
Qed.

(** The session is established exactly if a handshake has succeeded. *)
Lemma est_secured ls : forall s s' os f, inv s -> (forall o x, obs s o = Some x -> est x = f o) ->
  run s ls = Some (s', os) -> forall o x, obs s' o = Some x -> est x = secured (combine ls os) f o.
Proof.
  induction ls as [|l r IH]; intros s s' os f I F R; cbn [run] in R.
  - injection R as <- <-. exact F.
  - destruct (step s l) as [[s1 w]|] eqn:S; [|discriminate]. destruct (run s1 r) as [[s2 o2]|] eqn:R2; [|discriminate].
    injection R as <- <-. cbn [combine secured]. eapply IH; [eapply step_inv; eauto| |exact R2].
    clear R2 IH. pose proof I as [A1 A2 A3 A4 A5]. destruct l as [o k|o o'|o|o|o|o|o ok|o|o|o b|o|d y]; cbn [step] in S.
    + destruct (made s o); [discriminate|]. injection S as <- <-. cbn [obs]. intros q x. unfold upd. destruct (Nat.eqb q o); [now injection 1 as <-|apply F].
    + destruct (made s o'); [discriminate|]. destruct (obs s o) as [x|] eqn:E; [|discriminate]. injection S as <- <-. cbn [obs]. intros q z.
      unfold upd. destruct (Nat.eqb q o'); [injection 1 as <-; unfold moved; pose proof (F o x E); destruct (kd x); auto|].
      destruct (Nat.eqb q o); [now injection 1 as <-|apply F].
    + destruct (obs s o) as [x|]; [|discriminate]. injection S as <- <-. cbn [set_obj obs]. intros q z. unfold upd. destruct (Nat.eqb q o); [discriminate|apply F].
    + destruct (obs s o) as [x|]; [|discriminate]. destruct (through s o) as [[q y]|] eqn:T; [|injection S as <- <-; exact F].
      apply through_obs in T. destruct (fd y); injection S as <- <-; [exact F|]. cbn [obs]. intros p z. unfold upd.
      destruct (Nat.eqb_spec p q) as [->|]; [injection 1 as <-; cbn; now apply F|apply F].
    + destruct (obs s o) as [x|]; [|discriminate]. destruct (through s o) as [[q y]|] eqn:T; injection S as <- <-; [|exact F].
      apply through_obs in T. cbn [set_obj obs]. intros p z. unfold upd. destruct (Nat.eqb_spec p q) as [->|]; [injection 1 as <-; cbn; now apply F|apply F].
    + destruct (obs s o) as [x|]; [|discriminate]. destruct (through s o) as [[q y]|]; injection S as <- <-; exact F.
    + destruct (obs s o) as [x|] eqn:E; [|discriminate]. destruct (kd x); [discriminate|]. destruct (upg x); [injection S as <- <-; exact F|].
      destruct (fd x) as [d|]; [|injection S as <- <-; exact F]. destruct ok; injection S as <- <-; [|exact F].
      cbn [send set_obj obs]. intros p z. unfold upd. destruct (Nat.eqb p o); [now injection 1 as <-|apply F].
    + destruct (obs s o) as [x|] eqn:E; [|discriminate]. destruct (kd x); [discriminate|]. rewrite (A2 o x E) in S. injection S as <- <-. exact F.
    + destruct (obs s o) as [x|] eqn:E; [|discriminate]. destruct (kd x); [discriminate|]. injection S as <- <-. exact F.
    + destruct (obs s o) as [x|] eqn:E; [|discriminate]. destruct (fd x) as [d|]; [|injection S as <- <-; exact F].
      rewrite (A2 o x E) in S. destruct (kd x); injection S as <- <-; exact F.
    + destruct (obs s o) as [x|] eqn:E; [|discriminate]. destruct (fd x) as [d|]; [|injection S as <- <-; exact F].
      destruct (inbox s d) as [|i t]; [injection S as <- <-; exact F|]. rewrite (A2 o x E) in S.
      destruct (kd x); destruct i; injection S as <- <-; exact F.
    + injection S as <- <-. exact F.
Qed.

(** ** The socket interface *)

Lemma own_ref s l r s' o x : inv s -> subject l = Some o -> obs s o = Some x -> ref x = o -> step s l = Some (s', r) -> own s l r s'.
Proof.
  intros I Su E R S. assert (T : through s o = Some (o, x)) by (unfold through; now rewrite E, R, E).
  assert (D : desc s o = fd x) by (unfold desc; now rewrite E).
  destruct l as [| | |q|q|q| | | | | |]; try discriminate; cbn [subject] in Su; injection Su as ->; cbn [step] in S; rewrite E, T in S; cbn [own]; rewrite ?D.
  - destruct (fd x) as [d|] eqn:F; injection S as <- <-.
    + split; [discriminate|]. split; [|reflexivity]. intros _. split; [reflexivity|exact D].
    + split; [|split; [congruence|]].
      * intros _. split; [reflexivity|]. unfold desc. cbn [obs]. rewrite upd_same. discriminate.
      * intros q N. unfold desc. cbn [obs]. now rewrite upd_other.
  - injection S as <- <-. split; [reflexivity|]. split.
    + rewrite desc_upd, Nat.eqb_refl. reflexivity.
    + intros q N. rewrite desc_upd. destruct (Nat.eqb_spec q o); congruence.
  - injection S as <- <-. destruct (fd x); [left|right]; split; congruence.
Qed.

Lemma unmoved_ref ls : forall s s' os, inv s -> (forall o x, obs s o = Some x -> ref x = o) -> unmoved s ls ->
  run s ls = Some (s', os) -> forall o x, obs s' o = Some x -> ref x = o.
Proof.
  induction ls as [|l r IH]; intros s s' os I F U R; cbn [run] in R; [injection R as <- <-; exact F|].
  cbn [unmoved] in U. destruct U as [U1 U2].
  destruct (step s l) as [[s1 w]|] eqn:S; [|discriminate]. destruct (run s1 r) as [[s2 o2]|] eqn:R2; [|discriminate].
  injection R as <- <-. eapply IH; [eapply step_inv; eauto| |exact U2|exact R2].
  clear R2 IH U2. pose proof I as [A1 A2 A3 A4 A5]. destruct l as [o k|o o'|o|o|o|o|o ok|o|o|o b|o|d y]; cbn [step] in S.
  - destruct (made s o); [discriminate|]. injection S as <- <-. cbn [obs]. intros q x. unfold upd. destruct (Nat.eqb_spec q o) as [->|]; [now injection 1 as <-|apply F].
  - destruct (made s o'); [discriminate|]. destruct (obs s o) as [x|] eqn:E; [|discriminate]. injection S as <- <-. cbn [obs]. intros q z.
    unfold upd. destruct (Nat.eqb_spec q o') as [->|].
    + injection 1 as <-. unfold moved. destruct (kd x) eqn:K; [reflexivity|]. elim U1. exists x. auto.
    + destruct (Nat.eqb_spec q o) as [->|]; [injection 1 as <-; cbn; now apply F|apply F].
  - destruct (obs s o) as [x|]; [|discriminate]. injection S as <- <-. cbn [set_obj obs]. intros q z. unfold upd. destruct (Nat.eqb q o); [discriminate|apply F].
  - destruct (obs s o) as [x|]; [|discriminate]. destruct (through s o) as [[q y]|] eqn:T; [|injection S as <- <-; exact F].
    apply through_obs in T. destruct (fd y); injection S as <- <-; [exact F|]. cbn [obs]. intros p z. unfold upd.
    destruct (Nat.eqb_spec p q) as [->|]; [injection 1 as <-; cbn; now apply F|apply F].
  - destruct (obs s o) as [x|]; [|discriminate]. destruct (through s o) as [[q y]|] eqn:T; injection S as <- <-; [|exact F].
    apply through_obs in T. cbn [set_obj obs]. intros p z. unfold upd. destruct (Nat.eqb_spec p q) as [->|]; [injection 1 as <-; cbn; now apply F|apply F].
  - destruct (obs s o) as [x|]; [|discriminate]. destruct (through s o) as [[q y]|]; injection S as <- <-; exact F.
  - destruct (obs s o) as [x|] eqn:E; [|discriminate]. destruct (kd x); [discriminate|]. destruct (upg x); [injection S as <- <-; exact F|].
    destruct (fd x) as [d|]; [|injection S as <- <-; exact F]. destruct ok; injection S as <- <-; [|exact F].
    cbn [send set_obj obs]. intros p z. unfold upd. destruct (Nat.eqb_spec p o) as [->|]; [injection 1 as <-; cbn; now apply F|apply F].
  - destruct (obs s o) as [x|] eqn:E; [|discriminate]. destruct (kd x); [discriminate|]. rewrite (A2 o x E) in S. injection S as <- <-. exact F.
  - destruct (obs s o) as [x|] eqn:E; [|discriminate]. destruct (kd x); [discriminate|]. injection S as <- <-. exact F.
  - destruct (obs s o) as [x|] eqn:E; [|discriminate]. destruct (fd x) as [d|]; [|injection S as <- <-; exact F].
    rewrite (A2 o x E) in S. destruct (kd x); injection S as <- <-; exact F.
  - destruct (obs s o) as [x|] eqn:E; [|discriminate]. destruct (fd x) as [d|]; [|injection S as <- <-; exact F].
    destruct (inbox s d) as [|i t]; [injection S as <- <-; exact F|]. rewrite (A2 o x E) in S.
    destruct (kd x); destruct i; injection S as <- <-; exact F.
  - injection S as <- <-. exact F.
Qed.
