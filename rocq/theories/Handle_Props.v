(** * Theorems about unique_handle (property C49) *)
From Coq Require Import List Bool Arith Lia.
From Verif Require Import Handle_Model Handle_Spec.
Import ListNotations.

Lemma run_app t a b s : run t s (a ++ b) =
  match run t s a with None => None | Some (s1, e1) =>
    match run t s1 b with None => None | Some (s2, e2) => Some (s2, e1 ++ e2) end end.
Proof.
  revert s; induction a as [|l a IH]; intro s; cbn [app run].
  - destruct (run t s b) as [[s2 e2]|]; reflexivity.
  - destruct (step t s l) as [[s1 e1]|]; [|reflexivity]. rewrite IH.
    destruct (run t s1 a) as [[s2 e2]|]; [|reflexivity].
    destruct (run t s2 b) as [[s3 e3]|]; [|reflexivity]. rewrite app_assoc. reflexivity.
Qed.

Lemma adopted_app f a b : adopted f (a ++ b) = adopted f a + adopted f b.
Proof. unfold adopted. rewrite filter_app, app_length. reflexivity. Qed.
Lemma destroyed_app f a b : destroyed f (a ++ b) = destroyed f a + destroyed f b.
Proof. unfold destroyed. rewrite filter_app, app_length. reflexivity. Qed.
Lemma given_app f a b : given f (a ++ b) = given f a + given f b.
Proof. unfold given. rewrite filter_app, app_length. reflexivity. Qed.
Lemma gone_app f a b : gone f (a ++ b) = gone f a + gone f b.
Proof. unfold gone. rewrite filter_app, app_length. reflexivity. Qed.

Definition one (f : frame) (o : option frame) : nat := if holds f o then 1 else 0.
Lemma holders_app f a b d : holders f (mk (a ++ [b]) d) = holders f (mk a d) + one f b.
Proof. unfold holders, one. cbn [handles]. rewrite filter_app, app_length. cbn. destruct (holds f b); reflexivity. Qed.
Lemma holders_dead f a d d' : holders f (mk a d) = holders f (mk a d').
Proof. reflexivity. Qed.
Lemma holders_put f s h o : h < length (handles s) -> holders f (put s h o) + one f (get s h) = holders f s + one f o.
Proof.
  unfold holders, put, get, one. cbn [handles]. generalize (handles s). clear s. intros l.
  revert h; induction l as [|x l IH]; intros h H; cbn [length] in H; [lia|].
  destruct h as [|h]; cbn [upd nth filter].
  - destruct (holds f x), (holds f o); cbn [length]; lia.
  - specialize (IH h ltac:(lia)). destruct (holds f x); cbn [length]; lia.
Qed.
Lemma put_length s h o : length (handles (put s h o)) = length (handles s).
Proof.
  unfold put; cbn. generalize (handles s). clear s. intros l. revert h; induction l as [|x l IH]; intros [|h]; cbn; auto.
Qed.
Lemma get_put_other s h g o : h <> g -> get (put s h o) g = get s g.
Proof.
  unfold get, put. cbn. generalize (handles s). clear s. intros l. revert h g; induction l as [|x l IH]; intros [|h] [|g] N; cbn; auto; try lia.
Qed.
Lemma get_put_same s h o : h < length (handles s) -> get (put s h o) h = o.
Proof.
  unfold get, put. cbn. generalize (handles s). clear s. intros l. revert h; induction l as [|x l IH]; intros [|h] N; cbn in *; auto; try lia.
  apply IH. lia.
Qed.

Lemma adopt_counts f o : adopted f (adopt o) = one f o /\ destroyed f (adopt o) = 0 /\ given f (adopt o) = 0 /\ gone f (adopt o) = 0.
Proof. unfold one. destruct o as [g|]; cbn; repeat split; try reflexivity. destruct (f =? g); reflexivity. Qed.
Lemma destroy_counts f s o s1 e : destroy s o = (s1, e) ->
  adopted f e = 0 /\ destroyed f e = one f o /\ given f e = 0 /\ gone f e = one f o /\ handles s1 = handles s.
Proof.
  unfold destroy, one. destruct o as [g|]; intro H; injection H as <- <-; cbn; [|auto].
  destruct (alive s g); cbn; destruct (f =? g); cbn; auto.
Qed.
Lemma resume_counts f s g b s1 e : resume s g b = (s1, e) ->
  adopted f e = 0 /\ destroyed f e = 0 /\ given f e = 0 /\ handles s1 = handles s.
Proof.
  unfold resume. destruct (alive s g), b; intro H; injection H as <- <-; cbn; auto.
Qed.

(** one step keeps the balance *)
Lemma step_balance t f s l s1 e : step t s l = Some (s1, e) ->
  adopted f e + holders f s = destroyed f e + given f e + holders f s1.
Proof.
  assert (HH : forall a b, handles a = handles b -> holders f a = holders f b) by (intros a b K; unfold holders; rewrite K; reflexivity).
  intro H. unfold step in H. destruct l as [o|h g|h o|h|h|h b|h b|h|g b].
  - injection H as <- <-. destruct (adopt_counts f o) as (-> & -> & -> & _). rewrite holders_app.
    destruct s; cbn; lia.
  - destruct (Nat.ltb_spec g (length (handles s))) as [G|G]; [cbn [negb] in H|discriminate].
    destruct (Nat.ltb_spec h (length (handles s))) as [N|N]; [cbn [negb] in H|discriminate].
    injection H as H. apply (destroy_counts f) in H as (-> & -> & -> & _ & E). rewrite (HH _ _ E).
    assert (N' : h < length (handles (put s g None))) by (rewrite put_length; exact N).
    pose proof (holders_put f (put s g None) h (get s g) N') as K1.
    pose proof (holders_put f s g None G) as K2. assert (one f None = 0) by reflexivity. lia.
  - destruct (Nat.ltb_spec h (length (handles s))) as [N|N]; [cbn [negb] in H|discriminate].
    destruct (destroy (put s h o) (get s h)) as [s2 e2] eqn:D. injection H as <- <-.
    apply (destroy_counts f) in D as (D1 & D2 & D3 & _ & E). rewrite (HH _ _ E).
    rewrite adopted_app, destroyed_app, given_app. destruct (adopt_counts f o) as (-> & -> & -> & _).
    pose proof (holders_put f s h o N). lia.
  - destruct (Nat.ltb_spec h (length (handles s))) as [N|N]; [cbn [negb] in H|discriminate].
    injection H as H. apply (destroy_counts f) in H as (-> & -> & -> & _ & E). rewrite (HH _ _ E).
    pose proof (holders_put f s h None N) as K. assert (one f None = 0) by reflexivity. lia.
  - destruct (Nat.ltb_spec h (length (handles s))) as [N|N]; [cbn [negb] in H|discriminate].
    injection H as H. unfold release in H. pose proof (holders_put f s h None N) as K. destruct (get s h) as [g|].
    + injection H as <- <-. unfold one in K. cbn [holds] in K.
      unfold adopted, destroyed, given in *; cbn [filter length]. destruct (f =? g); cbn [length]; lia.
    + injection H as <- <-. destruct t; cbn; lia.
  - destruct (Nat.ltb_spec h (length (handles s))) as [N|N]; [cbn [negb] in H|discriminate].
    injection H as H. destruct (get s h) as [g|].
    + apply (resume_counts f) in H as (-> & -> & -> & E). rewrite (HH _ _ E). lia.
    + injection H as <- <-. cbn. lia.
  - destruct (Nat.ltb_spec h (length (handles s))) as [N|N]; [cbn [negb] in H|discriminate].
    injection H as H. unfold release in H. pose proof (holders_put f s h None N) as K. destruct (get s h) as [g|] eqn:G.
    + destruct (resume (put s h None) g b) as [s2 e2] eqn:R. injection H as <- <-.
      apply (resume_counts f) in R as (R1 & R2 & R3 & E). rewrite (HH _ _ E).
      change (EGiven g :: e2) with ([EGiven g] ++ e2). rewrite adopted_app, destroyed_app, given_app. unfold one in K. cbn [holds] in K.
      unfold adopted, destroyed, given in *; cbn [filter length]. destruct (f =? g); cbn [length]; lia.
    + injection H as <- <-. cbn. lia.
  - destruct (Nat.ltb_spec h (length (handles s))) as [N|N]; [cbn [negb] in H|discriminate].
    injection H as H. destruct (get s h) as [g|]; injection H as <- <-; [|cbn; lia].
    destruct (alive s g); cbn; lia.
  - injection H as H. apply (resume_counts f) in H as (-> & -> & -> & E). rewrite (HH _ _ E). lia.
Qed.

(** Every time a handle takes a frame it keeps it, destroys it or gives it away, exactly one of
    the three: for every history, correct or not *)
Theorem C49_balance : forall typed ls s es f, run typed init ls = Some (s, es) ->
  adopted f es = destroyed f es + given f es + holders f s.
Proof.
  intros t ls. assert (G : forall s0 s es f, run t s0 ls = Some (s, es) ->
    adopted f es + holders f s0 = destroyed f es + given f es + holders f s).
  { induction ls as [|l r IH]; intros s0 s es f H; cbn [run] in H.
    - injection H as <- <-. cbn. lia.
    - destruct (step t s0 l) as [[s1 e1]|] eqn:E; [|discriminate].
      destruct (run t s1 r) as [[s2 e2]|] eqn:E2; [|discriminate]. injection H as <- <-.
      apply (step_balance t f) in E. apply (IH _ _ _ f) in E2. rewrite adopted_app, destroyed_app, given_app. lia. }
  intros s es f H. apply (G _ _ _ f) in H. cbn in H. lia.
Qed.
Print Assumptions C49_balance.

(** Nothing leaks: when the handles are empty, every frame they took was destroyed or given away *)
Theorem C49_no_leak : forall typed ls s es f, run typed init ls = Some (s, es) -> all_empty s ->
  adopted f es = destroyed f es + given f es.
Proof.
  intros t ls s es f H A. rewrite (C49_balance _ _ _ _ f H).
  assert (holders f s = 0); [|lia]. unfold holders. unfold all_empty in A. induction (handles s) as [|x l IH]; [reflexivity|].
  rewrite (A x (or_introl eq_refl)). cbn. apply IH. intros o K. apply A. right. exact K.
Qed.
Print Assumptions C49_no_leak.

(** ** Correct callers *)
Definition count_dead (f : frame) (s : state) : nat := length (filter (Nat.eqb f) (dead s)).
Lemma alive_count s f : alive s f = true <-> count_dead f s = 0.
Proof.
  unfold alive, count_dead. induction (dead s) as [|x l IH]; cbn; [tauto|].
  destruct (f =? x); cbn [orb negb length]; [split; [discriminate|lia]|exact IH].
Qed.
(** each frame is in at most one handle or was destroyed once *)
Definition INV (s : state) : Prop := forall f, holders f s + count_dead f s <= 1.

Lemma holders_get s h f : get s h = Some f -> 1 <= holders f s.
Proof.
  unfold get, holders. generalize (handles s). intros l. revert h; induction l as [|x l IH]; intros [|h] H; cbn in *; try discriminate.
  - subst. cbn. rewrite Nat.eqb_refl. cbn. lia.
  - specialize (IH _ H). destruct (holds f x); cbn; lia.
Qed.

Definition nodead (es : list event) : Prop := forall f, ~ In (EDead f) es.
Lemma nodead_app a b : nodead a -> nodead b -> nodead (a ++ b).
Proof. intros A B f H. apply in_app_or in H as [H|H]; [exact (A f H)|exact (B f H)]. Qed.
Lemma nodead_adopt o : nodead (adopt o).
Proof. intros f H. destruct o as [g|]; cbn in H; [destruct H as [H|[]]; discriminate|exact H]. Qed.

(** [a]: the state with the frame taken out of its handle *)
Lemma destroy_ok s o s1 e : destroy s o = (s1, e) -> (forall f, holders f s + count_dead f s + one f o <= 1) ->
  INV s1 /\ nodead e /\ forall f, count_dead f s1 = count_dead f s + gone f e.
Proof.
  intros H I. unfold destroy in H. destruct o as [g|]; injection H as <- <-.
  - assert (A : alive s g = true).
    { apply alive_count. specialize (I g). unfold one in I. cbn [holds] in I. rewrite Nat.eqb_refl in I. lia. }
    rewrite A. split; [|split].
    + intro f. specialize (I f). unfold one in I. cbn [holds] in I. unfold holders, count_dead in *.
      cbn [handles dead filter]. destruct (f =? g); cbn [length]; lia.
    + intros f [K|[]]. discriminate.
    + intro f. unfold count_dead, gone. cbn. destruct (f =? g); cbn; lia.
  - split; [|split].
    + intro f. specialize (I f). lia.
    + intros f [].
    + intro f. cbn. lia.
Qed.
Lemma resume_ok s g b s1 e : resume s g b = (s1, e) -> INV s -> alive s g = true -> (b = true -> holders g s = 0) ->
  INV s1 /\ nodead e /\ forall f, count_dead f s1 = count_dead f s + gone f e.
Proof.
  intros H I A HB. unfold resume in H. rewrite A in H. destruct b; injection H as <- <-.
  - specialize (HB eq_refl). apply alive_count in A. split; [|split].
    + intro f. specialize (I f). unfold holders, count_dead in *. cbn [handles dead filter].
      destruct (Nat.eqb_spec f g) as [->|N]; cbn [length]; lia.
    + intros f [K|[K|[]]]; discriminate.
    + intro f. unfold count_dead, gone. cbn. destruct (f =? g); cbn; lia.
  - split; [exact I|]. split.
    + intros f [K|[]]. discriminate.
    + intro f. cbn. lia.
Qed.

Lemma step_ok t s l s1 e : INV s -> allowed s l -> step t s l = Some (s1, e) ->
  INV s1 /\ nodead e /\ forall f, count_dead f s1 = count_dead f s + gone f e.
Proof.
  intros I A H. unfold step in H. destruct l as [o|h g|h o|h|h|h b|h b|h|g b].
  - injection H as <- <-. split; [|split].
    + intro f. rewrite holders_app. specialize (I f). unfold count_dead in *. cbn [dead].
      replace (mk (handles s) (dead s)) with s by (destruct s; reflexivity).
      unfold one. destruct o as [g|]; cbn [holds]; [|lia]. destruct (Nat.eqb_spec f g) as [->|N]; [|lia].
      destruct A as [A1 A2]. apply alive_count in A1. unfold count_dead in A1. lia.
    + apply nodead_adopt.
    + intro f. destruct (adopt_counts f o) as (_ & _ & _ & ->). unfold count_dead. cbn. lia.
  - destruct (Nat.ltb_spec g (length (handles s))) as [G|G]; [cbn [negb] in H|discriminate].
    destruct (Nat.ltb_spec h (length (handles s))) as [N|N]; [cbn [negb] in H|discriminate].
    injection H as H. apply destroy_ok in H; [exact H|]. intro f.
    assert (N' : h < length (handles (put s g None))) by (rewrite put_length; exact N).
    pose proof (holders_put f (put s g None) h (get s g) N') as K1.
    pose proof (holders_put f s g None G) as K2. assert (one f None = 0) by reflexivity. specialize (I f).
    change (count_dead f (put (put s g None) h (get s g))) with (count_dead f s). lia.
  - destruct (Nat.ltb_spec h (length (handles s))) as [N|N]; [cbn [negb] in H|discriminate].
    destruct (destroy (put s h o) (get s h)) as [s2 e2] eqn:D. injection H as <- <-.
    apply destroy_ok in D.
    + destruct D as (D1 & D2 & D3). split; [exact D1|]. split; [apply nodead_app; [apply nodead_adopt|exact D2]|].
      intro f. rewrite gone_app. destruct (adopt_counts f o) as (_ & _ & _ & ->). rewrite D3. reflexivity.
    + intro f. change (count_dead f (put s h o)) with (count_dead f s). pose proof (holders_put f s h o N) as K.
      specialize (I f). unfold one at 2 in K. destruct o as [g|]; cbn [holds] in K; [|lia].
      destruct (Nat.eqb_spec f g) as [->|Ne]; [|lia]. destruct A as [A1 A2]. apply alive_count in A1. lia.
  - destruct (Nat.ltb_spec h (length (handles s))) as [N|N]; [cbn [negb] in H|discriminate].
    injection H as H. apply destroy_ok in H; [exact H|]. intro f.
    change (count_dead f (put s h None)) with (count_dead f s). pose proof (holders_put f s h None N) as K.
    assert (one f None = 0) by reflexivity. specialize (I f). lia.
  - destruct (Nat.ltb_spec h (length (handles s))) as [N|N]; [cbn [negb] in H|discriminate].
    injection H as H. unfold release in H. destruct (get s h) as [g|] eqn:G; injection H as <- <-.
    + split; [|split].
      * intro f. pose proof (holders_put f s h None N). specialize (I f). assert (one f None = 0) by reflexivity.
        change (count_dead f (put s h None)) with (count_dead f s). lia.
      * intros f [K|[]]. discriminate.
      * intro f. unfold count_dead. cbn. lia.
    + split; [exact I|]. split; [destruct t; intros f K; cbn in K; intuition discriminate|].
      intro f. destruct t; cbn; lia.
  - destruct (Nat.ltb_spec h (length (handles s))) as [N|N]; [cbn [negb] in H|discriminate].
    injection H as H. cbn in A. subst b. destruct (get s h) as [g|] eqn:G.
    + apply resume_ok in H; [exact H|exact I| |discriminate].
      apply alive_count. apply holders_get in G. specialize (I g). lia.
    + injection H as <- <-. split; [exact I|]. split; [intros f [K|[]]; discriminate|]. intro f; cbn; lia.
  - destruct (Nat.ltb_spec h (length (handles s))) as [N|N]; [cbn [negb] in H|discriminate].
    injection H as H. unfold release in H. destruct (get s h) as [g|] eqn:G.
    + destruct (resume (put s h None) g b) as [s2 e2] eqn:R. injection H as <- <-.
      assert (HG : one g (Some g) = 1) by (unfold one; cbn; rewrite Nat.eqb_refl; reflexivity).
      assert (I' : INV (put s h None)).
      { intro f. pose proof (holders_put f s h None N). specialize (I f). assert (one f None = 0) by reflexivity.
        change (count_dead f (put s h None)) with (count_dead f s). lia. }
      pose proof (holders_get _ _ _ G) as HG1. pose proof (I g) as Ig.
      apply resume_ok in R; [|exact I'| |].
      * destruct R as (R1 & R2 & R3). split; [exact R1|]. split.
        -- intros f [K|K]; [discriminate|]. exact (R2 f K).
        -- intro f. rewrite R3. reflexivity.
      * apply alive_count. change (count_dead g (put s h None)) with (count_dead g s). lia.
      * intros _. pose proof (holders_put g s h None N) as K. rewrite G, HG in K. assert (one g None = 0) by reflexivity. lia.
    + injection H as <- <-. split; [exact I|]. split; [intros f [K|[]]; discriminate|]. intro f; cbn; lia.
  - destruct (Nat.ltb_spec h (length (handles s))) as [N|N]; [cbn [negb] in H|discriminate].
    injection H as H. destruct (get s h) as [g|] eqn:G; injection H as <- <-.
    + assert (A' : alive s g = true) by (apply alive_count; apply holders_get in G; specialize (I g); lia).
      rewrite A'. split; [exact I|]. split; [intros f []|]. intro f; cbn; lia.
    + split; [exact I|]. split; [intros f [K|[]]; discriminate|]. intro f; cbn; lia.
  - injection H as H. destruct A as [A1 A2]. apply resume_ok in H; auto.
Qed.

Lemma reach t ls s es : correct t init ls -> run t init ls = Some (s, es) ->
  INV s /\ nodead es /\ forall f, count_dead f s = gone f es.
Proof.
  assert (G : forall s0, INV s0 -> correct t s0 ls -> run t s0 ls = Some (s, es) ->
    INV s /\ nodead es /\ forall f, count_dead f s = count_dead f s0 + gone f es).
  { revert es. induction ls as [|l r IH]; intros es s0 I C H; cbn [run correct] in *.
    - injection H as <- <-. split; [exact I|]. split; [intros f []|]. intro f; cbn; lia.
    - destruct C as [A C]. destruct (step t s0 l) as [[s1 e1]|] eqn:E; [|discriminate].
      destruct (run t s1 r) as [[s2 e2]|] eqn:E2; [|discriminate]. injection H as <- <-.
      destruct (step_ok _ _ _ _ _ I A E) as (I1 & N1 & D1). destruct (IH _ _ I1 C E2) as (I2 & N2 & D2).
      split; [exact I2|]. split; [apply nodead_app; assumption|]. intro f. rewrite D2, D1, gone_app. lia. }
  intros C H. destruct (G init) as (A & B & D); auto.
  - intro f. cbn. lia.
Qed.

(** A frame is destroyed at most once, by a handle or by itself, and no handle uses a destroyed
    frame *)
Theorem C49_once : forall typed ls s es f, correct typed init ls -> run typed init ls = Some (s, es) ->
  gone f es <= 1 /\ ~ In (EDead f) es.
Proof.
  intros t ls s es f C H. destruct (reach _ _ _ _ C H) as (I & N & D). split; [|apply N].
  specialize (I f). rewrite D in I. lia.
Qed.
Print Assumptions C49_once.

(** After a handle gave a frame away, no handle destroys it until one takes it again *)
Theorem C49_released : forall typed ls s es a f b, correct typed init ls -> run typed init ls = Some (s, es) ->
  es = a ++ EGiven f :: b -> adopted f b = 0 -> destroyed f b = 0.
Proof.
  (* generalised: with the frame in no handle *)
  intros t ls s es a f b C H E NA.
  (* a frame in no handle is not destroyed by one while none takes it *)
  assert (P : forall ls s0 s es, run t s0 ls = Some (s, es) -> adopted f es = 0 -> holders f s0 = 0 -> destroyed f es = 0).
  { clear. induction ls as [|l r IH]; intros s0 s es H N Z; cbn [run] in H.
    - injection H as <- <-. reflexivity.
    - destruct (step t s0 l) as [[s1 e1]|] eqn:E; [|discriminate].
      destruct (run t s1 r) as [[s2 e2]|] eqn:E2; [|discriminate]. injection H as <- <-.
      rewrite adopted_app in N. rewrite destroyed_app. apply (step_balance t f) in E.
      rewrite (IH _ _ _ E2); lia. }
  (* after EGiven nothing else happens to f in the step, and no handle has it *)
  assert (Q : forall s0 l s1 e1 u v, INV s0 -> allowed s0 l -> step t s0 l = Some (s1, e1) -> e1 = u ++ EGiven f :: v ->
     holders f s1 = 0 /\ destroyed f v = 0).
  { clear. intros s0 l s1 e1 u v I A H E.
    assert (NI : forall e, (forall g, In (EGiven g) e -> False) -> e1 = e -> False).
    { intros e K ->. apply (K f). rewrite E. apply in_or_app. right. left. reflexivity. }
    unfold step in H. destruct l as [o|h g|h o|h|h|h b|h b|h|g b].
    - injection H as <- <-. exfalso. eapply NI; [|reflexivity]. intros g K. destruct o; cbn in K; intuition discriminate.
    - destruct (negb (g <? length (handles s0))); [discriminate|]. destruct (negb (h <? length (handles s0))); [discriminate|].
      injection H as H. exfalso. eapply NI; [|reflexivity]. intros k K. unfold destroy in H.
      destruct (get (put s0 g None) h); injection H as <- <-; [|exact K]. destruct (alive _ _); cbn in K; intuition discriminate.
    - destruct (negb (h <? length (handles s0))); [discriminate|]. destruct (destroy (put s0 h o) (get s0 h)) as [s2 e2] eqn:D.
      injection H as <- <-. exfalso. eapply NI; [|reflexivity]. intros k K. apply in_app_or in K as [K|K].
      + destruct o; cbn in K; intuition discriminate.
      + unfold destroy in D. destruct (get s0 h); injection D as <- <-; [|exact K]. destruct (alive _ _); cbn in K; intuition discriminate.
    - destruct (negb (h <? length (handles s0))); [discriminate|]. injection H as H.
      exfalso. eapply NI; [|reflexivity]. intros k K. unfold destroy in H.
      destruct (get s0 h); injection H as <- <-; [|exact K]. destruct (alive _ _); cbn in K; intuition discriminate.
    - destruct (Nat.ltb_spec h (length (handles s0))) as [N|N]; [cbn [negb] in H|discriminate]. injection H as H. unfold release in H.
      pose proof (holders_put f s0 h None N) as K. specialize (I f). destruct (get s0 h) as [g|] eqn:G.
      + injection H as <- <-. destruct u as [|x u]; [|destruct u; discriminate]. injection E as <- <-.
        unfold one in K. cbn [holds] in K. rewrite Nat.eqb_refl in K. split; [lia|reflexivity].
      + injection H as <- <-. destruct t; destruct u as [|x [|y u]]; discriminate.
    - destruct (negb (h <? length (handles s0))); [discriminate|]. injection H as H.
      exfalso. destruct (get s0 h) as [g|].
      + unfold resume in H. destruct (alive s0 g), b; injection H as <- <-; eapply NI; try reflexivity; intros k K; cbn in K; intuition discriminate.
      + injection H as <- <-. eapply NI; try reflexivity; intros k K; cbn in K; intuition discriminate.
    - destruct (Nat.ltb_spec h (length (handles s0))) as [N|N]; [cbn [negb] in H|discriminate]. injection H as H. unfold release in H.
      pose proof (holders_put f s0 h None N) as K. specialize (I f). destruct (get s0 h) as [g|] eqn:G.
      + destruct (resume (put s0 h None) g b) as [s2 e2] eqn:R. injection H as <- <-.
        assert (NG : forall z, In z e2 -> z <> EGiven f).
        { unfold resume in R. destruct (alive (put s0 h None) g), b; injection R as <- <-; intros z Z ->; cbn in Z; intuition discriminate. }
        destruct u as [|x u].
        * injection E as <- <-. apply (resume_counts g) in R as (_ & R2 & _ & R4).
          unfold one in K. cbn [holds] in K. rewrite Nat.eqb_refl in K. split; [|exact R2].
          assert (holders g s2 = holders g (put s0 h None)) by (unfold holders; rewrite R4; reflexivity). lia.
        * injection E as <- E. exfalso. apply (NG (EGiven f)); [|reflexivity]. rewrite E. apply in_or_app. right. left. reflexivity.
      + injection H as <- <-. destruct u as [|x [|y u]]; discriminate.
    - destruct (negb (h <? length (handles s0))); [discriminate|]. injection H as H.
      exfalso. destruct (get s0 h) as [g|]; injection H as <- <-; eapply NI; try reflexivity; intros k K; [destruct (alive s0 g)|]; cbn in K; intuition discriminate.
    - injection H as H. exfalso. unfold resume in H. destruct (alive s0 g), b; injection H as <- <-; eapply NI; try reflexivity; intros k K; cbn in K; intuition discriminate. }
  assert (I0 : INV init) by (intro x; cbn; lia). revert C H I0. generalize init. subst es. revert a.
  induction ls as [|l r IH]; intros a s0 C H I0; cbn [run correct] in *.
  - injection H as _ H. destruct a; discriminate.
  - destruct C as [A C]. destruct (step t s0 l) as [[s1 e1]|] eqn:E; [|discriminate].
    destruct (run t s1 r) as [[s2 e2]|] eqn:E2; [|discriminate]. injection H as <- H.
    destruct (step_ok _ _ _ _ _ I0 A E) as (I1 & _ & _).
    (* where is the split *)
    assert (S : (exists u v, e1 = u ++ EGiven f :: v /\ b = v ++ e2) \/ (exists a', e2 = a' ++ EGiven f :: b)).
    { clear - H. revert a H. induction e1 as [|x e1 IHe]; intros a H; cbn in H.
      - right. exists a. exact H.
      - destruct a as [|y a]; cbn in H.
        + injection H as -> <-. left. exists [], e1. auto.
        + injection H as <- H. destruct (IHe a H) as [(u & v & -> & ->)|(a' & ->)].
          * left. exists (x :: u), v. auto.
          * right. exists a'. reflexivity. }
    destruct S as [(u & v & -> & ->)|(a' & ->)].
    + destruct (Q _ _ _ _ _ _ I0 A E eq_refl) as [Z D]. rewrite destroyed_app, D.
      rewrite adopted_app in NA. apply (P _ _ _ _ E2); lia.
    + exact (IH a' s1 C E2 I1).
Qed.
Print Assumptions C49_released.

(** Resuming through an rvalue handle transfers ownership: the handle is empty afterwards and the
    frame runs, and may end by itself *)
Theorem C49_rvalue_resume : forall typed ls s es h f ends s1 e1, correct typed init ls ->
  run typed init ls = Some (s, es) -> get s h = Some f ->
  step typed s (LResumeMoved h ends) = Some (s1, e1) ->
  get s1 h = None /\ holders f s1 = 0 /\ In (EGiven f) e1 /\ In (ERun f) e1.
Proof.
  intros t ls s es h f ends s1 e1 C H G E. destruct (reach _ _ _ _ C H) as (I & _ & _).
  unfold step in E. destruct (Nat.ltb_spec h (length (handles s))) as [N|N]; [cbn [negb] in E|discriminate].
  injection E as E. unfold release in E. rewrite G in E.
  pose proof (holders_put f s h None N) as K. pose proof (I f) as If. pose proof (holders_get _ _ _ G) as HG.
  assert (A : alive (put s h None) f = true).
  { apply alive_count. change (count_dead f (put s h None)) with (count_dead f s). lia. }
  rewrite G in K. unfold one in K. cbn [holds] in K. rewrite Nat.eqb_refl in K.
  unfold resume in E. rewrite A in E.
  destruct ends; injection E as <- <-; (split; [exact (get_put_same s h None N)|]); (split; [|cbn; auto]);
    unfold holders in *; cbn [handles put] in *; lia.
Qed.
Print Assumptions C49_rvalue_resume.

(** The caller's part is needed: a coroutine resumed through an lvalue handle that destroys itself is
    destroyed again *)
Theorem C49_lvalue_end_refuted : exists ls s es f,
  run true init ls = Some (s, es) /\ gone f es = 2 /\ In (EDead f) es.
Proof. exists [LNew (Some 3); LResume 0 true; LDestroy 0]. do 2 eexists. exists 3. split; [vm_compute; reflexivity|]. split; [reflexivity|]. cbn. auto 10. Qed.
Print Assumptions C49_lvalue_end_refuted.

(** release() of an empty handle is undefined for unique_handle<T> but not for unique_handle<void> *)
Theorem C49_release_empty_refuted : exists ls s s1 es,
  correct true init ls /\ run true init ls = Some (s, []) /\ step true s (LRelease 0) = Some (s1, es) /\ In ENull es /\
  step false s (LRelease 0) = Some (s, []).
Proof. exists [LNew None]. do 3 eexists. split; [cbn; auto|]. split; [reflexivity|]. split; [reflexivity|]. split; [cbn; auto|reflexivity]. Qed.
Print Assumptions C49_release_empty_refuted.

(** A correct history with moves (to itself too), a release and a self-destroying coroutine *)
Example C49_nonvacuous : exists s es,
  let ls := [LNew (Some 1); LNew (Some 2); LNew None; LMove 2 0; LMove 2 2; LMove 1 2; LRelease 1; LReset 0 (Some 1);
             LResume 0 false; LResumeMoved 0 true; LDestroy 0; LDestroy 1] in
  correct true init ls /\ run true init ls = Some (s, es) /\ all_empty s /\ gone 1 es = 1 /\ gone 2 es = 1 /\ given 1 es = 2.
Proof.
  do 2 eexists. split; [cbn; tauto|]. split; [reflexivity|]. split; [|repeat split].
  intros o H. cbn in H. intuition congruence.
Qed.
