(** * Property theorems: the executor and memory resource of a thread (C64), of a coroutine (C65) *)
From Coq Require Import List Bool Arith Lia.
From Verif Require Import Tls_Model Tls_Spec.
Import ListNotations.

Definition inv (h : list act) (s : tls) : Prop :=
  (forall t c, slot s t = Some c <-> current h t c)
  /\ (forall t m, pool s t = m <-> current_res h t m)
  /\ (forall c, served s c = true <-> exists t, In (SetEx t c) h)
  /\ (forall c, gone s c = true <-> destroyed h c)
  /\ (forall h1 h2 t c u, h = h1 ++ Destroy u c :: h2 -> ~ In (SetEx t c) h2).

Lemma snoc_in : forall {A} (x a : A) h, In x (h ++ [a]) <-> In x h \/ x = a.
Proof. intros. rewrite in_app_iff. cbn. intuition congruence. Qed.

Lemma snoc_split : forall {A} (h : list A) a h1 h2 x, h ++ [a] = h1 ++ x :: h2 ->
  (h2 = [] /\ x = a /\ h1 = h) \/ exists h3, h2 = h3 ++ [a] /\ h = h1 ++ x :: h3.
Proof.
  intros A h a h1 h2 x E. destruct (@exists_last _ (x :: h2) ltac:(discriminate)) as (m & z & F).
  rewrite F, app_assoc in E. apply app_inj_tail in E as [E ->].
  destruct m as [|y m]; cbn in F; injection F as <- F.
  - left. rewrite app_nil_r in E. auto.
  - right. exists m. auto.
Qed.

Lemma current_snoc : forall h a t c, current (h ++ [a]) t c <->
  a = SetEx t c \/ (current h t c /\ (forall d, a <> SetEx t d) /\ a <> Destroy t c).
Proof.
  intros h a t c. split.
  - intros (h1 & h2 & E & N & D). destruct (snoc_split _ _ _ _ _ E) as [(-> & <- & ->)|(h3 & -> & ->)]; [auto|].
    right. split; [|split].
    + exists h1, h3. split; auto. split; [intros d H; apply (N d)|intros H; apply D]; apply in_app_iff; auto.
    + intros d ->. apply (N d). apply in_app_iff; cbn; auto.
    + intros ->. apply D. apply in_app_iff; cbn; auto.
  - intros [->|((h1 & h2 & -> & N & D) & N2 & D2)].
    + exists h, []. cbn; auto.
    + exists h1, (h2 ++ [a]). rewrite <- app_assoc. split; auto. split.
      * intros d. rewrite snoc_in. intros [H|H]; [apply (N d H)|apply (N2 d); auto].
      * rewrite snoc_in. intros [H|H]; [apply (D H)|apply D2; auto].
Qed.

Lemma current_res_snoc : forall h a t m, current_res (h ++ [a]) t m <->
  a = SetRes t m \/ (current_res h t m /\ (forall d, a <> SetRes t d)).
Proof.
  intros h a t m. split.
  - intros [(h1 & h2 & E & N)|[N ->]].
    + destruct (snoc_split _ _ _ _ _ E) as [(-> & <- & ->)|(h3 & -> & ->)]; [auto|].
      right. split.
      * left. exists h1, h3. split; auto. intros d H; apply (N d). apply in_app_iff; auto.
      * intros d ->. apply (N d). apply in_app_iff; cbn; auto.
    + right. split; [right; split; auto|]; intros d H; apply (N d); apply snoc_in; auto.
  - intros [->|([(h1 & h2 & -> & N)|[N ->]] & N2)].
    + left. exists h, []. cbn; auto.
    + left. exists h1, (h2 ++ [a]). rewrite <- app_assoc. split; auto.
      intros d. rewrite snoc_in. intros [H|H]; [apply (N d H)|apply (N2 d); auto].
    + right. split; auto. intros d. rewrite snoc_in. intros [H|H]; [apply (N d H)|apply (N2 d); auto].
Qed.

Lemma current_fun : forall h t c d, current h t c -> current h t d -> c = d.
Proof.
  intros h t c d (h1 & h2 & -> & N & _) (k1 & k2 & E & M & _).
  revert k1 E. induction h1 as [|a h1 IH]; intros [|b k1] E; cbn in E; injection E as E1 E2; subst.
  - congruence.
  - exfalso. apply (N d). apply in_app_iff; cbn; auto.
  - exfalso. apply (M c). apply in_app_iff; cbn; auto.
  - eauto.
Qed.

Lemma current_in : forall h t c, current h t c -> In (SetEx t c) h.
Proof. intros h t c (h1 & h2 & -> & _). apply in_app_iff; cbn; auto. Qed.

Ltac keep := split; [intros H; right; split; [exact H|]; try split; intros; discriminate | intros [H|[H _]]; [discriminate|exact H]].

Lemma inv_step : forall h s a s' r, inv h s -> tstep s a = Some (s', r) -> inv (h ++ [a]) s'.
Proof.
  intros h s a s' r (IS & IP & IV & IG & IL) E.
  assert (G : forall c, gone s c = false -> forall t, ~ In (Destroy t c) h).
  { intros c F t H. assert (gone s c = true) by (apply IG; exists t; auto). congruence. }
  assert (L : (forall t c, a = SetEx t c -> gone s c = false) ->
      forall h1 h2 t c u, h ++ [a] = h1 ++ Destroy u c :: h2 -> ~ In (SetEx t c) h2).
  { intros F h1 h2 t c u Q. destruct (snoc_split _ _ _ _ _ Q) as [(-> & _ & _)|(h3 & -> & ->)]; [auto|].
    rewrite snoc_in. intros [H|H]; [exact (IL _ _ _ _ _ eq_refl H)|].
    apply (G c (F t c (eq_sym H)) u). apply in_app_iff; cbn; auto. }
  destruct a as [c|t c|t c|t|t|t m|t]; cbn in E.
  - destruct (made s c); try discriminate. injection E as <- <-. split; [|split; [|split; [|split]]]; cbn.
    + intros t d. rewrite IS, current_snoc. keep.
    + intros t d. rewrite IP, current_res_snoc. keep.
    + intros d. rewrite IV. split; intros [t H]; exists t; [apply snoc_in; auto|apply snoc_in in H as [H|H]; [auto|discriminate]].
    + intros d. rewrite IG. split; intros [t H]; exists t; [apply snoc_in; auto|apply snoc_in in H as [H|H]; [auto|discriminate]].
    + apply L. discriminate.
  - destruct (made s c); cbn in E; try discriminate. destruct (gone s c) eqn:GC; cbn in E; try discriminate. injection E as <- <-.
    split; [|split; [|split; [|split]]]; cbn.
    + intros u d. rewrite current_snoc, <- IS.
      assert (Q : (match slot s t with Some d => d | None => S c end = c -> served s c = true)).
      { destruct (slot s t) as [e|] eqn:S; [intros ->|intros H; exfalso; clear -H; lia].
        apply IV. exists t. apply current_in. apply IS. auto. }
      destruct (served s c) eqn:SV.
      * destruct (slot s t) as [e|] eqn:S.
        -- destruct (Nat.eqb_spec e c) as [->|NE]; unfold upd.
           ++ destruct (Nat.eqb_spec u t) as [->|NU].
              ** rewrite S. split; [discriminate|]. intros [H|(H & _ & H2)]; [discriminate|]. injection H as ->. congruence.
              ** split; [|intros [H|(H & _)]; [discriminate|exact H]]. intros H. right. repeat split; auto; try discriminate. congruence.
           ++ split; [|intros [H|(H & _)]; [discriminate|exact H]]. intros H. right. repeat split; auto; try discriminate.
              intros H1. injection H1 as -> ->. congruence.
        -- split; [|intros [H|(H & _)]; [discriminate|exact H]]. intros H. right. repeat split; auto; try discriminate.
           intros H1. injection H1 as -> ->. congruence.
      * split; [|intros [H|(H & _)]; [discriminate|exact H]]. intros H. right. repeat split; auto; try discriminate.
        intros H1. injection H1 as -> ->. rewrite H in Q. discriminate (Q eq_refl).
    + intros u d. rewrite IP, current_res_snoc. keep.
    + intros d. rewrite IV. split; intros [u H]; exists u; [apply snoc_in; auto|apply snoc_in in H as [H|H]; [auto|discriminate]].
    + intros d. unfold upd. destruct (Nat.eqb_spec d c) as [->|NE].
      * split; auto. intros _. exists t. apply snoc_in; auto.
      * rewrite IG. split; intros [u H]; exists u; [apply snoc_in; auto|apply snoc_in in H as [H|H]; [auto|congruence]].
    + apply L. discriminate.
  - destruct (made s c); cbn in E; try discriminate. destruct (gone s c) eqn:GC; cbn in E; try discriminate. injection E as <- <-.
    split; [|split; [|split; [|split]]]; cbn.
    + intros u d. rewrite current_snoc, <- IS. unfold upd. destruct (Nat.eqb_spec u t) as [->|NU].
      * split; [intros H; left; congruence|]. intros [H|(H & N & _)]; [congruence|]. exfalso. apply (N c). auto.
      * split; [intros H; right; repeat split; auto; congruence|]. intros [H|(H & _)]; [congruence|auto].
    + intros u d. rewrite IP, current_res_snoc. keep.
    + intros d. unfold upd. destruct (Nat.eqb_spec d c) as [->|NE].
      * split; auto. intros _. exists t. apply snoc_in; auto.
      * rewrite IV. split; intros [u H]; exists u; [apply snoc_in; auto|apply snoc_in in H as [H|H]; [auto|congruence]].
    + intros d. rewrite IG. split; intros [u H]; exists u; [apply snoc_in; auto|apply snoc_in in H as [H|H]; [auto|discriminate]].
    + apply L. intros u d H. injection H as <- <-. auto.
  - injection E as <- <-. split; [|split; [|split; [|split]]]; cbn.
    + intros u d. rewrite IS, current_snoc. keep.
    + intros u d. rewrite IP, current_res_snoc. keep.
    + intros d. rewrite IV. split; intros [u H]; exists u; [apply snoc_in; auto|apply snoc_in in H as [H|H]; [auto|discriminate]].
    + intros d. rewrite IG. split; intros [u H]; exists u; [apply snoc_in; auto|apply snoc_in in H as [H|H]; [auto|discriminate]].
    + apply L. discriminate.
  - injection E as <- <-. split; [|split; [|split; [|split]]]; cbn.
    + intros u d. rewrite IS, current_snoc. keep.
    + intros u d. rewrite IP, current_res_snoc. keep.
    + intros d. rewrite IV. split; intros [u H]; exists u; [apply snoc_in; auto|apply snoc_in in H as [H|H]; [auto|discriminate]].
    + intros d. rewrite IG. split; intros [u H]; exists u; [apply snoc_in; auto|apply snoc_in in H as [H|H]; [auto|discriminate]].
    + apply L. discriminate.
  - injection E as <- <-. split; [|split; [|split; [|split]]]; cbn.
    + intros u d. rewrite IS, current_snoc. keep.
    + intros u d. rewrite current_res_snoc, <- IP. unfold upd. destruct (Nat.eqb_spec u t) as [->|NU].
      * split; [intros ->; auto|]. intros [H|(H & N)]; [congruence|]. exfalso. apply (N m). auto.
      * split; [intros H; right; split; auto; congruence|]. intros [H|(H & _)]; [congruence|auto].
    + intros d. rewrite IV. split; intros [u H]; exists u; [apply snoc_in; auto|apply snoc_in in H as [H|H]; [auto|discriminate]].
    + intros d. rewrite IG. split; intros [u H]; exists u; [apply snoc_in; auto|apply snoc_in in H as [H|H]; [auto|discriminate]].
    + apply L. discriminate.
  - injection E as <- <-. split; [|split; [|split; [|split]]]; cbn.
    + intros u d. rewrite IS, current_snoc. keep.
    + intros u d. rewrite IP, current_res_snoc. keep.
    + intros d. rewrite IV. split; intros [u H]; exists u; [apply snoc_in; auto|apply snoc_in in H as [H|H]; [auto|discriminate]].
    + intros d. rewrite IG. split; intros [u H]; exists u; [apply snoc_in; auto|apply snoc_in in H as [H|H]; [auto|discriminate]].
    + apply L. discriminate.
Qed.

Lemma inv_init : inv [] tinit.
Proof.
  split; [|split; [|split; [|split]]]; cbn.
  - intros t c. split; [discriminate|]. intros (h1 & h2 & E & _). destruct h1; discriminate.
  - intros t m. split; [intros <-; right; auto|]. intros [(h1 & h2 & E & _)|[_ ->]]; [destruct h1; discriminate|auto].
  - intros c. split; [discriminate|]. intros [t []].
  - intros c. split; [discriminate|]. intros [t []].
  - intros h1 h2 t c u E. destruct h1; discriminate.
Qed.

Lemma inv_run : forall l h s s' rs, inv h s -> trun s l = Some (s', rs) -> inv (h ++ l) s'.
Proof.
  induction l as [|a l IH]; intros h s s' rs I E; cbn in E.
  - injection E as <- <-. rewrite app_nil_r. auto.
  - destruct (tstep s a) as [[s1 r]|] eqn:E1; try discriminate.
    destruct (trun s1 l) as [[s2 rs2]|] eqn:E2; try discriminate. injection E as <- <-.
    replace (h ++ a :: l) with ((h ++ [a]) ++ l) by (rewrite <- app_assoc; reflexivity).
    eapply IH; eauto. eapply inv_step; eauto.
Qed.

(** ** C64 *)

(** get_executor returns what this thread set last, unless this thread has destroyed the context
    since; otherwise it throws; has_executor tells which. No other thread has a say. *)
Theorem C64_get : forall h s rs t, trun tinit h = Some (s, rs) ->
  (forall c, tstep s (GetEx t) = Some (s, Exec c) <-> current h t c)
  /\ (tstep s (GetEx t) = Some (s, BadExecutor) <-> forall c, ~ current h t c)
  /\ (tstep s (HasEx t) = Some (s, Bool true) <-> exists c, current h t c).
Proof.
  intros h s rs t E. destruct (inv_run _ [] _ _ _ inv_init E) as (IS & _). cbn [app] in IS. cbn. split; [|split].
  - intros c. rewrite <- IS. destruct (slot s t); split; intros H; congruence.
  - split.
    + intros H c C. apply IS in C. rewrite C in H. discriminate.
    + intros H. destruct (slot s t) eqn:S; auto. exfalso. apply (H n). apply IS; auto.
  - split.
    + intros H. destruct (slot s t) as [c|] eqn:S; [|discriminate]. exists c. apply IS; auto.
    + intros [c C]. apply IS in C. rewrite C. auto.
Qed.

(** The memory resource of a thread is the one it set last; setting one returns the previous one. *)
Theorem C64_resource : forall h s rs t, trun tinit h = Some (s, rs) -> exists m, current_res h t m
  /\ tstep s (GetRes t) = Some (s, Res m) /\ forall m2, exists s2, tstep s (SetRes t m2) = Some (s2, Res m).
Proof.
  intros h s rs t E. destruct (inv_run _ [] _ _ _ inv_init E) as (_ & IP & _). cbn [app] in IP.
  exists (pool s t). split; [apply IP; auto|]. split; [reflexivity|]. intros m2. eexists. reflexivity.
Qed.

(** What get_executor returns belongs to a context that exists, if contexts are destroyed by the thread that uses them.
    Missing: contexts destroyed by another thread (refuted below). *)
Theorem C64_no_dangling_partial : forall h s rs t c, trun tinit h = Some (s, rs) -> own_contexts h ->
  tstep s (GetEx t) = Some (s, Exec c) -> ~ destroyed h c.
Proof.
  intros h s rs t c E O G. destruct (inv_run _ [] _ _ _ inv_init E) as (IS & _ & _ & _ & IL). cbn [app] in *.
  apply (proj1 (C64_get _ _ _ t E)) in G. intros [u D].
  assert (u = t) by (apply (O t u c); auto; apply current_in; auto). subst u.
  destruct G as (h1 & h2 & -> & N & ND). apply in_app_iff in D as [D|[D|D]]; [|discriminate|contradiction].
  apply in_split in D as (k1 & k2 & ->). refine (IL k1 (k2 ++ SetEx t c :: h2) t c t _ _).
  - rewrite <- app_assoc. reflexivity.
  - apply in_app_iff. cbn; auto.
Qed.

(** If another thread destroys the context, the thread's executor dangles. *)
Theorem C64_dangling_refuted : exists s rs,
  trun tinit [Make 1; SetEx 7 1; Destroy 8 1; GetEx 7] = Some (s, rs ++ [Exec 1]) /\ gone s 1 = true.
Proof. eexists. exists [Unit; Unit; Unit]. split; vm_compute; reflexivity. Qed.

Example C64_nonvacuous : let h := [Make 1; Make 2; SetEx 7 1; SetEx 8 2; SetRes 7 5; Destroy 7 1; Make 3; SetEx 7 3] in
  own_contexts h /\ option_map snd (trun tinit (h ++ [GetEx 7; GetEx 8; GetEx 9; GetRes 7]))
    = Some [Unit; Unit; Unit; Unit; Res 0; Unit; Unit; Unit; Exec 3; Exec 2; BadExecutor; Res 5].
Proof.
  split.
  - intros t u c H1 H2. cbn in H1, H2.
    repeat match goal with H : _ \/ _ |- _ => destruct H as [H|H] | H : False |- _ => destruct H end; congruence.
  - vm_compute. reflexivity.
Qed.

(** ** C65: the executor and the memory resource of a coroutine come from its arguments *)

Lemma mp_find_spec : forall p l,
  (mp_find p l = length l /\ forall a, In a l -> p a = false)
  \/ exists l1 a l2, l = l1 ++ a :: l2 /\ p a = true /\ (forall b, In b l1 -> p b = false) /\ mp_find p l = length l1.
Proof.
  intros p. induction l as [|a l IH]; cbn.
  - left. split; auto. intros a [].
  - destruct (p a) eqn:P.
    + right. exists [], a, l. repeat split; auto. intros b [].
    + destruct IH as [[-> N]|(l1 & b & l2 & -> & Pb & N & ->)].
      * left. split; auto. intros b [<-|H]; auto.
      * right. exists (a :: l1), b, l2. repeat split; auto. intros c [<-|H]; auto.
Qed.

(** With a tag: what follows the first one. Without: the default. *)
Theorem C65_executor : forall l,
  (~ In ExecutorArg l -> executor_from_args l = ThreadDefault)
  /\ (forall l1 c l2, l = l1 ++ ExecutorArg :: AnExecutor c :: l2 -> ~ In ExecutorArg l1 -> executor_from_args l = Given c)
  /\ forall l1 l2, l = l1 ++ ExecutorArg :: l2 -> ~ In ExecutorArg l1 -> (forall c r, l2 <> AnExecutor c :: r) ->
     executor_from_args l = IllFormed.
Proof.
  intros l. unfold executor_from_args. split; [|split].
  - intros N. destruct (mp_find_spec (fun a => match a with ExecutorArg => true | _ => false end) l) as [[-> _]|(l1 & a & l2 & -> & P & _)].
    + rewrite Nat.eqb_refl. auto.
    + exfalso. apply N. destruct a; try discriminate. apply in_app_iff; cbn; auto.
  - intros l1 c l2 -> N.
    assert (F : mp_find (fun a => match a with ExecutorArg => true | _ => false end) (l1 ++ ExecutorArg :: AnExecutor c :: l2) = length l1).
    { induction l1 as [|b l1 IH]; cbn; auto. destruct b; try (rewrite IH; auto; intros H; apply N; cbn; auto). exfalso. apply N; cbn; auto. }
    rewrite F. rewrite app_length. cbn [length]. destruct (Nat.eqb_spec (length l1 + S (S (length l2))) (length l1)); [lia|].
    rewrite nth_error_app2 by lia. replace (length l1 + 1 - length l1) with 1 by lia. reflexivity.
  - intros l1 l2 -> N B.
    assert (F : mp_find (fun a => match a with ExecutorArg => true | _ => false end) (l1 ++ ExecutorArg :: l2) = length l1).
    { induction l1 as [|b l1 IH]; cbn; auto. destruct b; try (rewrite IH; auto; intros H; apply N; cbn; auto). exfalso. apply N; cbn; auto. }
    rewrite F. rewrite app_length. cbn [length]. destruct (Nat.eqb_spec (length l1 + S (length l2)) (length l1)); [lia|].
    rewrite nth_error_app2 by lia. replace (length l1 + 1 - length l1) with 1 by lia.
    destruct l2 as [|b r]; cbn; auto. destruct b as [|q|q|q|q]; auto. exfalso. exact (B _ _ eq_refl).
Qed.

Theorem C65_resource : forall l,
  (~ In AllocatorArg l -> resource_from_args l = ThreadDefault /\ resource_from_args_global l = GlobalDefault)
  /\ (forall l1 m l2, l = l1 ++ AllocatorArg :: AnAllocator m :: l2 -> ~ In AllocatorArg l1 ->
     resource_from_args l = Given m /\ resource_from_args_global l = Given m)
  /\ forall l1 l2, l = l1 ++ AllocatorArg :: l2 -> ~ In AllocatorArg l1 -> (forall m r, l2 <> AnAllocator m :: r) ->
     resource_from_args l = IllFormed /\ resource_from_args_global l = IllFormed.
Proof.
  intros l. unfold resource_from_args, resource_from_args_global. split; [|split].
  - intros N. destruct (mp_find_spec (fun a => match a with AllocatorArg => true | _ => false end) l) as [[-> _]|(l1 & a & l2 & -> & P & _)].
    + rewrite Nat.eqb_refl. auto.
    + exfalso. apply N. destruct a; try discriminate. apply in_app_iff; cbn; auto.
  - intros l1 m l2 -> N.
    assert (F : mp_find (fun a => match a with AllocatorArg => true | _ => false end) (l1 ++ AllocatorArg :: AnAllocator m :: l2) = length l1).
    { induction l1 as [|b l1 IH]; cbn; auto. destruct b; try (rewrite IH; auto; intros H; apply N; cbn; auto). exfalso. apply N; cbn; auto. }
    rewrite F. rewrite app_length. cbn [length]. destruct (Nat.eqb_spec (length l1 + S (S (length l2))) (length l1)); [lia|].
    rewrite nth_error_app2 by lia. replace (length l1 + 1 - length l1) with 1 by lia. auto.
  - intros l1 l2 -> N B.
    assert (F : mp_find (fun a => match a with AllocatorArg => true | _ => false end) (l1 ++ AllocatorArg :: l2) = length l1).
    { induction l1 as [|b l1 IH]; cbn; auto. destruct b; try (rewrite IH; auto; intros H; apply N; cbn; auto). exfalso. apply N; cbn; auto. }
    rewrite F. rewrite app_length. cbn [length]. destruct (Nat.eqb_spec (length l1 + S (length l2)) (length l1)); [lia|].
    rewrite nth_error_app2 by lia. replace (length l1 + 1 - length l1) with 1 by lia.
    destruct l2 as [|b r]; cbn; auto. destruct b as [|q|q|q|q]; auto. exfalso. exact (B _ _ eq_refl).
Qed.

Example C65_nonvacuous :
  executor_from_args [Other 0; ExecutorArg; AnExecutor 4; ExecutorArg; AnExecutor 5; AllocatorArg; AnAllocator 6] = Given 4
  /\ resource_from_args [Other 0; ExecutorArg; AnExecutor 4; AllocatorArg; AnAllocator 6] = Given 6
  /\ executor_from_args [Other 0; AnExecutor 4] = ThreadDefault
  /\ executor_from_args [ExecutorArg; Other 0; AnExecutor 4] = IllFormed.
Proof. repeat split. Qed.

Print Assumptions C64_get.
Print Assumptions C64_resource.
Print Assumptions C64_no_dangling_partial.
Print Assumptions C64_dangling_refuted.
Print Assumptions C64_nonvacuous.
Print Assumptions C65_executor.
Print Assumptions C65_resource.
Print Assumptions C65_nonvacuous.
