(** * C45: as_tuple and as_result carry the same information as the throwing form *)
From Coq Require Import List Bool Arith ZArith.
From Verif Require Import Res_Model Res_Spec.
Import ListNotations.

(** what the initiation of an operation did not throw *)
Definition initiated (s : source) : Prop := match s with SOp (Some _) _ => False | _ => True end.

Lemma all_of_cases : forall l, Forall (fun o => o <> None) l -> exists v, all_of l = Ret v.
Proof.
  induction l as [|[a|] r IH]; cbn; intros H; inversion H; subst.
  - eexists. reflexivity.
  - destruct (IH H3) as [v ->]. eexists. reflexivity.
  - congruence.
Qed.
Lemma all_of_no_throw : forall l e, all_of l <> Thr e.
Proof.
  induction l as [|[a|] r IH]; cbn; intros e; try discriminate.
  destruct (all_of r) eqn:E; try discriminate. intros H. inversion H; subst. exact (IH _ eq_refl).
Qed.

(** as_result: for every awaitable of the library and every other one, in every state;
    missing: an operation whose initiation threw (refuted below). *)
Theorem C45_result_partial : forall s, initiated s -> same_result (plain s) (with_result s) /\ no_throw (with_result s).
Proof.
  intros s HI.
  assert (G : forall k r, same_result (bind (get_result k r) value) (get_result k r) /\ no_throw (get_result k r)).
  { intros k r. destruct (get_result k r) as [[v|e]|e|] eqn:E; cbn.
    - split; [split; intros; (split; [let K := fresh in intro K; inversion K; subst; reflexivity ..])|intros ?; discriminate].
    - split; [split; intros; (split; [let K := fresh in intro K; inversion K; subst; reflexivity ..])|intros ?; discriminate].
    - exfalso. unfold get_result in E. destruct (exception r), k, (stored r); discriminate.
    - split; [split; intros; (split; [let K := fresh in intro K; inversion K; subst; reflexivity ..])|intros ?; discriminate]. }
  assert (L : forall l, same_result (all_of l) (lift Ok (all_of l)) /\ no_throw (lift (@Ok val) (all_of l))).
  { intros l. destruct (all_of l) eqn:E; cbn; [| exfalso; exact (all_of_no_throw _ _ E) |];
      (split; [split; intros; (split; [let K := fresh in intro K; inversion K; subst; reflexivity ..])|intros ?; discriminate]). }
  destruct s as [i r|k n o|k ex r|k r|ex exc r|k r|v e i r|v e r|e r|r]; cbn in HI |- *;
    repeat match goal with
           | |- context [match ?x with _ => _ end] => is_var x; destruct x; cbn
           end; try contradiction; try apply G; try apply L;
    try (split; [split; intros; (split; [let K := fresh in intro K; inversion K; subst; reflexivity ..])|intros ?; discriminate]).
  all: match goal with |- context [interpret_as_result ?x] => destruct (interpret_as_result x) | |- context [value ?x] => destruct x end; cbn; (split; [split; intros; (split; [let K := fresh in intro K; inversion K; subst; reflexivity ..])|intros ?; discriminate]).
Qed.
Print Assumptions C45_result_partial.

(** as_tuple; missing: the cases refuted below. *)
Definition tuple_ok (current : option exn) (s : source) : Prop :=
  match s with
  | SOp (Some _) _ => False                              (* C45_initiation_refuted *)
  | SPromise Void _ _ | STask Void _ => False            (* C45_void_refuted *)
  | SRace false (Some _) _ None => False                 (* C45_race_refuted *)
  | SJoin false None _ => current = None                 (* C45_join_refuted *)
  | SThread None => False                                (* C45_thread_refuted *)
  | _ => True
  end.
Theorem C45_tuple_partial : forall current s, possible s -> tuple_ok current s ->
  same_tuple (has_slot s) (plain s) (with_tuple current s) /\ no_throw (with_tuple current s).
Proof.
  intros cur s HP HT.
  assert (G : forall k r, k <> Void -> get_result k r <> Ub -> same_tuple true (bind (get_result k r) value)
      (lift (fun x => match x with
                     | Err e => mkt false (AErr (Some e) :: default k)
                     | Ok v => mkt false (AErr None :: v)
                     end) (get_result k r)) /\
      no_throw (lift (fun x : res val => match x with
                     | Err e => mkt false (AErr (Some e) :: default k)
                     | Ok v => mkt false (AErr None :: v)
                     end) (get_result k r))).
  { intros k r Hk Hu. destruct (get_result k r) as [[v|e]|e|] eqn:E; cbn.
    - split; [reflexivity|intros ?; discriminate].
    - split; [split; [reflexivity|eexists; reflexivity]|intros ?; discriminate].
    - exfalso. unfold get_result in E. destruct (exception r), k, (stored r); discriminate.
    - congruence. }
  assert (L : forall l c, c = None -> same_tuple true (all_of l) (lift (fun v => mkt false (AErr c :: v)) (all_of l))
              /\ no_throw (lift (fun v : val => mkt false (AErr c :: v)) (all_of l))).
  { intros l c ->. destruct (all_of l) eqn:E; cbn; [| exfalso; exact (all_of_no_throw _ _ E) |]; (split; [reflexivity || exact Logic.I|intros ?; discriminate]). }
  destruct s as [[i|] [r|]|k [|] [o|o]|[| |n] [ex|] r|[| |n] r|[ex|] [exc|] [r|]|[| |n] [r|r]|[|] [e|] i [r|]|[|] [e|] r|[e|] r|[[r|]|]];
    cbn in HP, HT |- *; try contradiction; try (apply G; [discriminate|assumption]); try (apply L; auto; fail);
    try (split; [first [reflexivity | exact Logic.I | split; [reflexivity|eexists; reflexivity]]|intros ?; discriminate]).
  - destruct r as [|[v|[e|]] [|x y]]; cbn; (split; [first [reflexivity | split; [reflexivity|eexists; reflexivity]]|intros ?; discriminate]).
  - destruct (HP eq_refl) as [v Z]. discriminate.
  - subst r. split; [reflexivity|intros ?; discriminate].
Qed.
Print Assumptions C45_tuple_partial.

(** interpret_as_result: no leading error type: every argument is the value; a leading
    error type: the error iff it is set, and the value is all of the rest. *)
Theorem C45_interpret : forall args,
  interpret_as_result args =
  match args with
  | AErr (Some e) :: _ => Err e
  | AErr None :: rest => Ok rest
  | _ => Ok args
  end.
Proof. intros [|[v|[e|]] [|x y]]; reflexivity. Qed.
Print Assumptions C45_interpret.

(** Where the property fails.  An operation whose initiation threw throws through both forms: *)
Theorem C45_initiation_refuted : forall current e r,
  with_result (SOp (Some e) r) = Thr e /\ with_tuple current (SOp (Some e) r) = Thr e.
Proof. intros. split; reflexivity. Qed.
Print Assumptions C45_initiation_refuted.

(** as_tuple of a failed race of values reads a result that is not there: *)
Theorem C45_race_refuted : forall current e i,
  possible (SRace false (Some e) i None) /\ plain (SRace false (Some e) i None) = Thr e /\
  with_result (SRace false (Some e) i None) = Ret (Err e) /\
  with_tuple current (SRace false (Some e) i None) = Ub.
Proof. intros. repeat split. Qed.
Print Assumptions C45_race_refuted.

(** as_tuple of a promise<void> or task<void> is no tuple: *)
Theorem C45_void_refuted : forall current ex r,
  exists t, with_tuple current (SPromise Void ex r) = Ret t /\ bare t = true.
Proof.
  intros cur [e|] r; cbn; [eexists; split; reflexivity|].
  unfold get_result. destruct (exception r); cbn; eexists; split; reflexivity.
Qed.
Print Assumptions C45_void_refuted.

(** It is the exception alone, which is what the throwing form throws: *)
Theorem C45_void_partial : forall current s, (exists ex r, s = SPromise Void ex r) \/ (exists r, s = STask Void r) ->
  exists x, with_tuple current s = Ret (mkt true [AErr x]) /\
    (x = None <-> plain s = Ret []) /\ forall e, x = Some e <-> plain s = Thr e.
Proof.
  assert (X : forall r, exists x, lift (fun x => mkt true [AErr (error x)]) (get_result Void r) = Ret (mkt true [AErr x]) /\
     (x = None <-> bind (get_result Void r) value = Ret []) /\ forall e, x = Some e <-> bind (get_result Void r) value = Thr e).
  { intros r. unfold get_result. destruct (exception r) as [e|]; [exists (Some e)|exists None]; cbn;
      (split; [reflexivity|]); split; intros; split; intros K; inversion K; reflexivity. }
  intros cur s [([e|] & r & ->)|(r & ->)]; cbn; [|apply X..].
  exists (Some e). split; [reflexivity|]. split; intros; split; intros K; inversion K; reflexivity.
Qed.
Print Assumptions C45_void_partial.

(** as_tuple of a successful join of values that is resumed below a catch block reports
    the exception being handled there: *)
Theorem C45_join_refuted : exists l v, plain (SJoin false None l) = Ret v /\
  with_tuple (Some 5) (SJoin false None l) = Ret (mkt false (AErr (Some 5) :: v)).
Proof. exists [Some (AVal 1); Some (AVal 2)], [AVal 1; AVal 2]. split; reflexivity. Qed.
Print Assumptions C45_join_refuted.

(** as_tuple of a thread that is already done: *)
Theorem C45_thread_refuted : forall current, plain (SThread None) = Ret [] /\ with_tuple current (SThread None) = Ub.
Proof. split; reflexivity. Qed.
Print Assumptions C45_thread_refuted.

Example C45_nonvacuous :
  let s1 := SOp None (Some [AErr (Some 3); AVal 10]) in
  let s2 := SOp None (Some [AErr None; AVal 10]) in
  let s3 := SPromise Single None (mkr None true (Some [AVal 7])) in
  let s4 := SGeneric (Tuple 2) false (Err 4) in
  possible s1 /\ possible s2 /\ possible s3 /\ possible s4 /\
  plain s1 = Thr 3 /\ with_result s1 = Ret (Err 3) /\ with_tuple None s1 = Ret (mkt false [AErr (Some 3); AVal 10]) /\
  plain s2 = Ret [AVal 10] /\ with_result s2 = Ret (Ok [AVal 10]) /\
  with_tuple None s3 = Ret (mkt false [AErr None; AVal 7]) /\
  with_tuple None s4 = Ret (mkt false [AErr (Some 4); AVal 0; AVal 0]).
Proof. cbv zeta. repeat split; cbn; congruence. Qed.
