(** * Theorems about races over generators (C76)

    [proper], [alone], [steady], [as_lvalue] and [all_lvalues] are defined in Rgn_Spec.v. *)
From Coq Require Import List Bool Arith Lia.
From Verif Require Import Gen_Model Gen_Spec Gen_Inv Gen_Final Gen_Props Rgn_Model Rgn_Spec Rgn_Inv Rgn_Step Rgn_Run Rgn_More.
Import ListNotations.

Section Props.
Context {Y P E : Type}.
(** [nv g]: generator [g] takes no pushed value. *)
Variables (nv : nat -> bool) (ls : list (rlabel Y P E)) (s : rstate Y P E) (tr : list (revent Y P E)).
Hypothesis Pr : proper nv rinit ls.
Hypothesis Al : alone ls.
Hypothesis R : rrun nv rinit ls = Some (s, tr).
(** The members of the races exist, and none is destroyed while a race waits for it. *)
Hypothesis D : ub s = false.

Lemma init_Post : Post (@rinit Y P E).
Proof. intros H. discriminate H. Qed.
Lemma init_L : L (@rinit Y P E).
Proof. intros H. now contradiction H. Qed.
Lemma init_Last : Last (@rinit Y P E).
Proof. intros a b c H. discriminate H. Qed.

Lemma run_good : good s.
Proof.
  split; [|exact D].
  set (Rc := fun g => exists ms o mb, In (Await ms o) ls /\ In mb ms /\ gen mb = g).
  apply (rrun_odd nv Rc ls rinit s tr); auto using init_Post.
  - apply init_W.
  - constructor; cbn; [discriminate|contradiction|constructor].
  - intros l Hl. destruct l as [ms o| |g l|t|]; cbn; auto.
    + split; [now apply (proj1 Al ms o)|]. intros mb Hm. exists ms, o, mb. auto.
    + destruct l; auto. intros (ms & o & mb & Ha & Hm & <-). exact (proj2 Al ms o mb w p Ha Hm Hl).
Qed.
Lemma run_all : W nv s /\ Post s /\ sim nv (history ls []) rinit s tr /\
  (steady nv rinit ls -> L s /\ forall g, as_lvalue g ls -> raced g tr = won g tr ++ pend g s).
Proof.
  destruct (rrun_RStep nv ls rinit s tr (init_W nv) init_Post Pr run_good R) as (I & Po & _ & Sm & Ac).
  split; [exact I|]. split; [exact Po|]. split; [exact Sm|]. intros Sd. destruct (Ac Sd init_L) as [HL A]. split; [exact HL|].
  intros g V. rewrite <- (A g); [reflexivity| |exact V]. intros mb [].
Qed.

(** C76: what happens in a generator that is raced is a history of C24-C26, supported by the
    implementation; so all that is proved there of histories holds of it. *)
Theorem C76_histories_partial : forall g, exists gl,
  correct (nv g) init gl /\ run (nv g) init gl = Some (gens s g, at_gen g tr) /\
  (In LInitial gl -> In (Env g LInitial) ls).
Proof.
  intros g. destruct run_all as (_ & _ & Sm & _). destruct (Sm g) as (gl & C & Rn & Q). exists gl. split; [exact C|]. split; [exact Rn|].
  intros H. destruct (Q _ H) as [X|[(k & p & X)|[(k & X)|(k & t & X & _)]]]; [exact X|discriminate|discriminate|discriminate].
Qed.

(** C76: everything the races took from a generator that is always an lvalue argument was given to
    the racing coroutine, in order; what the race that goes on has taken it will give. *)
Theorem C76_nothing_lost_partial : steady nv rinit ls -> forall g, as_lvalue g ls ->
  exists pending, raced g tr = won g tr ++ pending /\ length pending <= 1 /\ (pc s = Idle -> pending = []).
Proof.
  intros Sd g V. destruct run_all as (I & _ & _ & A). destruct (A Sd) as [_ Ac]. exists (pend g s). split; [now apply Ac|]. split.
  - unfold pend. destruct (idx s); [|cbn; lia]. destruct (out s); [|cbn; lia]. destruct (nth_error (mem s) n); [|cbn; lia]. destruct ((gen m =? g) && given o); cbn; lia.
  - intros Pc. unfold pend. now rewrite (proj2 (w_idle _ _ I Pc)).
Qed.

Lemma run_mem : all_lvalues ls -> forall mb, In mb (mem s) -> lv mb = true.
Proof.
  intros V. assert (X : forall ls0 (s0 s1 : rstate Y P E) tr0, W nv s0 -> Post s0 -> proper nv s0 ls0 -> good s1 -> rrun nv s0 ls0 = Some (s1, tr0) ->
    (forall mb, In mb (mem s0) -> lv mb = true) -> all_lvalues ls0 -> forall mb, In mb (mem s1) -> lv mb = true).
  { induction ls0 as [|l t IH]; intros s0 s1 tr0 I Po Pr0 Gd H HM HA; cbn in H, Pr0; [injection H as <- <-; exact HM|].
    destruct (rstep nv s0 l) as [[x e]|] eqn:S; [|discriminate]. destruct (rrun nv x t) as [[y e']|] eqn:R0; [|discriminate]. injection H as <- <-.
    destruct Pr0 as [Fn Pr0]. assert (Gx : good x) by exact (rrun_le _ _ _ _ _ R0 Gd). destruct (rstep_RStep nv l s0 x e I Po Fn Gx S) as [Gs A].
    apply (IH x y e'); auto; try apply A.
    - intros mb Hm. destruct (r_mem _ _ _ _ _ A _ Hm) as [X|(ms & o & -> & X)]; [now apply HM|]. exact (HA ms o mb (or_introl eq_refl) X).
    - intros ms o mb Hm. apply (HA ms o mb). now right. }
  exact (X ls rinit s tr (init_W nv) init_Post Pr run_good R (fun mb (H : In mb []) => match H with end) V).
Qed.
Lemma run_steady : all_lvalues ls -> steady nv rinit ls.
Proof.
  intros V. apply (all_lvalues_steady nv ls rinit s tr); auto using init_Post, init_L, init_Last, run_good, (init_W nv).
Qed.
(** A race over lvalues that is decided has returned when it would wait. *)
Lemma waiting_open : all_lvalues ls -> pc s = Waiting -> idx s = None.
Proof.
  intros V Pc. destruct run_all as (I & Po & _ & A). destruct (A (run_steady V)) as [HL _].
  destruct (idx s) as [i|] eqn:Ix; [exfalso|reflexivity]. destruct (Po Pc) as (k & Hk & Ak).
  destruct (w_act _ _ I _ Ak) as (mb & tp & M & _). assert (X : lv mb = false) by (apply (HL ltac:(congruence) k); auto).
  rewrite (run_mem V) in X by (eapply nth_error_In; eauto). discriminate.
Qed.

(** C76: if all arguments of all races are lvalues, this holds of every generator, and nothing is
    pending while a race waits. *)
Theorem C76_lvalues_partial : all_lvalues ls -> forall g,
  exists pending, raced g tr = won g tr ++ pending /\ length pending <= 1 /\ (pc s = Idle \/ pc s = Waiting -> pending = []).
Proof.
  intros V g. destruct run_all as (I & _ & _ & A). destruct (A (run_steady V)) as [_ Ac]. exists (pend g s).
  split; [apply Ac; intros ms o mb Ha Hm _; exact (V ms o mb Ha Hm)|]. split.
  - unfold pend. destruct (idx s); [|cbn; lia]. destruct (out s); [|cbn; lia]. destruct (nth_error (mem s) n); [|cbn; lia]. destruct ((gen m =? g) && given o); cbn; lia.
  - intros Pc. unfold pend. destruct Pc as [Pc|Pc]; [now rewrite (proj2 (w_idle _ _ I Pc))|now rewrite (waiting_open V Pc)].
Qed.

(** C76: in terms of the values: if nobody else takes values of [g], what the coroutine of [g]
    yielded is, in order, what the races gave, and what the generator holds: at most two values, at
    most one if it takes pushed values or is eager. *)
Lemma taken_raced : forall g (t : list (revent Y P E)), taken_by_others g t = [] -> taken (at_gen g t) = values (raced g t).
Proof.
  intros g t. unfold taken_by_others, raced. induction (at_gen g t) as [|e r IH]; [reflexivity|].
  destruct e; cbn; auto.
  - destruct r0 as [y|x]; cbn.
    + destruct (Nat.even w); cbn; [intros H; f_equal; auto|discriminate].
    + intros H. destruct x, (Nat.even w); cbn; auto.
  - destruct r0 as [y|x]; cbn; [discriminate|auto].
Qed.
Theorem C76_values_partial : all_lvalues ls -> forall g, taken_by_others g tr = [] -> pc s = Idle \/ pc s = Waiting ->
  exists held, yielded (at_gen g tr) = values (won g tr) ++ held /\ length held <= 2 /\
    (nv g = false \/ ~ In (Env g LInitial) ls -> length held <= 1).
Proof.
  intros V g To Pc. destruct (C76_lvalues_partial V g) as (pd & Hr & _ & Hp). rewrite (Hp Pc), app_nil_r in Hr.
  destruct (C76_histories_partial g) as (gl & C & Rn & Hi).
  destruct (C24_in_order_partial _ _ _ _ C Rn) as (held & Hy & Hl). exists held. rewrite (taken_raced _ _ To), Hr in Hy. split; [exact Hy|]. split; [exact Hl|].
  intros K. assert (X : length (yielded (at_gen g tr)) <= S (length (taken (at_gen g tr)))).
  { apply (C26_one_outstanding_partial _ _ _ _ C Rn). destruct K as [K|K]; [now left|]. right. right. intros H. now apply K, Hi. }
  rewrite (taken_raced _ _ To), Hr, Hy, app_length in X. lia.
Qed.

(** C76: the exception of a generator that takes pushed values or is eager is given after all its
    values, and once. *)
Theorem C76_exception_last_partial : forall g, nv g = false \/ ~ In (Env g LInitial) ls ->
  forall a w e b, at_gen g tr = a ++ EResult w (RExc (XUser e)) :: b -> taken a = yielded a.
Proof.
  intros g K. destruct (C76_histories_partial g) as (gl & C & Rn & Hi).
  apply (C24_exception_last_partial _ _ _ _ C Rn). destruct K as [K|K]; [now left|]. right. right. intros H. now apply K, Hi.
Qed.
Theorem C76_exception_once_partial : forall g, failures (at_gen g tr) <= 1.
Proof. intros g. destruct (C76_histories_partial g) as (gl & C & Rn & Hi). exact (C24_exception_once_partial _ _ _ _ C Rn). Qed.

(** C76: a race cancels no generator that is an lvalue argument: a signal it gets comes from
    somewhere else or was forwarded. *)
Lemma step_signal n l (x y : state Y P E) ev t : step n l x = Some (y, ev) -> In (ESignal t) ev ->
  l = LCancel t \/ l = LDestroy1 \/ exists w, l = LSignal w t.
Proof.
  intros S H. destruct x as [lf r b ex d a lz pu c rc w]. destruct l.
  all: unfold step, cancel, final, arrive, resume, continue, kill_w, await_resume, store, get_result, ready, live, frame, yielding in S; cbn -[upd] in S; Gen_Inv.split_step S.
  all: injection S as <- <-.
  all: cbn -[upd] in H; rewrite ?in_app_iff in H; cbn -[upd] in H.
  all: repeat match goal with H : _ \/ _ |- _ => destruct H end; try contradiction; try congruence.
  all: try (injection H as <-); eauto.
Qed.
Lemma run_signal n t : forall gl (x y : state Y P E) ev, run n x gl = Some (y, ev) -> In (ESignal t) ev ->
  exists l, In l gl /\ (l = LCancel t \/ l = LDestroy1 \/ exists w, l = LSignal w t).
Proof.
  induction gl as [|l r IH]; intros x y ev H Hin; cbn in H; [injection H as <- <-; contradiction|].
  destruct (step n l x) as [[z e]|] eqn:S; [|discriminate]. destruct (run n z r) as [[q e']|] eqn:T; [|discriminate]. injection H as <- <-.
  apply in_app_or in Hin. destruct Hin as [Hin|Hin].
  - exists l. split; [now left|]. eapply step_signal; eauto.
  - destruct (IH _ _ _ T Hin) as (l0 & H0 & K). exists l0. split; [now right|exact K].
Qed.
Theorem C76_losers_not_cancelled : forall g, as_lvalue g ls -> forall t, In (G g (ESignal t)) tr ->
  In (Cancel t) ls \/ In (Env g (LCancel t)) ls \/ In (Env g LDestroy1) ls \/ exists w, In (Env g (LSignal w t)) ls.
Proof.
  intros g V t H. destruct run_all as (_ & _ & Sm & _). destruct (Sm g) as (gl & C & Rn & Q).
  assert (Hin : In (ESignal t) (at_gen g tr)).
  { apply in_flat_map. eexists. split; [exact H|]. cbn. rewrite Nat.eqb_refl. now left. }
  destruct (run_signal _ _ _ _ _ _ Rn Hin) as (l & Hl & K).
  destruct (Q _ Hl) as [X|[(k & p & ->)|[(k & ->)|(k & u & -> & X)]]].
  - destruct K as [->|[->|[w ->]]]; eauto.
  - destruct K as [K|[K|[w K]]]; discriminate.
  - destruct K as [K|[K|[w K]]]; discriminate.
  - destruct K as [K|[K|[w K]]]; try discriminate. injection K as _ <-.
    destruct X as [X|[(mb & [] & _)|(ms & o & mb & Ha & Hm & Eg & Vm)]]; [now left|]. rewrite (V ms o mb Ha Hm Eg) in Vm. discriminate.
Qed.

(** C76: a race over lvalues waits for all of its members, and not although one of them has
    something: if it takes pushed values or is eager, all its coroutine yielded was taken (except
    while a returning coroutine destroys its local variables). *)
Theorem C76_prompt_partial : all_lvalues ls -> pc s = Waiting -> forall k mb, nth_error (mem s) k = Some mb ->
  (exists tp, ws (gens s (gen mb)) (fid k) = WSusp tp) /\
  (nv (gen mb) = false \/ ~ In (Env (gen mb) LInitial) ls -> cst (gens s (gen mb)) <> Returning ->
   taken (at_gen (gen mb) tr) = yielded (at_gen (gen mb) tr)).
Proof.
  intros V Pc k mb M. destruct run_all as (I & _). destruct (w_wait _ _ I Pc) as [_ Wt].
  assert (A : fk s k = Active) by (apply Wt; [now apply waiting_open|apply nth_error_Some; congruence]).
  destruct (w_act _ _ I _ A) as (mb' & tp & M' & Ws). assert (mb' = mb) by congruence. subst mb'. split; [eauto|].
  intros K NR. destruct (C76_histories_partial (gen mb)) as (gl & C & Rn & Hi).
  apply (C24_prompt_partial _ _ _ _ C Rn) with (w := fid k) (tp := tp); auto.
  destruct K as [K|K]; [now left|]. right. right. intros H. now apply K, Hi.
Qed.
End Props.

Print Assumptions C76_histories_partial.
Print Assumptions C76_nothing_lost_partial.
Print Assumptions C76_lvalues_partial.
Print Assumptions C76_values_partial.
Print Assumptions C76_exception_last_partial.
Print Assumptions C76_exception_once_partial.
Print Assumptions C76_losers_not_cancelled.
Print Assumptions C76_prompt_partial.

Notation lb := (rlabel nat nat nat).
Definition ran nv (ls : list lb) : bool := match rrun nv rinit ls with Some _ => true | None => false end.
Definition trace nv (ls : list lb) : list (revent nat nat nat) := match rrun nv rinit ls with Some (_, tr) => tr | None => [] end.
Definition final nv (ls : list lb) : rstate nat nat nat := match rrun nv rinit ls with Some (s, _) => s | None => rinit end.
Lemma ran_run nv ls : ran nv ls = true -> rrun nv rinit ls = Some (final nv ls, trace nv ls).
Proof. unfold ran, final, trace. destruct (rrun nv rinit ls) as [[s tr]|]; [reflexivity|discriminate]. Qed.

(** Two generators that are raced three times and once more: the first race gets the value that is
    already there, the second one waits, at the third one the loser of the second has a value. *)
Definition two : list (member nat) := [mkM 0 true 10; mkM 1 true 20].
Definition loop : list lb :=
  [Env 0 LStart; Env 1 LStart; Env 0 (LYield 1);
   Await two [0; 1]; Next; Next; Env 0 LJob;
   Await two [1; 0]; Next; Next; Next; Env 1 (LYield 5);
   Env 0 (LYield 2); Env 1 LJob;
   Await two [1; 0]; Next; Next; Next;
   Await two [1; 0]; Next; Next; Next].
Lemma loop_alone : alone loop.
Proof.
  split.
  - intros ms o H. vm_compute in H. repeat (destruct H as [H|H]; [try discriminate H|]); try contradiction; injection H as <- <-;
      vm_compute; repeat constructor; cbn; intuition discriminate.
  - intros ms o mb w p _ _ H. vm_compute in H. repeat (destruct H as [H|H]; [discriminate H|]). contradiction.
Qed.
Lemma loop_lvalues : all_lvalues loop.
Proof.
  intros ms o mb H Hm. vm_compute in H. repeat (destruct H as [H|H]; [try discriminate H|]); try contradiction; injection H as <- <-;
    vm_compute in Hm; repeat (destruct Hm as [Hm|Hm]; [subst mb; reflexivity|]); contradiction.
Qed.
Example C76_nonvacuous :
  let nv := fun _ => false in
  proper nv rinit loop /\ alone loop /\ all_lvalues loop /\ steady nv rinit loop /\ as_lvalue 0 loop /\
  ran nv loop = true /\ ub (final nv loop) = false /\ pc (final nv loop) = Waiting /\ mem (final nv loop) = two /\
  won 0 (trace nv loop) = [RVal 1; RVal 2] /\ won 1 (trace nv loop) = [RVal 5] /\
  taken_by_others 0 (trace nv loop) = [] /\ yielded (at_gen 0 (trace nv loop)) = [1; 2] /\
  In (G 0 (EInterrupt 0)) (trace nv loop).
Proof.
  cbn zeta. split; [vm_compute; repeat split|]. split; [exact loop_alone|]. split; [exact loop_lvalues|].
  split; [vm_compute; tauto|]. split; [intros ms o mb H Hm _; exact (loop_lvalues ms o mb H Hm)|].
  vm_compute. repeat split. tauto.
Qed.
(** The exception of a generator wins a race; and a signal that is forwarded. *)
Example C76_exception_nonvacuous :
  let nv := fun _ => true in
  let ls := [Env 0 LStart; Env 1 LStart; Await two [0; 1]; Next; Next; Next; Cancel 1; Env 0 (LThrow 9)] in
  proper nv rinit ls /\ ran nv ls = true /\ won 0 (trace nv ls) = [RExc (XUser 9)] /\
  In (G 1 (ESignal 1)) (trace nv ls) /\ pc (final nv ls) = Idle.
Proof. cbn zeta. split; [vm_compute; repeat split|]. vm_compute. repeat split. tauto. Qed.

(** ** What does not hold *)

Ltac mems H := repeat (destruct H as [H|H]; [try discriminate H|]); try contradiction.

(** C76: with rvalue arguments among them, a race can lose a value of an lvalue argument: it is
    decided while the rvalue is started, and goes on to take a value of the next argument.
    (detail/race.hpp:319-323 looks only at the fork that was started last.) *)
Theorem C76_value_lost_refuted :
  let nv := fun _ => false in
  exists ls : list lb,
    ls = [Env 0 LStart; Env 1 LStart; Env 1 LInitial; Env 2 LStart; Env 2 (LYield 5);
          Await [mkM 0 true 10; mkM 1 false 20; mkM 2 true 30] [0; 1; 2]; Next; Next; Env 0 (LYield 1); Next; Next; Env 1 (LYield 7)] /\
    proper nv rinit ls /\ as_lvalue 2 ls /\ ran nv ls = true /\ ub (final nv ls) = false /\ odd (final nv ls) = false /\ pc (final nv ls) = Idle /\
    raced 2 (trace nv ls) = [RVal 5] /\ won 2 (trace nv ls) = [] /\ won 0 (trace nv ls) = [RVal 1].
Proof.
  cbn zeta. eexists. split; [reflexivity|]. split; [vm_compute; repeat split|]. split; [|vm_compute; repeat split].
  intros ms o mb H Hm Eg. vm_compute in H. mems H. injection H as <- <-. vm_compute in Hm.
  destruct Hm as [<-|[<-|[<-|[]]]]; [discriminate Eg|discriminate Eg|reflexivity].
Qed.
(** C76: a lazy generator without pushed values that lost a race gives its exception to a later race
    before a value that it yielded earlier. *)
Definition lazy_loop : list lb :=
  [Env 0 LStart; Env 0 LInitial; Env 1 LStart;
   Await two [0; 1]; Next; Next; Next; Env 1 (LYield 5);
   Env 1 LJob; Await two [0; 1]; Next; Next; Next; Env 0 (LYield 1)].
Theorem C76_exception_first_refuted :
  let nv := fun _ => true in
  let ls := lazy_loop ++ [Env 0 (LThrow 9); Await two [0; 1]; Next; Next] in
  proper nv rinit ls /\ ran nv ls = true /\ ub (final nv ls) = false /\ odd (final nv ls) = false /\
  yielded (at_gen 0 (trace nv ls)) = [1] /\ won 0 (trace nv ls) = [RExc (XUser 9); RVal 1].
Proof. cbn zeta. split; [vm_compute; repeat split|]. vm_compute. repeat split. Qed.
(** C76: before that the second race waits although this generator has a value. *)
Theorem C76_waits_with_value_refuted :
  let nv := fun _ => true in
  proper nv rinit lazy_loop /\ ran nv lazy_loop = true /\ ub (final nv lazy_loop) = false /\ odd (final nv lazy_loop) = false /\
  pc (final nv lazy_loop) = Waiting /\ mem (final nv lazy_loop) = two /\
  yielded (at_gen 0 (trace nv lazy_loop)) = [1] /\ taken (at_gen 0 (trace nv lazy_loop)) = [].
Proof. cbn zeta. split; [vm_compute; repeat split|]. vm_compute. repeat split. Qed.
(** C76: if a generator is raced that another coroutine awaits, the race ends with already_awaited,
    and the await of the other coroutine ends, too, with "returned void", although the generator goes
    on. *)
Theorem C76_other_awaiter_refuted :
  let nv := fun _ => true in
  exists ls : list lb,
    ls = [Env 0 LStart; Env 1 LStart; Env 0 (LAwait 1 7); Await two [0; 1]; Next; Next] /\
    proper nv rinit ls /\ ran nv ls = true /\ ub (final nv ls) = false /\
    In (Win 0 0 (RExc XAlready)) (trace nv ls) /\ In (G 0 (EResult 1 (RExc XVoid))) (trace nv ls) /\
    ~ ended (at_gen 0 (trace nv ls)) /\ cst (gens (final nv ls) 0) = Running.
Proof.
  cbn zeta. eexists. split; [reflexivity|]. split; [vm_compute; repeat split|]. split; [reflexivity|]. split; [reflexivity|].
  split; [vm_compute; tauto|]. split; [vm_compute; tauto|]. split; [|reflexivity]. unfold ended. vm_compute. intuition discriminate.
Qed.

Print Assumptions C76_value_lost_refuted.
Print Assumptions C76_exception_first_refuted.
Print Assumptions C76_waits_with_value_refuted.
Print Assumptions C76_other_awaiter_refuted.
