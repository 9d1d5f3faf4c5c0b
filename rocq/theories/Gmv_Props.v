(** * Theorems about generators that are moved (C66)

    [mcorrect] (Gmv_Spec.v) lists the uses the implementation supports; the [_refuted] theorems
    show what happens outside it. *)
From Coq Require Import List Bool Arith.
From Verif Require Import Gen_Model Gen_Spec Gen_Inv Gen_Final Gmv_Model Gmv_Spec Gmv_Proofs Gmv_Sim Gmv_Place.
Import ListNotations.

Section Props.
Context {Y P E : Type}.
(** [mf], [mfp]: what moving leaves of a value; [nv]: the generators take no pushed value. *)
Variables (mf : Y -> Y) (mfp : P -> P) (nv : bool).
Variables (ls : list (mlabel Y P E)) (m : mst Y P E) (tr : list (mevent Y P E)).
Hypothesis C : mcorrect mf mfp nv minit ls.
Hypothesis R : mrun mf mfp nv minit ls = Some (m, tr).

(** C66: any number of generators can be moved and assigned, whatever else happens meanwhile: nothing
    undefined happens. *)
Theorem C66_defined_partial : ub m = false /\ ~ mundefined tr.
Proof.
  destruct (sim_run mf mfp nv _ _ _ _ _ (R_init nv) C R) as (S & HR & Cl & H). split; [apply HR|].
  intros (g & b & I). destruct g as [g|]; [|now apply (Cl b)]. destruct (H g) as (ls' & A & B).
  eapply (INV_run nv _ _ _ _ (init_INV nv) A B b). now apply history_in.
Qed.
(** C66: whatever happens to a generator that is moved can happen in the same order to one
    that is not: all that is known about the latter (C24, C25, C26) holds of the former. *)
Theorem C66_as_unmoved_partial : forall g, exists ls' s, correct nv init ls' /\ run nv init ls' = Some (s, history g tr).
Proof.
  destruct (sim_run mf mfp nv _ _ _ _ _ (R_init nv) C R) as (S & HR & Cl & H). intros g. destruct (H g) as (ls' & A & B). exists ls', (S g). auto.
Qed.
(** C66: so what the consumers of a generator got, through whichever objects, is a prefix of what its coroutine
    yielded and returned. *)
Theorem C66_in_order_partial : forall g, exists held, yielded (history g tr) = taken (history g tr) ++ held /\ length held <= 2.
Proof. intros g. destruct (C66_as_unmoved_partial g) as (ls' & s & A & B). exact (in_order nv ls' s _ A B). Qed.
(** C66: and the coroutine receives the pushed values in order, if no await is interrupted and get() is not used. *)
Theorem C66_pushes_partial : forall g, quiet (history g tr) -> exists rest, pushes (history g tr) = received (history g tr) ++ rest.
Proof.
  intros g Q. destruct (C66_as_unmoved_partial g) as (ls' & s & A & B). apply (pushes_in_order nv ls' s _ A B). exact (calm_run nv _ _ _ _ A B Q).
Qed.
(** C66: an error that an await of a generator gives is never moved_from, unless the coroutine threw that. *)
Theorem C66_errors_partial : forall g a w x b, history g tr = a ++ EResult w (RExc x) :: b ->
  match x with
  | XUser e => In (EThrow e) a
  | XUnexpected => In EKill a
  | XDetached => exists a', a = a' ++ [EInterrupt w]
  | XVoid => ended a /\ taken a = yielded a
  | XAlready => False
  end.
Proof. intros g. destruct (C66_as_unmoved_partial g) as (ls' & s & A & B). exact (error_right nv ls' s _ A B). Qed.
(** C66: values are only dropped after the object the generator was in was destroyed or assigned to. *)
Theorem C66_dropped_partial : forall g a y b, history g tr = a ++ ELost y :: b -> In EDestroy a.
Proof. intros g. destruct (C66_as_unmoved_partial g) as (ls' & s & A & B). exact (lost_after_destroy nv ls' s _ A B). Qed.
(** C66: an object is the generator that was created in it or last moved to it. *)
Theorem C66_place_partial : forall o, gid_at m o = place ls o.
Proof. apply (place_run mf mfp nv ls minit m tr (fun _ => None) R); [apply C66_defined_partial|reflexivity]. Qed.
End Props.

(** C66: the first await of a generator that was moved from before its coroutine ended throws moved_from. *)
Theorem C66_moved_from_partial : forall Y P E mf mfp nv o o' (m m1 : mst Y P E) ev r w p,
  mstep mf mfp nv (MMove o o') m = Some (m1, ev) -> ub m1 = false -> objs m o = OLive r -> r_done r = false -> mws m1 w = MIdle ->
  exists m2, mstep mf mfp nv (MOb o (LAwait w p)) m1 = Some (m2, [Ev None (EAwait w p); Ev None (EResult w (RExc (XUser MovedFrom)))]).
Proof.
  intros Y P E mf mfp nv o o' m m1 ev r w p St U Oo D W. unfold mstep in St. destruct (ub m); [discriminate|]. rewrite Oo in St.
  destruct (objs m o') eqn:Oo'; try discriminate St. destruct (take_over o' r m) as [m0|] eqn:T; injection St as <- <-; [|discriminate U].
  assert (N : o <> o') by congruence.
  assert (O : objs (set_obj o' (OLive r) (set_obj o (OLive (husk mf mfp r)) m0)) o = OLive (husk mf mfp r)).
  { cbn -[upd]. rewrite upd_ne by assumption. apply upd_eq. }
  set (n := set_obj o' _ _) in *. clearbody n.
  unfold mstep. rewrite U, O, W. unfold rready, m_await_resume, robj. rewrite O. unfold husk. cbn -[put]. rewrite D. cbn -[put]. eexists. reflexivity.
Qed.

Print Assumptions C66_defined_partial.
Print Assumptions C66_as_unmoved_partial.
Print Assumptions C66_in_order_partial.
Print Assumptions C66_pushes_partial.
Print Assumptions C66_errors_partial.
Print Assumptions C66_dropped_partial.
Print Assumptions C66_place_partial.
Print Assumptions C66_moved_from_partial.

(** Two generators; the first is moved, then assigned to the object of the second. *)
Definition ex_move : list (mlabel nat nat nat) :=
  [MNew 0 0; MCo 0 (LYield 1); MOb 0 (LAwait 5 10); MCo 0 LJob; MMove 0 1; MCo 0 (LYield 2); MNew 2 1; MCo 1 (LYield 7);
   MAssign1 2; MAssign2 2 1; MOb 2 (LAwait 5 11); MCo 0 LJob; MCo 0 (LReturn 3); MCo 0 LFinal; MOb 2 (LAwait 5 12)].
Example C66_nonvacuous :
  mcorrect id id false minit ex_move /\
  option_map snd (mrun id id false minit ex_move) = Some
    [Ev (Some 0) (EYield 1); Ev (Some 0) (EAwait 5 10); Ev (Some 0) (EResult 5 (RVal 1)); Ev (Some 0) (EPush 10);
     EvMove 0 1; Ev (Some 0) (EYield 2); Ev (Some 1) (EYield 7); Ev (Some 1) (ESignal 7);
     Ev (Some 1) EDestroy; Ev (Some 1) EDiscard; EvMove 1 2;
     Ev (Some 0) (EAwait 5 11); Ev (Some 0) (EResult 5 (RVal 2)); Ev (Some 0) (EPush 11);
     Ev (Some 0) (EReturn 3); Ev (Some 0) EFinal; Ev (Some 0) (EAwait 5 12); Ev (Some 0) (EResult 5 (RVal 3))].
Proof. split; [vm_compute; repeat split|vm_compute; reflexivity]. Qed.

(** C66, what goes wrong: assigning to a generator whose coroutine has ended reads the destroyed
    coroutine frame, always. *)
Theorem C66_assign_ended_refuted : forall Y P E mf mfp nv o' o (m : mst Y P E) r r',
  ub m = false -> objs m o' = OLive r' -> objs m o = OLive r -> o' <> o -> r_done r' = true -> has_coroutine m o' = false ->
  exists m', mrun mf mfp nv m [MAssign1 o'; MAssign2 o' o] = Some (m', [Ev (r_gid r') (EBad BFrame)]) /\ ub m' = true.
Proof.
  intros Y P E mf mfp nv o' o m r r' U O1 O2 N D H. unfold has_coroutine, robj in H. rewrite O1 in H. destruct (r_ref r') as [c|] eqn:Rf; [|discriminate H].
  cbn [mrun]. unfold mstep at 1. rewrite U, O1. unfold m_cancel. rewrite D.
  unfold mstep. cbn [ub set_obj]. rewrite U. cbn [objs set_obj]. rewrite upd_eq, upd_ne by auto. rewrite O2, Rf.
  change (cframe (set_obj o' (OAssign r') m) c) with (cframe m c). rewrite H. eexists. split; reflexivity.
Qed.
(** So [g = next();] in a loop over generators that are consumed to their end is undefined. *)
Example C66_assign_ended_run :
  let ls := [MNew 0 0; MCo 0 (LReturn 1); MCo 0 LFinal; MOb 0 (LAwait 5 10); MNew 1 1; MAssign1 0; MAssign2 0 1] : list (mlabel nat nat nat) in
  option_map (fun x => (ub (fst x), snd x)) (mrun id id false minit ls) = Some
    (true, [Ev (Some 0) (EReturn 1); Ev (Some 0) EFinal; Ev (Some 0) (EAwait 5 10); Ev (Some 0) (EResult 5 (RVal 1)); Ev (Some 0) (EBad BFrame)]).
Proof. vm_compute. reflexivity. Qed.
(** C66: the same if the generator to which is assigned was moved from, and what was moved from it has ended since. *)
Theorem C66_assign_moved_from_refuted :
  let ls := [MNew 0 0; MMove 0 1; MCo 0 (LReturn 1); MCo 0 LFinal; MNew 2 1; MAssign1 0; MAssign2 0 2] : list (mlabel nat nat nat) in
  option_map (fun x => (ub (fst x), snd x)) (mrun id id false minit ls) = Some
    (true, [EvMove 0 1; Ev (Some 0) (EReturn 1); Ev (Some 0) EFinal; Ev None (EBad BFrame)]).
Proof. vm_compute. reflexivity. Qed.
(** C66: if the generator is moved while somebody awaits it, that await throws moved_from when the coroutine
    yields; the value remains in the generator. *)
Theorem C66_move_awaited_refuted :
  let ls := [MNew 0 0; MOb 0 (LAwait 5 10); MMove 0 1; MCo 0 (LYield 1); MOb 1 (LAwait 6 11)] : list (mlabel nat nat nat) in
  option_map (fun x => (ub (fst x), snd x)) (mrun id id false minit ls) = Some
    (false, [Ev (Some 0) (EAwait 5 10); EvMove 0 1; Ev (Some 0) (EYield 1); Ev None (EResult 5 (RExc (XUser MovedFrom)));
             Ev (Some 0) (EAwait 6 11); Ev (Some 0) (EResult 6 (RVal 1))]).
Proof. vm_compute. reflexivity. Qed.
(** C66: and if the object moved from is destroyed meanwhile, the await reads freed memory. *)
Theorem C66_move_awaited_destroyed_refuted :
  let ls := [MNew 0 0; MOb 0 (LAwait 5 10); MMove 0 1; MOb 0 LDestroy1; MOb 0 LDestroy2; MCo 0 (LYield 1)] : list (mlabel nat nat nat) in
  option_map (fun x => (ub (fst x), snd x)) (mrun id id false minit ls) = Some
    (true, [Ev (Some 0) (EAwait 5 10); EvMove 0 1; Ev None EDestroy; Ev (Some 0) (EYield 1); Ev None (EBad BFrame)]).
Proof. vm_compute. reflexivity. Qed.
(** C66: a generator that ended and was moved from before its last value was taken does not throw
    moved_from: it gives what moving left of that value, for trivial types a second copy. *)
Theorem C66_moved_from_value_refuted :
  let ls := [MNew 0 0; MCo 0 (LReturn 1); MCo 0 LFinal; MMove 0 1; MOb 0 (LAwait 5 10); MOb 1 (LAwait 6 11)] : list (mlabel nat nat nat) in
  mcorrect id id false minit ls /\
  option_map (fun x => (ub (fst x), snd x)) (mrun id id false minit ls) = Some
    (false, [Ev (Some 0) (EReturn 1); Ev (Some 0) EFinal; EvMove 0 1; Ev None (EAwait 5 10); Ev None (EResult 5 (RVal 1));
             Ev (Some 0) (EAwait 6 11); Ev (Some 0) (EResult 6 (RVal 1))]).
Proof. split; [vm_compute; repeat split|vm_compute; reflexivity]. Qed.

Print Assumptions C66_assign_ended_refuted.
Print Assumptions C66_assign_moved_from_refuted.
Print Assumptions C66_move_awaited_refuted.
Print Assumptions C66_move_awaited_destroyed_refuted.
Print Assumptions C66_moved_from_value_refuted.
