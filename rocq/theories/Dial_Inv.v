(** * Invariant of the model of connect *)
From Coq Require Import List Bool Arith Lia.
From Verif Require Import Sock_Model Rsv_Model Dial_Model Dial_Spec.
Import ListNotations.

Section inv.
Variable k : kind.

Lemma run_app : forall l1 l2 s, run k (l1 ++ l2) s =
  match run k l1 s with
  | Some (s1, e1) => match run k l2 s1 with Some (s2, e2) => Some (s2, e1 ++ e2) | None => None end
  | None => None
  end.
Proof.
  induction l1 as [|l l1 IH]; intros l2 s; simpl.
  - destruct (run k l2 s) as [[? ?]|]; reflexivity.
  - destruct (exec k l s) as [[s1 e1]|]; [|reflexivity]. rewrite IH.
    destruct (run k l1 s1) as [[s2 e2]|]; [|reflexivity].
    destruct (run k l2 s2) as [[s3 e3]|]; [|reflexivity]. now rewrite app_assoc.
Qed.

Lemma hist_ind : forall (Q : state -> list event -> Prop),
  Q init [] ->
  (forall s es l s' e, Q s es -> exec k l s = Some (s', e) -> Q s' (es ++ e)) ->
  forall ls s es, run k ls init = Some (s, es) -> Q s es.
Proof.
  intros Q H0 HS ls. induction ls as [|l ls IH] using rev_ind; intros s es H.
  - simpl in H. injection H as <- <-. exact H0.
  - rewrite run_app in H. destruct (run k ls init) as [[s1 e1]|] eqn:E; [|discriminate].
    simpl in H. destruct (exec k l s1) as [[s2 e2]|] eqn:X; [|discriminate].
    injection H as <- <-. rewrite app_nil_r. eapply HS; eauto.
Qed.

Lemma fills_adopted : forall e, fills k e (adopted k e).
Proof.
  intros [[f t q] a]. unfold fills, adopted, adopt; cbn.
  destruct f; cbn; destruct (Nat.eqb_spec q 0) as [Q|Q]; cbn; destruct (Nat.eqb_spec t 0) as [T|T]; cbn;
  destruct k; cbn; unfold SOCK_STREAM, SOCK_DGRAM, SOCK_SEQPACKET, IPPROTO_TCP, IPPROTO_UDP, IPPROTO_SCTP;
  repeat split; intros; try reflexivity; try lia; try congruence; try (exfalso; intuition congruence).
Qed.

Lemma att_app : forall i a b, attempts i (a ++ b) = attempts i a ++ attempts i b.
Proof. intros. unfold attempts. apply flat_map_app. Qed.
Lemma out_app : forall i a b, outcomes i (a ++ b) = outcomes i a ++ outcomes i b.
Proof. intros. unfold outcomes. apply flat_map_app. Qed.
Lemma res_app : forall i a b, results i (a ++ b) = results i a ++ results i b.
Proof. intros. unfold results. apply flat_map_app. Qed.
Lemma opn_app : forall a b, opened (a ++ b) = opened a ++ opened b.
Proof. intros. unfold opened. apply flat_map_app. Qed.
Lemma cls_app : forall a b, closed (a ++ b) = closed a ++ closed b.
Proof. intros. unfold closed. apply flat_map_app. Qed.

(** the number of the connect that an event belongs to *)
Definition about (v : event) : option nat :=
  match v with
  | EStart i _ _ | EFail i _ _ | ETry i _ _ | EAnswer i _ | ECancel i | EShut i | EStop i _ | EGot i _ => Some i
  | EOpen _ _ | EClose _ => None
  end.

Lemma quiet_attempts : forall i es, (forall v, In v es -> about v <> Some i) -> attempts i es = [] /\ outcomes i es = [] /\ results i es = [].
Proof.
  intros i es. induction es as [|v es IH]; intro H; [auto|].
  destruct IH as (A & B & C); [intros w W; apply H; now right|].
  assert (about v <> Some i) as N by (apply H; now left).
  unfold attempts, outcomes, results in *. cbn. rewrite A, B, C.
  destruct v; cbn in *; auto; destruct (i0 =? i) eqn:E; auto; apply Nat.eqb_eq in E; subst; congruence.
Qed.

Definition is_err (r : option err) : Prop := r <> None.

(** what has happened in connect number [i] when it runs at index [n] of [eps] *)
Record running (s : state) (es : list event) (o : oper) : Prop := mkr
  { r_start : exists l, In (EStart (o_id o) (o_single o) l) es /\ o_eps o = map (adopted k) l /\ (o_single o = true -> length l = 1 /\ o_idx o = 0);
    r_id : o_id o < count s;
    r_got : results (o_id o) es = [];
    r_stop : o_stop o = true -> stopped_during (o_id o) es;
    r_fd : fd s = None -> o_eps o <> [] -> closed_during (o_id o) es \/ exists e x, In (EFail (o_id o) e x) es;
    r_phase : (o_eps o = [] /\ o_phase o = Posted (Some NotFound) /\ attempts (o_id o) es = [] /\ outcomes (o_id o) es = []) \/
      (o_idx o < length (o_eps o) /\ attempts (o_id o) es = firstn (S (o_idx o)) (o_eps o) /\
       match o_phase o with
       | Waiting => length (outcomes (o_id o) es) = o_idx o /\ Forall is_err (outcomes (o_id o) es) /\ fd s <> None
       | Posted r => exists errs, outcomes (o_id o) es = errs ++ [r] /\ length errs = o_idx o /\ Forall is_err errs
       end);
    r_conn : (o_phase o = Waiting \/ o_phase o = Posted None) -> ~ closed_during (o_id o) es ->
      exists d e, fd s = Some d /\ nth_error (o_eps o) (o_idx o) = Some e /\ In (ETry (o_id o) (d_id d) e) es /\ (o_single o = false -> d_proto d = e_proto e) }.

(** what has happened when connect number [i] has ended with [r] *)
Definition ended (es : list event) (i : nat) (r : res) : Prop :=
  exists single l, In (EStart i single l) es /\ (exists n, attempts i es = firstn n (map (adopted k) l)) /\ let eps := map (adopted k) l in
  match r with
  | COk e => exists n, nth_error eps n = Some e /\ attempts i es = firstn (S n) eps /\
      exists errs, outcomes i es = errs ++ [None] /\ length errs = n /\ Forall is_err errs
  | CErr x =>
      Forall is_err (outcomes i es) /\
      ((eps = [] /\ x = NotFound /\ single = false) \/
       (eps <> [] /\ attempts i es = eps /\ last (outcomes i es) None = Some x) \/
       (x = Aborted /\ single = false /\ (stopped_during i es \/ closed_during i es \/ exists e y, In (EFail i e y) es))) \/
      (x = Aborted /\ single = false /\ closed_during i es)
  end.

Record good (s : state) (es : list event) : Prop := mkg
  { g_new : forall v i, In v es -> about v = Some i -> i < count s;
    g_start : forall i b l b' l', In (EStart i b l) es -> In (EStart i b' l') es -> b = b' /\ l = l';
    g_begun : forall i, i < count s -> exists b l, In (EStart i b l) es;
    g_op : forall o, op s = Some o -> running s es o;
    g_res : forall i, (exists o, op s = Some o /\ o_id o = i) \/ count s <= i \/ exists r, results i es = [r] /\ ended es i r }.

End inv.
