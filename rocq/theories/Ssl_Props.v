(** * C72 and C73: ssl::stream, and moving sockets *)
From Coq Require Import List Bool Arith Lia.
From Verif Require Import Ssl_Model Ssl_Spec Ssl_Proofs.
Import ListNotations.

(** ** C72: after its handshake an ssl::stream encrypts, decrypts, says so, refuses a second handshake
    and can be shut down; before, it passes data through unchanged.

    Full statement: for every history [ls], [run init ls = Some (s, os)] and [step s l = Some (s', r)] give
    [keeps (secured (combine ls os) (fun _ => false)) s l r s'].  Nothing ever sets upgraded_, so that this
    holds only for streams without a handshake. *)

Definition sec (ls : list label) (os : list out) : nat -> bool := secured (combine ls os) (fun _ => false).

Definition about (l : label) : option nat :=
  match l with LWrite o _ | LRead o | LSecure o | LHandshake o _ | LShutdown o => Some o | _ => None end.

Theorem C72_before_partial : forall ls s os l s' r,
  run init ls = Some (s, os) -> step s l = Some (s', r) ->
  (forall o, about l = Some o -> sec ls os o = false) -> keeps (sec ls os) s l r s'.
Proof.
  intros ls s os l s' r R S B. pose proof (run_inv ls _ _ _ init_inv R) as I.
  destruct l as [o k|o o'|o|o|o|o|o ok|o|o|o b|o|d y]; cbn [keeps about step] in *; auto; rewrite ?(B o eq_refl).
  - destruct (obs s o) as [x|] eqn:E; [|discriminate]. destruct (kd x); [discriminate|]. rewrite (i_upg _ I o x E) in S.
    destruct (fd x); [destruct ok|]; injection S as <- <-; discriminate.
  - destruct (obs s o) as [x|] eqn:E; [|discriminate]. destruct (kd x); [discriminate|]. rewrite (i_upg _ I o x E) in S. now injection S as <- <-.
  - destruct (obs s o) as [x|] eqn:E; [|discriminate]. destruct (kd x); [discriminate|]. rewrite (i_upg _ I o x E) in S. now injection S as <- <-.
  - intros (x0 & E & K) d D. unfold desc in D. rewrite E in *. rewrite D, K, (i_upg _ I o x0 E) in S. injection S as <- <-.
    split; [reflexivity|]. cbn [send sent]. apply upd_same.
  - intros (x0 & E & K) d b t D T. unfold desc in D. rewrite E in *. rewrite D, T, K, (i_upg _ I o x0 E) in S. injection S as <- <-.
    split; [reflexivity|]. cbn [inbox]. apply upd_same.
Qed.
Print Assumptions C72_before_partial.

(** A handshake that succeeds does establish a session in asio's stream, and moving keeps it. *)
Theorem C72_established : forall ls s os o x,
  run init ls = Some (s, os) -> obs s o = Some x -> est x = sec ls os o.
Proof. intros ls s os o x R E. eapply est_secured; [apply init_inv| |exact R|exact E]. cbn. discriminate. Qed.
Print Assumptions C72_established.

(** Every write of every stream in every history goes out in the clear. *)
Theorem C72_all_clear : forall ls s os o b s' d,
  run init ls = Some (s, os) -> desc s o = Some d -> step s (LWrite o b) = Some (s', OOk) -> sent s' d = sent s d ++ [Clear b].
Proof.
  intros ls s os o b s' d R D S. pose proof (run_inv ls _ _ _ init_inv R) as I. cbn [step] in S. unfold desc in D.
  destruct (obs s o) as [x|] eqn:E; [|discriminate]. rewrite D, (i_upg _ I o x E) in S.
  destruct (kd x); injection S as <-; cbn [send sent]; apply upd_same.
Qed.
Print Assumptions C72_all_clear.

Ltac comp := vm_compute; reflexivity.
Definition ran ls := match run init ls with Some x => x | None => (init, []) end.
Definition hs : list label := [LNew 1 KSsl; LOpen 1; LHandshake 1 true; LRecv 0 (Cipher 9)].
Definition nxt l := match step (fst (ran hs)) l with Some x => x | None => (init, OUb) end.

Definition full (P : label -> Prop) : Prop := forall ls s os l s' r, P l ->
  run init ls = Some (s, os) -> step s l = Some (s', r) -> keeps (sec ls os) s l r s'.

(** ... so what is written after the handshake is not encrypted, *)
Theorem C72_plaintext_refuted : ~ full (fun l => match l with LWrite _ _ => True | _ => False end).
Proof.
  intros H. specialize (H hs (fst (ran hs)) (snd (ran hs)) (LWrite 1 7) (fst (nxt (LWrite 1 7))) (snd (nxt (LWrite 1 7))) Logic.I).
  specialize (H ltac:(comp) ltac:(comp)). cbn [keeps] in H.
  destruct (H ltac:(eexists; split; [comp|comp]) 0 ltac:(comp)) as [_ X]. vm_compute in X. discriminate.
Qed.
Print Assumptions C72_plaintext_refuted.

(** what is read is not decrypted, *)
Theorem C72_read_refuted : ~ full (fun l => match l with LRead _ => True | _ => False end).
Proof.
  intros H. specialize (H hs (fst (ran hs)) (snd (ran hs)) (LRead 1) (fst (nxt (LRead 1))) (snd (nxt (LRead 1))) Logic.I).
  specialize (H ltac:(comp) ltac:(comp)). cbn [keeps] in H.
  destruct (H ltac:(eexists; split; [comp|comp]) 0 9 [] ltac:(comp) ltac:(comp)) as [X _]. vm_compute in X. discriminate.
Qed.
Print Assumptions C72_read_refuted.

(** secure() says false, *)
Theorem C72_secure_refuted : ~ full (fun l => match l with LSecure _ => True | _ => False end).
Proof.
  intros H. specialize (H hs (fst (ran hs)) (snd (ran hs)) (LSecure 1) (fst (nxt (LSecure 1))) (snd (nxt (LSecure 1))) Logic.I).
  specialize (H ltac:(comp) ltac:(comp)). vm_compute in H. discriminate.
Qed.
Print Assumptions C72_secure_refuted.

(** a second handshake is not refused, *)
Theorem C72_second_handshake_refuted : ~ full (fun l => match l with LHandshake _ _ => True | _ => False end).
Proof.
  intros H. specialize (H hs (fst (ran hs)) (snd (ran hs)) (LHandshake 1 true) (fst (nxt (LHandshake 1 true))) (snd (nxt (LHandshake 1 true))) Logic.I).
  specialize (H ltac:(comp) ltac:(comp)). vm_compute in H. discriminate.
Qed.
Print Assumptions C72_second_handshake_refuted.

(** and the session cannot be shut down. *)
Theorem C72_shutdown_refuted : ~ full (fun l => match l with LShutdown _ => True | _ => False end).
Proof.
  intros H. specialize (H hs (fst (ran hs)) (snd (ran hs)) (LShutdown 1) (fst (nxt (LShutdown 1))) (snd (nxt (LShutdown 1))) Logic.I).
  specialize (H ltac:(comp) ltac:(comp)). vm_compute in H. discriminate.
Qed.
Print Assumptions C72_shutdown_refuted.

(** ** C73: open, close and is_open act on the descriptor that reading and writing use, also after the object was moved *)

(** For stream_socket, datagram_socket and seq_packet_socket, whatever is moved *)
Theorem C73_plain : forall ls s os l s' r o x,
  run init ls = Some (s, os) -> step s l = Some (s', r) -> subject l = Some o -> obs s o = Some x -> kd x = KPlain -> own s l r s'.
Proof.
  intros ls s os l s' r o x R S Su E K. pose proof (run_inv ls _ _ _ init_inv R) as I.
  eapply own_ref; eauto. now apply (i_plain _ I o x).
Qed.
Print Assumptions C73_plain.

(** For all sockets as long as no ssl::stream has been moved *)
Theorem C73_unmoved_partial : forall ls s os l s' r o,
  run init ls = Some (s, os) -> unmoved init ls -> step s l = Some (s', r) -> subject l = Some o -> own s l r s'.
Proof.
  intros ls s os l s' r o R U S Su. pose proof (run_inv ls _ _ _ init_inv R) as I.
  destruct (obs s o) as [x|] eqn:E.
  - eapply own_ref; eauto. eapply (unmoved_ref ls init s os); eauto; [apply init_inv|cbn; discriminate].
  - destruct l; try discriminate; cbn [subject] in Su; injection Su as ->; cbn [step] in S; rewrite E in S; discriminate.
Qed.
Print Assumptions C73_unmoved_partial.

(** Moving hands over the descriptor, and no two objects ever have the same. *)
Theorem C73_one_owner : forall ls s os, run init ls = Some (s, os) ->
  (forall o o' d, desc s o = Some d -> desc s o' = Some d -> o = o') /\
  (forall o o' s' r, step s (LMove o o') = Some (s', r) -> desc s' o' = desc s o /\ desc s' o = None /\ forall q, q <> o -> q <> o' -> desc s' q = desc s q).
Proof.
  intros ls s os R. pose proof (run_inv ls _ _ _ init_inv R) as I. split; [apply (i_one _ I)|].
  intros o o' s' r S. cbn [step] in S. destruct (made s o') eqn:M; [discriminate|]. destruct (obs s o) as [x|] eqn:E; [|discriminate].
  assert (No : o <> o') by (intros ->; rewrite (i_made _ I o' x E) in M; discriminate).
  injection S as <- <-. unfold desc. cbn [obs]. rewrite upd_same, E. split; [unfold moved; now destruct (kd x)|].
  split; [rewrite upd_other by assumption; now rewrite upd_same|]. intros q N N'. now rewrite !upd_other.
Qed.
Print Assumptions C73_one_owner.

(** A moved ssl::stream: is_open and close act on the object it was moved from, *)
Definition mv : list label := [LNew 1 KSsl; LOpen 1; LMove 1 2].
Definition mvn l := match step (fst (ran mv)) l with Some x => x | None => (init, OUb) end.

Theorem C73_ssl_move_refuted : ~ (forall ls s os l s' r, run init ls = Some (s, os) -> step s l = Some (s', r) -> own s l r s').
Proof.
  intros H. specialize (H mv (fst (ran mv)) (snd (ran mv)) (LClose 2) (fst (mvn (LClose 2))) (snd (mvn (LClose 2))) ltac:(comp) ltac:(comp)).
  destruct H as (_ & X & _). vm_compute in X. discriminate.
Qed.
Print Assumptions C73_ssl_move_refuted.

(** and they are undefined once that is destroyed. *)
Theorem C73_ssl_dangling_refuted : ~ (forall ls s os, run init ls = Some (s, os) -> ~ In OUb os).
Proof.
  intros H. apply (H (mv ++ [LDestroy 1; LIsOpen 2]) (fst (ran (mv ++ [LDestroy 1; LIsOpen 2]))) (snd (ran (mv ++ [LDestroy 1; LIsOpen 2])))); [comp|].
  vm_compute. auto 10.
Qed.
Print Assumptions C73_ssl_dangling_refuted.

(** ** The hypotheses are met *)

Definition ex : list label :=
  [LNew 1 KPlain; LOpen 1; LMove 1 2; LMove 2 3; LDestroy 1; LWrite 3 5; LNew 4 KSsl; LOpen 4; LWrite 4 6; LRecv 1 (Clear 8); LRead 4; LSecure 4; LShutdown 4; LHandshake 4 false].

Example C72_nonvacuous : exists s os, run init ex = Some (s, os) /\
  os = [OOk; OOk; OOk; OOk; OOk; OOk; OOk; OOk; OOk; OOk; OData 8; OBool false; OErr no_protocol_option; OErr handshake_failed] /\
  sec ex os 4 = false /\ sent s 0 = [Clear 5] /\ sent s 1 = [Clear 6; Hello] /\
  step s (LWrite 4 7) <> None /\ sec hs (snd (ran hs)) 1 = true.
Proof. exists (fst (ran ex)), (snd (ran ex)). repeat split; try comp. vm_compute. discriminate. Qed.

Example C73_nonvacuous : exists s os, run init ex = Some (s, os) /\ unmoved init ex /\
  desc s 3 = Some 0 /\ desc s 2 = None /\ desc s 4 = Some 1 /\ subject (LClose 3) = Some 3 /\ step s (LClose 3) <> None.
Proof.
  exists (fst (ran ex)), (snd (ran ex)). split; [comp|]. split; [|repeat split; try comp; vm_compute; discriminate].
  unfold ex. cbn. repeat split; auto; intros (x & E & K); injection E as <-; discriminate.
Qed.
