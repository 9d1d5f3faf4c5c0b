(** * Properties C41, C42: endpoints *)
From Coq Require Import List Bool Arith ZArith Lia.
From Verif Require Import Ep_Model Ep_Spec Ep_Proofs.
Import ListNotations.
Local Open Scope Z_scope.

(** ** C41: round trip *)

(** Every endpoint holds exactly the socket address of its arguments, as the
    system reads it, and its type and protocol. *)
Theorem C41_stored : forall p a e, construct p a = Some e -> valid a ->
  firstn (length (wire a)) (st e) = map Some (wire a) /\
  protocol e = Some (mkp (family_of a) (ptype p) (pproto p)).
Proof.
  intros p a e H V. destruct (construct_inv p a e H V) as (Ht & Hp & (rest & Hs) & _ & _).
  destruct (read_back a e rest V Hs) as (Hf & _). split.
  - rewrite Hs. rewrite <- (map_length Some (wire a)), firstn_app, firstn_all, Nat.sub_diag, firstn_O, app_nil_r. reflexivity.
  - unfold protocol. rewrite Hf, Ht, Hp. reflexivity.
Qed.
Print Assumptions C41_stored.

(** Address, port and path come back. *)
Theorem C41_round_trip : forall p a e, construct p a = Some e -> valid a -> observed a e.
Proof.
  intros p a e H V. destruct (construct_inv p a e H V) as (_ & _ & (rest & Hs) & _ & _).
  exact (proj2 (read_back a e rest V Hs)).
Qed.
Print Assumptions C41_round_trip.

(** Construction fails only for a path that is too long (or an overload
    that does not exist). *)
Theorem C41_constructs : forall p a,
  construct p a <> None <->
  match a with
  | AV4 _ _ | AV4Text _ _ => family p = 2
  | AV6 _ _ => family p = 10
  | AText _ _ => family p = 0
  | AUnix path => family p = 1 /\ (length path < 108)%nat
  end.
Proof. exact construct_total. Qed.
Print Assumptions C41_constructs.

(** The size is right, except for paths and for v6 addresses given as text to a
    protocol without family. *)
Theorem C41_size_partial : forall p a e, construct p a = Some e -> valid a -> sized a ->
  esize e = length (wire a).
Proof. intros p a e H V. exact (proj2 (proj2 (proj2 (proj2 (construct_inv p a e H V))))). Qed.
Print Assumptions C41_size_partial.

(** The three kinds of local endpoint, and what they are for the system: an endpoint of one kind is
    not taken for another, and all of them are local ones. *)
Theorem C42_local : forall path e p q, In p [local_stream; local_datagram; local_seqpacket] ->
  In q [local_stream; local_datagram; local_seqpacket] ->
  construct p (AUnix path) = Some e -> valid (AUnix path) ->
  (get q e = Some e <-> p = q) /\ (p <> q -> get q e = None) /\ get local_protocol e = Some e /\ get tcp e = None /\
  protocol e = Some (mkp 1 (if ptype p =? 1 then 1 else if ptype p =? 2 then 2 else 5) 0).
Proof.
  intros path e p q Hp Hq H V. destruct (C41_stored p (AUnix path) e H V) as (_ & P). unfold get. rewrite P.
  cbn in Hp, Hq.
  repeat match goal with H : _ \/ _ |- _ => destruct H | H : False |- _ => destruct H end; subst; cbn;
    (split; [split; intro X; try reflexivity; discriminate X|]); (split; [intro X; try reflexivity; congruence|]); auto.
Qed.
Print Assumptions C42_local.
Example C42_local_nonvacuous : construct local_datagram (AUnix [47; 97]) <> None /\ valid (AUnix [47; 97]).
Proof. split; [discriminate|]. cbn. repeat constructor; unfold is_byte; lia. Qed.

(** With the right size every way of copying gives the same endpoint. *)
Theorem C41_copy_partial : forall p a e, construct p a = Some e -> valid a -> sized a ->
  observed a (copy_other e) /\ protocol (copy_other e) = protocol e /\ esize (copy_other e) = esize e.
Proof.
  intros p a e H V S. destruct (copy_other_wire p a e H V S) as (Ht & Hp & Hz & rest & Hs).
  destruct (read_back a (copy_other e) rest V Hs) as (Hf & Ho).
  destruct (construct_inv p a e H V) as (_ & _ & (rest' & Hs') & _ & _).
  destruct (read_back a e rest' V Hs') as (Hf' & _).
  split; [exact Ho|]. split; [|exact Hz]. unfold protocol. rewrite Hf, Hf', Ht, Hp. reflexivity.
Qed.
Print Assumptions C41_copy_partial.

(** Every endpoint of a path says it has 8 bytes; the address has 3 more than the path. *)
Theorem C41_path_size_refuted : forall p path e, construct p (AUnix path) = Some e ->
  esize e = 8%nat /\ (length path <> 5%nat -> esize e <> length (wire (AUnix path))).
Proof.
  intros p path e H. pose proof (size_unix p path e H) as Hz. split; [exact Hz|]. rewrite Hz.
  cbn [wire]. unfold wire_unix. rewrite !app_length. cbn [length]. lia.
Qed.
Print Assumptions C41_path_size_refuted.

(** Copying a non-const endpoint, or moving one, cuts the path to 6 characters. *)
Theorem C41_copied_path_refuted : forall p path e, construct p (AUnix path) = Some e -> valid (AUnix path) ->
  (6 <= length path)%nat -> path_of (copy_other e) = Some (firstn 6 path).
Proof. exact copy_unix. Qed.
Print Assumptions C41_copied_path_refuted.

(** A v6 address given as text to [ip], [tcp] or [udp]: 16 instead of 28 bytes, and in a
    copy half of the address is indeterminate. *)
Theorem C41_v6_text_refuted : forall p b q e, construct p (AText (inr b) q) = Some e -> valid (AText (inr b) q) ->
  esize e = 16%nat /\ length (wire (AText (inr b) q)) = 28%nat /\ addr_of (copy_other e) = None.
Proof.
  intros p b q e H V. split; [exact (size_v6_text p b q e H)|]. split; [|exact (copy_v6_text p b q e H V)].
  destruct V as (L & _). cbn [wire]. unfold wire_v6. rewrite !app_length, L. reflexivity.
Qed.
Print Assumptions C41_v6_text_refuted.

(** A number is stored as it lies in memory: the number of an address (as asio's
    to_uint gives it) makes an endpoint with the reversed address. *)
Theorem C41_number_order_refuted : forall b q e, length b = 4%nat -> Forall is_byte b -> is_port q ->
  construct tcp_v4 (AV4 (to_uint b) q) = Some e -> addr_of e = Some (repeat 0 12 ++ rev b).
Proof.
  intros b q e L F Hq H. unfold construct in H. change (family tcp_v4 =? AF_INET) with true in H.
  cbn iota in H.
  rewrite make_v4_eq in H by assumption. injection H as <-.
  rewrite <- in_memory_le. unfold to_uint.
  pose proof (le_of_le (rev b) ltac:(apply Forall_rev; exact F)) as E. rewrite rev_length, L in E. rewrite E.
  destruct b as [|b0 [|b1 [|b2 [|b3 [|]]]]]; try discriminate L. reflexivity.
Qed.
Print Assumptions C41_number_order_refuted.

Example C41_nonvacuous :
  exists e4 e6 eu et, let a6 := [32;1;13;184;0;0;0;0;0;0;0;0;0;0;0;1] in
  let path := [47;116;109;112;47;115;111;99;107] (* /tmp/sock *) in
  construct tcp_v4 (AV4Text [127;0;0;1] 8080) = Some e4 /\ valid (AV4Text [127;0;0;1] 8080) /\
  port_of e4 = Some 8080 /\ esize e4 = 16%nat /\ port_of (copy_other e4) = Some 8080 /\
  construct udp_v6 (AV6 a6 53) = Some e6 /\ valid (AV6 a6 53) /\ addr6_of e6 = Some a6 /\ esize e6 = 28%nat /\
  construct local_stream (AUnix path) = Some eu /\ valid (AUnix path) /\ path_of eu = Some path /\
  path_of (copy_other eu) = Some [47;116;109;112;47;115] (* /tmp/s *) /\
  construct tcp (AText (inr a6) 80) = Some et /\ addr_of et = Some a6 /\ addr_of (copy_other et) = None.
Proof.
  eexists. eexists. eexists. eexists. cbv zeta.
  assert (B : forall l, forallb (fun c => (0 <=? c) && (c <? 256))%Z l = true -> Forall is_byte l).
  { intros l H. rewrite forallb_forall in H. apply Forall_forall. intros x K. specialize (H x K).
    apply andb_true_iff in H. unfold is_byte. lia. }
  split; [reflexivity|]. split; [split; [reflexivity|]; split; [apply B; reflexivity | unfold is_port; lia]|].
  split; [reflexivity|]. split; [reflexivity|]. split; [reflexivity|].
  split; [reflexivity|]. split; [split; [reflexivity|]; split; [apply B; reflexivity | unfold is_port; lia]|].
  split; [reflexivity|]. split; [reflexivity|].
  split; [reflexivity|]. split; [cbn [valid]; repeat constructor; unfold is_byte; lia|].
  repeat split.
Qed.

(** ** C42: get_if and get *)
Theorem C42_get_if : forall p e actual, protocol e = Some actual ->
  (get p e = None <->
   ~ stands_for (family p) (family actual) \/ clash (ptype p) (ptype actual) \/ clash (pproto p) (pproto actual)).
Proof.
  intros p e actual H. unfold get. rewrite H.
  assert (D : forall x y, {clash x y} + {~ clash x y}).
  { intros x y. destruct (negb (x =? 0) && negb (y =? 0) && negb (y =? x)) eqn:E; [left; apply clash_iff, E|].
    right. rewrite <- clash_iff, E. discriminate. }
  pose proof (get_if_iff p actual) as G. destruct (get_if p actual).
  - destruct (proj1 G eq_refl) as (A & B & C). split; [discriminate|]. intros [K|[K|K]]; contradiction.
  - split; [intros _|reflexivity].
    destruct (D (ptype p) (ptype actual)) as [T|T]; [right; left; exact T|].
    destruct (D (pproto p) (pproto actual)) as [U|U]; [right; right; exact U|].
    left. intro K. assert (false = true) as X by (apply G; auto). discriminate X.
Qed.
Print Assumptions C42_get_if.

(** What it gives is the endpoint itself: with the arguments it was built from. *)
Theorem C42_get_value : forall p q a e e', construct q a = Some e -> valid a -> get p e = Some e' ->
  e' = e /\ observed a e' /\ stands_for (family p) (family_of a).
Proof.
  intros p q a e e' H V G. destruct (C41_stored q a e H V) as (_ & P).
  pose proof (C42_get_if p e _ P) as K. unfold get in G, K. rewrite P in G, K.
  destruct (get_if p _) eqn:E; [|discriminate]. injection G as <-.
  split; [reflexivity|]. split; [exact (C41_round_trip q a e H V)|].
  apply get_if_iff in E. exact (proj1 E).
Qed.
Print Assumptions C42_get_value.

(** An endpoint is accepted by the protocol it was built with and by the protocols
    of the same kind that leave the family, the type or both open. *)
Theorem C42_accepts_own : forall q a e, construct q a = Some e -> valid a ->
  get q e = Some e /\ (family_of a <> 1 -> get (mkp 0 (ptype q) (pproto q)) e = Some e /\ get ip e = Some e).
Proof.
  intros q a e H V. destruct (C41_stored q a e H V) as (_ & P).
  assert (N : forall x, ~ clash x x) by (intros x (_ & _ & K); apply K; reflexivity).
  assert (N0 : forall x, ~ clash 0 x) by (intros x (K & _); apply K; reflexivity).
  assert (T : construct q a <> None) by (rewrite H; discriminate). apply construct_total in T.
  unfold get. rewrite P. split.
  - rewrite (proj2 (get_if_iff q _)); [reflexivity|]. cbn [family ptype pproto].
    split; [|split; apply N]. unfold stands_for.
    destruct a as [?|?|?|[?|?]|?]; cbn [family_of]; lia.
  - intro F. assert (S : stands_for 0 (family_of a)).
    { left. split; [reflexivity|]. destruct a as [?|?|?|[?|?]|?]; cbn [family_of] in *; auto. contradiction. }
    rewrite (proj2 (get_if_iff (mkp 0 _ _) _)) by (cbn [family ptype pproto]; auto).
    rewrite (proj2 (get_if_iff ip _)) by (cbn [family ptype pproto ip]; unfold AF_UNSPEC, IPPROTO_IP; auto).
    split; reflexivity.
Qed.
Print Assumptions C42_accepts_own.

(** The predefined protocol udp_v6 is declared with the protocol number of icmp: its
    endpoints are refused by udp and accepted by icmp. *)
Theorem C42_udp_v6_refuted : forall b q e, length b = 16%nat -> Forall is_byte b -> is_port q ->
  construct udp_v6 (AV6 b q) = Some e -> get udp e = None /\ get icmp e = Some e.
Proof.
  intros b q e L F Hq H.
  destruct (C41_stored udp_v6 (AV6 b q) e H ltac:(repeat split; (assumption || apply Hq))) as (_ & P).
  unfold get. rewrite P. split; reflexivity.
Qed.
Print Assumptions C42_udp_v6_refuted.

Example C42_nonvacuous :
  exists e, construct tcp_v4 (AV4 1 80) = Some e /\
  get tcp_v4 e = Some e /\ get tcp e = Some e /\ get ip e = Some e /\ get ip_v4 e = Some e /\
  get tcp_v6 e = None /\ get udp_v4 e = None /\ get local_stream e = None.
Proof. eexists. repeat split. Qed.
