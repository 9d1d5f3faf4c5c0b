(** * Proofs about endpoints *)
From Coq Require Import List Bool Arith ZArith Lia.
From Verif Require Import Ep_Model Ep_Spec.
Import ListNotations.
Local Open Scope Z_scope.

Lemma in_memory_le : forall x, le 4 x = in_memory x.
Proof.
  intro x. unfold in_memory. cbn [le].
  rewrite !Zdiv.Zdiv_Zdiv by lia. change (256*256) with 65536. change (65536*256) with 16777216.
  reflexivity.
Qed.
Lemma of_in_memory : forall x, 0 <= x < 4294967296 -> of_le (in_memory x) = x.
Proof.
  intros x H. rewrite <- in_memory_le. cbn [le of_le].
  set (a := x / 256). set (b := a / 256). set (c := b / 256).
  pose proof (Z.div_mod x 256 ltac:(lia)). pose proof (Z.div_mod a 256 ltac:(lia)).
  pose proof (Z.div_mod b 256 ltac:(lia)). pose proof (Z.div_mod c 256 ltac:(lia)).
  assert (c / 256 = 0).
  { unfold c, b, a. rewrite !Zdiv.Zdiv_Zdiv by lia. apply Z.div_small. lia. }
  fold a in H0. fold b in H1. fold c in H2. lia.
Qed.
Lemma port_hi : forall p, is_port p -> le 2 (bswap16 p) = [p / 256; p mod 256].
Proof.
  intros p H. unfold is_port in H. unfold bswap16. cbn [le rev app of_le].
  assert (0 <= p / 256 < 256) by (split; [apply Z.div_pos; lia | apply Z.div_lt_upper_bound; lia]).
  pose proof (Z.mod_pos_bound p 256 ltac:(lia)).
  rewrite (Z.mod_small (p / 256) 256) by lia. rewrite ?Z.mul_0_r, ?Z.add_0_r.
  rewrite (Z.mul_comm 256), Z.mod_add, Z.div_add by lia.
  rewrite (Z.mod_small (p / 256) 256), (Z.div_small (p / 256) 256) by lia. cbn [Z.add].
  rewrite (Z.mod_small (p mod 256) 256) by lia. reflexivity.
Qed.
Lemma bswap16_back : forall p, is_port p -> bswap16 (of_le [p / 256; p mod 256]) = p.
Proof.
  intros p H. unfold is_port in H. unfold bswap16. cbn [le rev app of_le].
  assert (0 <= p / 256 < 256) by (split; [apply Z.div_pos; lia | apply Z.div_lt_upper_bound; lia]).
  pose proof (Z.mod_pos_bound p 256 ltac:(lia)).
  rewrite ?Z.mul_0_r, ?Z.add_0_r.
  rewrite (Z.mul_comm 256 (p mod 256)), Z.mod_add, Z.div_add by lia.
  rewrite (Z.mod_small (p / 256) 256), (Z.div_small (p / 256) 256) by lia. cbn [Z.add].
  rewrite (Z.mod_small (p mod 256) 256) by lia. rewrite ?Z.mul_0_r, ?Z.add_0_r.
  pose proof (Z.div_mod p 256 ltac:(lia)). lia.
Qed.
Lemma le_of_le : forall l, Forall is_byte l -> le (length l) (of_le l) = l.
Proof.
  induction l as [|b l IH]; intro H; [reflexivity|].
  inversion H as [|? ? Hb Hl]; subst. unfold is_byte in Hb. cbn [length le of_le].
  rewrite (Z.mul_comm 256), Z.mod_add, Z.div_add by lia.
  rewrite Z.mod_small, Z.div_small by lia. cbn [Z.add]. rewrite IH by assumption. reflexivity.
Qed.
Lemma text_bytes : forall b, length b = 4%nat -> Forall is_byte b -> le 4 (bswap32 (to_uint b)) = b.
Proof.
  intros b L H. unfold bswap32, to_uint.
  assert (Hr : Forall is_byte (rev b)) by (apply Forall_rev; exact H).
  pose proof (le_of_le (rev b) Hr) as E. rewrite rev_length, L in E. rewrite E, rev_involutive.
  pose proof (le_of_le b H) as E2. rewrite L in E2. exact E2.
Qed.

(** ** put *)
Lemma put_length : forall n bs s, (n + length bs <= length s)%nat -> length (put n bs s) = length s.
Proof. intros. unfold put. rewrite !app_length, map_length, firstn_length, skipn_length. lia. Qed.
Lemma fresh_length : length fresh = 128%nat.
Proof. reflexivity. Qed.

Definition st_v4 (m : list Z) (p : Z) : storage :=
  map Some (wire_v4 m p) ++ repeat None 112.
Lemma make_v4_eq : forall x p, is_port p ->
  make_v4 x p fresh = (st_v4 (in_memory x) p, 16%nat).
Proof.
  intros x p H. unfold make_v4. rewrite port_hi, in_memory_le by assumption. reflexivity.
Qed.
Lemma make_v4_text_eq : forall b p, length b = 4%nat -> Forall is_byte b -> is_port p ->
  make_v4_text b p fresh = (st_v4 b p, 16%nat).
Proof.
  intros b p L H Hp. unfold make_v4_text. unfold make_v4.
  rewrite port_hi, text_bytes by assumption.
  destruct b as [|b0 [|b1 [|b2 [|b3 [|]]]]]; try discriminate. reflexivity.
Qed.
Definition st_v6 (b : list Z) (p : Z) : storage :=
  map Some (wire_v6 b p) ++ repeat None 100.
Ltac sixteen b L :=
  destruct b as [|?b0 [|?b1 [|?b2 [|?b3 [|?b4 [|?b5 [|?b6 [|?b7 [|?b8 [|?b9 [|?b10 [|?b11 [|?b12 [|?b13 [|?b14 [|?b15 [|]]]]]]]]]]]]]]]]]; try discriminate L.
Lemma make_v6_eq : forall b p, length b = 16%nat -> is_port p ->
  make_v6 b p fresh = (st_v6 b p, 28%nat).
Proof.
  intros b p L H. unfold make_v6. rewrite port_hi by assumption. sixteen b L. reflexivity.
Qed.
Lemma make_unix_eq : forall path s n, make_unix path fresh = Some (s, n) ->
  (length path < 108)%nat /\ n = 8%nat /\
  s = map Some (wire_unix path) ++ map Some (zeros (107 - length path)) ++ repeat None 18.
Proof.
  intros path s n H. unfold make_unix in H.
  destruct (108 <=? length path)%nat eqn:G; [discriminate|]. apply Nat.leb_gt in G.
  assert (B : exists base, base = map Some [1; 0] ++ map Some (zeros 108) ++ repeat None 18 /\
    Some (put 2 (path ++ [0]) base, 8%nat) = Some (s, n)) by (eexists; split; [reflexivity | exact H]).
  clear H. destruct B as (base & B & H).
  injection H as Hs Hn. split; [exact G|]. split; [symmetry; exact Hn|]. subst s.
  unfold put. rewrite B. unfold wire_unix.
  rewrite (map_app _ [1;0]). rewrite <- app_assoc. f_equal.
  rewrite app_length. cbn [length Nat.add].
  set (Q := map Some (zeros 108) ++ repeat None 18).
  change (skipn (S (S (length path + 1))) (map Some [1;0] ++ Q)) with (skipn (length path + 1) Q).
  f_equal. subst Q. rewrite skipn_app, map_length.
  unfold zeros at 2. rewrite repeat_length.
  replace (length path + 1 - 108)%nat with 0%nat by lia. cbn [skipn]. f_equal.
  unfold zeros. replace 108%nat with ((length path + 1) + (107 - length path))%nat by lia.
  rewrite repeat_app, map_app, skipn_app, map_length, repeat_length.
  rewrite skipn_all2 by (rewrite map_length, repeat_length; lia).
  replace (length path + 1 - (length path + 1))%nat with 0%nat by lia. reflexivity.
Qed.

(** ** What is stored *)
Lemma construct_inv : forall p a e, construct p a = Some e -> valid a ->
  etype e = ptype p /\ eproto e = pproto p /\
  (exists rest, st e = map Some (wire a) ++ rest) /\ length (st e) = 128%nat /\
  (sized a -> esize e = length (wire a)).
Proof.
  intros p a e H V. unfold construct in H.
  assert (G : forall r s n, r = Some (s, n) ->
     match r with Some (s, n) => Some (mke s n (ptype p) (pproto p)) | None => None end = Some e ->
     e = mke s n (ptype p) (pproto p)) by (intros r s n -> K; injection K as <-; reflexivity).
  destruct a as [x q|b q|b q|[b|b] q|path]; cbn [valid] in V.
  - destruct (family p =? AF_INET); [|discriminate]. destruct V as [Vx Vq].
    rewrite make_v4_eq in H by assumption. injection H as <-. cbn [st esize etype eproto].
    repeat split; try reflexivity. exists (repeat None 112). reflexivity.
  - destruct (family p =? AF_INET); [|discriminate]. destruct V as (L & F & Vq).
    rewrite make_v4_text_eq in H by assumption. injection H as <-. cbn [st esize etype eproto].
    destruct b as [|b0 [|b1 [|b2 [|b3 [|]]]]]; try discriminate L.
    repeat split; try reflexivity. exists (repeat None 112). reflexivity.
  - destruct (family p =? AF_INET6); [|discriminate]. destruct V as (L & F & Vq).
    rewrite make_v6_eq in H by assumption. injection H as <-. cbn [st esize etype eproto].
    sixteen b L. repeat split; try reflexivity. exists (repeat None 100). reflexivity.
  - destruct (family p =? AF_UNSPEC); [|discriminate]. destruct V as (L & F & Vq).
    cbn [make_text] in H. rewrite make_v4_text_eq in H by assumption. injection H as <-. cbn [st esize etype eproto].
    destruct b as [|b0 [|b1 [|b2 [|b3 [|]]]]]; try discriminate L.
    repeat split; try reflexivity. exists (repeat None 112). reflexivity.
  - destruct (family p =? AF_UNSPEC); [|discriminate]. destruct V as (L & F & Vq).
    cbn [make_text] in H. rewrite make_v6_eq in H by assumption. cbn [fst] in H. injection H as <-. cbn [st esize etype eproto].
    sixteen b L. repeat split; try reflexivity. { exists (repeat None 100). reflexivity. } intros [].
  - destruct (family p =? AF_UNIX); [|discriminate].
    destruct (make_unix path fresh) as [[s n]|] eqn:E; [|discriminate]. injection H as <-.
    apply make_unix_eq in E. destruct E as (L & -> & ->). cbn [st esize etype eproto].
    repeat split; try reflexivity. { eexists; reflexivity. }
    { rewrite !app_length, !map_length, repeat_length. unfold wire_unix, zeros. rewrite !app_length, repeat_length.
      cbn [length]. lia. } intros [].
Qed.

(** when the constructor succeeds *)
Lemma construct_total : forall p a,
  construct p a <> None <->
  match a with
  | AV4 _ _ | AV4Text _ _ => family p = 2
  | AV6 _ _ => family p = 10
  | AText _ _ => family p = 0
  | AUnix path => family p = 1 /\ (length path < 108)%nat
  end.
Proof.
  intros p a. unfold construct, AF_INET, AF_INET6, AF_UNSPEC, AF_UNIX.
  destruct a as [x q|b q|b q|b q|path];
    try (match goal with |- context [?x =? ?y] => destruct (Z.eqb_spec x y) as [E|E] end;
      [split; [intros _; exact E | intros _ K];
       repeat match type of K with context [let (_, _) := ?t in _] => destruct t end; discriminate K
      | split; [intro K; exfalso; apply K; reflexivity | intro K; contradiction]]).
  destruct (Z.eqb_spec (family p) 1) as [E|E].
  - unfold make_unix. destruct (108 <=? length path)%nat eqn:G.
    + apply Nat.leb_le in G. split; [intro K; exfalso; apply K; reflexivity | intros [_ K]; lia].
    + apply Nat.leb_gt in G. split; [auto | intros _ K; discriminate K].
  - split; [intro K; exfalso; apply K; reflexivity | intros [K _]; contradiction].
Qed.

(** ** Reading back *)
Lemma known_map : forall l, known (map Some l) = Some l.
Proof. induction l as [|b l IH]; [reflexivity|]. cbn [map known]. rewrite IH. reflexivity. Qed.
Lemma cstr_map : forall path rest, Forall (fun c => is_byte c /\ c <> 0) path ->
  cstr (map Some (path ++ [0]) ++ rest) = Some path.
Proof.
  induction path as [|c path IH]; intros rest H; [reflexivity|].
  inversion H as [|? ? [_ Hc] Hp]; subst. cbn [app map cstr].
  destruct (Z.eqb_spec c 0) as [E|_]; [contradiction|]. rewrite IH by assumption. reflexivity.
Qed.

Lemma read_back : forall a e rest, valid a -> st e = map Some (wire a) ++ rest ->
  load 0 2 (st e) = Some (family_of a) /\ observed a e.
Proof.
  intros a e rest V H.
  destruct a as [x q|b q|b q|[b|b] q|path]; cbn [valid wire family_of observed] in *.
  - destruct V as [Vx Vq]. unfold port_of, addr4_of, load, get_bytes. rewrite H. unfold wire_v4.
    split; [reflexivity|]. cbn [app map skipn firstn known option_map in_memory].
    rewrite bswap16_back by assumption. split; [reflexivity|].
    fold (in_memory x). change [x mod 256; x / 256 mod 256; x / 65536 mod 256; x / 16777216 mod 256] with (in_memory x).
    rewrite of_in_memory by assumption. reflexivity.
  - destruct V as (L & F & Vq). unfold port_of, addr_of, load, get_bytes. rewrite H. unfold wire_v4.
    destruct b as [|b0 [|b1 [|b2 [|b3 [|]]]]]; try discriminate L.
    split; [reflexivity|]. cbn [app map skipn firstn known option_map].
    rewrite bswap16_back by assumption. split; reflexivity.
  - destruct V as (L & F & Vq). unfold port_of, addr_of, addr6_of, load, get_bytes. rewrite H. unfold wire_v6.
    sixteen b L. split; [reflexivity|]. cbn [app map skipn firstn known option_map].
    rewrite bswap16_back by assumption. repeat split; reflexivity.
  - destruct V as (L & F & Vq). unfold port_of, addr_of, load, get_bytes. rewrite H. unfold wire_v4.
    destruct b as [|b0 [|b1 [|b2 [|b3 [|]]]]]; try discriminate L.
    split; [reflexivity|]. cbn [app map skipn firstn known option_map].
    rewrite bswap16_back by assumption. split; reflexivity.
  - destruct V as (L & F & Vq). unfold port_of, addr_of, addr6_of, load, get_bytes. rewrite H. unfold wire_v6.
    sixteen b L. split; [reflexivity|]. cbn [app map skipn firstn known option_map].
    rewrite bswap16_back by assumption. repeat split; reflexivity.
  - unfold path_of, load, get_bytes. rewrite H. unfold wire_unix. rewrite (map_app _ [1;0]), <- app_assoc.
    split; [reflexivity|].
    change (skipn 2 (map Some [1;0] ++ map Some (path ++ [0]) ++ rest)) with (map Some (path ++ [0]) ++ rest).
    apply cstr_map. exact V.
Qed.

(** ** Copies *)
Lemma copy_other_wire : forall p a e, construct p a = Some e -> valid a -> sized a ->
  etype (copy_other e) = etype e /\ eproto (copy_other e) = eproto e /\ esize (copy_other e) = esize e /\
  (exists rest, st (copy_other e) = map Some (wire a) ++ rest).
Proof.
  intros p a e H V S. destruct (construct_inv p a e H V) as (Ht & Hp & (rest & Hs) & _ & Hz).
  repeat split. cbn [copy_other st]. rewrite (Hz S), Hs.
  exists (skipn (length (wire a)) fresh). f_equal.
  rewrite <- (map_length Some (wire a)). rewrite firstn_app, firstn_all, Nat.sub_diag, firstn_O, app_nil_r.
  reflexivity.
Qed.

(** the bytes behind size() are lost *)
Lemma cstr_short : forall l n rest, Forall (fun c => is_byte c /\ c <> 0) l -> (n <= length l)%nat ->
  cstr (firstn n (map Some l) ++ Some 0 :: rest) = Some (firstn n l).
Proof.
  induction l as [|c l IH]; intros n rest H L.
  - destruct n; [reflexivity | cbn [length] in L; lia].
  - destruct n; [reflexivity|]. inversion H as [|? ? [_ Hc] Hl]; subst. cbn [map firstn app cstr].
    destruct (Z.eqb_spec c 0) as [E|_]; [contradiction|]. rewrite IH; [reflexivity | assumption | cbn [length] in L; lia].
Qed.
Lemma copy_unix : forall p path e, construct p (AUnix path) = Some e -> valid (AUnix path) -> (6 <= length path)%nat ->
  path_of (copy_other e) = Some (firstn 6 path).
Proof.
  intros p path e H V L. unfold construct in H. destruct (family p =? AF_UNIX); [|discriminate].
  destruct (make_unix path fresh) as [[s n]|] eqn:E; [|discriminate]. injection H as <-.
  apply make_unix_eq in E. destruct E as (L8 & -> & ->).
  unfold path_of. cbn [copy_other st esize].
  destruct path as [|c0 [|c1 [|c2 [|c3 [|c4 [|c5 path]]]]]]; try (cbn [length] in L; lia).
  cbn [valid] in V.
  set (R := map Some (zeros (107 - length (c0 :: c1 :: c2 :: c3 :: c4 :: c5 :: path))) ++ repeat None 18).
  change (skipn 2 _) with
    (firstn 6 (map Some (c0 :: c1 :: c2 :: c3 :: c4 :: c5 :: path)) ++ Some 0 :: skipn 9 fresh).
  rewrite (cstr_short (c0 :: c1 :: c2 :: c3 :: c4 :: c5 :: path) 6); [reflexivity | exact V | cbn [length]; lia].
Qed.
Lemma copy_v6_text : forall p b q e, construct p (AText (inr b) q) = Some e -> valid (AText (inr b) q) ->
  addr_of (copy_other e) = None.
Proof.
  intros p b q e H V. unfold construct in H. destruct (family p =? AF_UNSPEC); [|discriminate].
  destruct V as (L & F & Vq). cbn [make_text] in H. rewrite make_v6_eq in H by assumption. injection H as <-.
  sixteen b L. reflexivity.
Qed.
Lemma size_unix : forall p path e, construct p (AUnix path) = Some e -> esize e = 8%nat.
Proof.
  intros p path e H. unfold construct in H. destruct (family p =? AF_UNIX); [|discriminate].
  unfold make_unix in H. destruct (108 <=? length path)%nat; [discriminate|]. injection H as <-. reflexivity.
Qed.
Lemma size_v6_text : forall p b q e, construct p (AText (inr b) q) = Some e -> esize e = 16%nat.
Proof.
  intros p b q e H. unfold construct in H. destruct (family p =? AF_UNSPEC); [|discriminate].
  injection H as <-. reflexivity.
Qed.

(** ** get *)
Lemma clash_iff : forall x y, negb (x =? 0) && negb (y =? 0) && negb (y =? x) = true <-> clash x y.
Proof.
  intros x y. unfold clash.
  destruct (Z.eqb_spec x 0), (Z.eqb_spec y 0), (Z.eqb_spec y x); cbn [negb andb]; split; intro; try lia; try discriminate; reflexivity.
Qed.
Lemma stands_for_iff : forall x y, tag_get x y = true <-> stands_for x y.
Proof.
  intros x y. unfold tag_get, stands_for, AF_UNSPEC, AF_INET, AF_INET6.
  destruct (Z.eqb_spec x 0), (Z.eqb_spec y 2), (Z.eqb_spec y 10), (Z.eqb_spec y x); cbn [orb];
    split; intro; try lia; try discriminate; reflexivity.
Qed.
Lemma get_if_iff : forall p a,
  get_if p a = true <->
  stands_for (family p) (family a) /\ ~ clash (ptype p) (ptype a) /\ ~ clash (pproto p) (pproto a).
Proof.
  intros p a. unfold get_if. rewrite <- stands_for_iff, <- !clash_iff.
  destruct (negb (ptype p =? 0) && _ && _); [split; [discriminate | intros (_ & K & _); exfalso; apply K; reflexivity]|].
  destruct (negb (pproto p =? 0) && _ && _); [split; [discriminate | intros (_ & _ & K); exfalso; apply K; reflexivity]|].
  split; [intro H; repeat split; try exact H; discriminate | intros (H & _); exact H].
Qed.
