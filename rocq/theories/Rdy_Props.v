(** C89: reading from, and waiting for, a connected stream socket *)
From Coq Require Import List Bool Arith Lia.
From Verif Require Import Rdy_Model Rdy_Spec Rdy_Inv.
Import ListNotations.

(** what reads take is what the peer sent, in order: nothing is lost, repeated or exchanged, whatever is cancelled *)
Theorem C89_bytes : forall ls s es, run ls init = Some (s, es) -> arrived es = taken es ++ avail s.
Proof. intros ls s es H. apply good_run in H. apply (g_bytes _ _ H). Qed.
Print Assumptions C89_bytes.

(** every operation ends at most once *)
Theorem C89_once : forall ls s es, run ls init = Some (s, es) -> NoDup (started es) /\ NoDup (ended es) /\ forall i, In i (ended es) -> In i (started es).
Proof.
  intros ls s es H. apply good_run in H. assert (forall i, cnt i (started es) <= 1) as ONE by (intro i; rewrite (g_ops _ _ H); destruct (i <? nops s); lia).
  split; [now apply cnt_nodup|]. split; [apply cnt_nodup; intro i; specialize (ONE i); pose proof (g_end _ _ H i); lia|].
  intros i K. apply cnt_in in K. apply cnt_in. pose proof (g_end _ _ H i). lia.
Qed.
Print Assumptions C89_once.

Lemma done_one : forall es i r r', cnt i (ended es) <= 1 -> In (EDone i r) es -> In (EDone i r') es -> r = r'.
Proof.
  induction es as [|e es IH]; intros i r r' C A B; [destruct A|].
  assert (forall u, In (EDone i u) es -> cnt i (ended es) >= 1) as ONE.
  { intros u K. apply cnt_in. unfold ended. apply in_flat_map. exists (EDone i u). split; [exact K|now left]. }
  change (ended (e :: es)) with (ended ([e] ++ es)) in C. rewrite ended_app, cnt_app in C. destruct A as [->|A], B as [B|B].
  - now injection B as ->.
  - specialize (ONE _ B). cbn [ended flat_map app] in C. rewrite cnt_one, Nat.eqb_refl in C. lia.
  - subst e. specialize (ONE _ A). cbn [ended flat_map app] in C. rewrite cnt_one, Nat.eqb_refl in C. lia.
  - apply (IH i r r'); auto. lia.
Qed.
Lemma result_one : forall s es i r r', good s es -> result s es i r -> In (EDone i r') es -> r = r'.
Proof.
  intros s es i r r' G R D. pose proof (g_end _ _ G i) as E. pose proof (g_ops _ _ G i) as O.
  assert (cnt i (ended es) >= 1) as D1 by (apply cnt_in; unfold ended; apply in_flat_map; exists (EDone i r'); split; [exact D|now left]).
  destruct R as [R|R].
  - apply (done_one es i); auto. destruct (i <? nops s); lia.
  - assert (cnt i (map fst (posted s)) >= 1) by (apply cnt_in; apply in_map_iff; exists (i, r); auto). destruct (i <? nops s); lia.
Qed.

(** the bytes that an operation takes are given to its coroutine, and to no other; in particular an aborted read has taken nothing *)
Theorem C89_delivered : forall ls s es, run ls init = Some (s, es) ->
  (forall i bs, In (EDone i (Data bs)) es -> bs <> [] -> In (ETake i bs) es) /\
  (forall i bs, In (ETake i bs) es -> bs <> [] /\ forall r, In (EDone i r) es -> r = Data bs) /\
  (forall i bs bs', In (ETake i bs) es -> In (ETake i bs') es -> In i (ended es) -> bs = bs').
Proof.
  intros ls s es H. apply good_run in H. split; [|split].
  - intros i bs D N. apply (g_take _ _ H). split; [exact N|now left].
  - intros i bs T. apply (g_take _ _ H) in T as (N & R). split; [exact N|]. intros r D. symmetry. exact (result_one s es i _ _ H R D).
  - intros i bs bs' T T' D. unfold ended in D. apply in_flat_map in D as (e & D & E). destruct e; cbn in E; try contradiction. destruct E as [->|[]].
    apply (g_take _ _ H) in T as (N & R). apply (g_take _ _ H) in T' as (N' & R').
    pose proof (result_one s es i _ _ H R D). pose proof (result_one s es i _ _ H R' D). congruence.
Qed.
Print Assumptions C89_delivered.

(** operations take bytes in the order in which they began *)
Lemma serve_started : forall q s, started (snd (serve q s)) = [] /\ nops (fst (serve q s)) = nops s.
Proof.
  induction q as [|[i k] q IH]; intro s; cbn [serve]; [auto|]. destruct k; [|destruct (IH (set (avail s) q (posted s ++ [(i, Ready)]) s)); auto].
  destruct (receive n s) as [[r a]|]; [|auto]. destruct (IH (set a q (posted s ++ [(i, r)]) s)) as [A B].
  destruct (serve q (set a q (posted s ++ [(i, r)]) s)) as [s' e]. cbn [fst snd] in *. split; [|exact B]. rewrite started_app, A. destruct r; reflexivity.
Qed.
Lemma complete_started : forall imm i r s, started (snd (complete imm i r s)) = [] /\ nops (fst (complete imm i r s)) = nops s.
Proof. intros [] i r s; auto. Qed.
Theorem C89_order : forall ls s es, run ls init = Some (s, es) -> increasing (takers es) /\ started es = seq 0 (nops s).
Proof.
  intros ls s es H. split; [apply good_run in H; pose proof (g_inc _ _ H) as I; apply inc_app in I; tauto|]. revert ls s es H. apply hist_ind; [reflexivity|].
  intros l s es s' e IH St. rewrite started_app, IH.
  assert (forall i k e1, i = nops s -> started e1 = [] -> nops s' = S (nops s) -> e = EStart i k :: e1 -> seq 0 (nops s) ++ started e = seq 0 (nops s')) as NEW.
  { intros i k e1 -> E N ->. change (EStart (nops s) k :: e1) with ([EStart (nops s) k] ++ e1). rewrite started_app, E, N, seq_S, app_nil_r. reflexivity. }
  assert (started e = [] -> nops s' = nops s -> seq 0 (nops s) ++ started e = seq 0 (nops s')) as OLD by (intros -> ->; apply app_nil_r).
  destruct l; cbn [step] in St.
  - destruct (eof s || negb (isopen s)); [discriminate|]. injection St as <- <-. apply OLD; reflexivity.
  - destruct (eof s || negb (isopen s)); [discriminate|]. injection St as <- <-. apply OLD; reflexivity.
  - destruct (n =? 0); [|destruct (negb (isopen s)); [|destruct (queue s) as [|x q]; [destruct (receive n s) as [[r a]|]|]]].
    + destruct (complete_started imm (nops s) (Data []) (next s)) as [A B]. destruct (complete imm (nops s) (Data []) (next s)) as [s1 e1]. injection St as <- <-. eapply NEW; eauto.
    + destruct (complete_started imm (nops s) Bad (next s)) as [A B]. destruct (complete imm (nops s) Bad (next s)) as [s1 e1]. injection St as <- <-. eapply NEW; eauto.
    + destruct (complete_started imm (nops s) r (set a [] (posted s) (next s))) as [A B]. destruct (complete imm (nops s) r (set a [] (posted s) (next s))) as [s1 e1]. cbn [fst snd] in *. injection St as <- <-.
      eapply NEW; [reflexivity| |exact B|reflexivity]. rewrite started_app, A. destruct r; reflexivity.
    + injection St as <- <-. (eapply NEW; [reflexivity| |reflexivity|reflexivity]); reflexivity.
    + injection St as <- <-. (eapply NEW; [reflexivity| |reflexivity|reflexivity]); reflexivity.
  - destruct (negb (isopen s)); [|destruct (avail s)]; injection St as <- <-; (eapply NEW; [reflexivity| |reflexivity|reflexivity]); reflexivity.
  - destruct (queue s); [discriminate|]. destruct (match avail s with [] => eof s | _ => true end), (isopen s); try discriminate. injection St as <- <-. apply OLD; reflexivity.
  - destruct (Rdy_Model.ev s); [|discriminate]. injection St as St. pose proof (serve_started (queue s) (mk (avail s) (eof s) (isopen s) (queue s) false (posted s) (nops s))) as [A B]. rewrite St in A, B. now apply OLD.
  - destruct (posted s) as [|[i r] p]; [discriminate|]. injection St as <- <-. apply OLD; reflexivity.
  - injection St as <- <-. apply OLD; reflexivity.
  - injection St as <- <-. apply OLD; reflexivity.
  - injection St as <- <-. apply OLD; reflexivity.
Qed.
Print Assumptions C89_order.

(** what the results mean: data fit the buffers; the end of the stream is reported after all bytes were taken; a wait does not read;
    an operation is aborted only by a signal to it, cancel or close, and fails otherwise only after close *)
Theorem C89_results : forall ls s es i r, run ls init = Some (s, es) -> In (EDone i r) es ->
  match r with
  | Data bs => exists n, In (EStart i (KRead n)) es /\ length bs <= n /\ (bs = [] -> n = 0)
  | Eof => (exists n, In (EStart i (KRead n)) es) /\ In EEof es /\ taken es = arrived es
  | Ready => In (EStart i KWait) es
  | Aborted => In (ESignal i) es \/ In ECancel es \/ In EClose es
  | Bad => In EClose es
  end.
Proof.
  intros ls s es i r H D. apply good_run in H. assert (result s es i r) as R by now left. destruct (g_fits _ _ H i r R) as (k & A & B). pose proof (g_why _ _ H i r R) as W.
  destruct r; cbn in B, W; auto.
  - destruct B as (n & -> & B). exists n. auto.
  - destruct B as (n & -> & _). destruct W as [W1 W2]. split; [eauto|]. split; [exact W1|]. rewrite (g_bytes _ _ H), W2, app_nil_r. reflexivity.
  - now subst k.
Qed.
Print Assumptions C89_results.

(** a wait ends without error only if something has arrived before, or the stream has ended *)
Theorem C89_ready : forall ls s es i, run ls init = Some (s, es) -> In (EDone i Ready) es -> arrived es <> [] \/ In EEof es.
Proof.
  intros ls s es i H D.
  assert (arrived es = [] -> ~ In EEof es -> avail s = [] /\ eof s = false /\ ev s = false /\ (forall j, ~ In (j, Ready) (posted s)) /\ (forall j, ~ In (EDone j Ready) es)) as CL.
  2:{ destruct (arrived es) as [|b bs] eqn:A; [|left; discriminate]. right.
      assert ({In EEof es} + {~ In EEof es}) as [E|E]; [|exact E|destruct (CL eq_refl E) as (_ & _ & _ & _ & N); destruct (N i D)].
      clear. induction es as [|e es [E|E]]; [right; intros []|left; now right|]. destruct e; try (right; intros [K|K]; [discriminate|contradiction]). left; now left. }
  clear i D. revert ls s es H. apply (hist_ind (fun s es => arrived es = [] -> ~ In EEof es -> avail s = [] /\ eof s = false /\ ev s = false /\ (forall j, ~ In (j, Ready) (posted s)) /\ (forall j, ~ In (EDone j Ready) es))).
  - intros _ _. repeat split; auto.
  - intros l s es s' e Q ST A E. rewrite arrived_app in A. apply app_eq_nil in A as [A A']. rewrite in_app_iff in E.
    destruct (Q A ltac:(tauto)) as (V & F & W & P & N). assert (~ In EEof e) as E' by tauto. clear Q A E.
    assert (forall p n, In p (abort n s).(posted) -> snd p = Ready -> False) as AB.
    { intros [j r] n K R. cbn [snd] in R. subst r. unfold abort, set in K. cbn [posted] in K. apply in_app_iff in K as [K|K]; [apply (P j K)|]. apply in_map_iff in K as (q & K & _). discriminate. }
    destruct l; cbn [step] in ST.
    + destruct (eof s || negb (isopen s)); [discriminate|]. injection ST as <- <-. cbn in A'. rewrite app_nil_r in A'. subst bs. cbn. rewrite V. repeat split; auto. intros j K. apply in_app_iff in K as [K|[K|[]]]; [apply (N j K)|discriminate].
    + destruct (eof s || negb (isopen s)); [discriminate|]. injection ST as <- <-. destruct E'. now left.
    + unfold complete, receive, next, set in ST. rewrite V, F in ST. destruct (n =? 0), (isopen s), imm, (queue s); cbn in ST; injection ST as <- <-; cbn; (split; [auto|]); (split; [auto|]); (split; [auto|]); split;
        intros j K; rewrite ?in_app_iff in K; cbn in K; pose proof (P j); pose proof (N j); intuition discriminate.
    + unfold next, set in ST. rewrite V in ST. destruct (isopen s); cbn in ST; injection ST as <- <-; cbn; (split; [auto|]); (split; [auto|]); (split; [auto|]); split;
        intros j K; rewrite ?in_app_iff in K; cbn in K; pose proof (P j); pose proof (N j); intuition discriminate.
    + rewrite V, F in ST. destruct (queue s); discriminate.
    + rewrite W in ST. discriminate.
    + destruct (posted s) as [|[j r] p] eqn:PO; [discriminate|]. injection ST as <- <-. cbn. repeat split; auto.
      * intros j' K. apply (P j'). now right.
      * intros j' K. apply in_app_iff in K as [K|[K|[]]]; [apply (N j' K)|]. injection K as <- ->. apply (P j). now left.
    + injection ST as <- <-. cbn [avail eof ev abort set]. repeat split; auto; intros j K; [eapply AB; [exact K|reflexivity]|]. apply in_app_iff in K as [K|[K|[]]]; [apply (N j K)|discriminate].
    + injection ST as <- <-. cbn [avail eof ev abort set]. repeat split; auto; intros j K; [eapply AB; [exact K|reflexivity]|]. apply in_app_iff in K as [K|[K|[]]]; [apply (N j K)|discriminate].
    + injection ST as <- <-. cbn [avail eof ev abort set posted]. repeat split; auto; intros j K; [apply (AB (j, Ready) (fun _ => true)); [exact K|reflexivity]|]. apply in_app_iff in K as [K|[K|[]]]; [apply (N j K)|discriminate].
Qed.
Print Assumptions C89_ready.

(** nothing waits for ever *)
Lemma drain : forall p s, posted s = p -> exists s' es, run (repeat LDeliver (length p)) s = Some (s', es) /\ posted s' = [] /\ queue s' = queue s /\ avail s' = avail s /\ (forall i r, In (i, r) p -> In (EDone i r) es).
Proof.
  induction p as [|[i r] p IH]; intros s P.
  - exists s, []. cbn. repeat split; auto.
  - cbn [length repeat run step]. rewrite P. destruct (IH (set (avail s) (queue s) p s) eq_refl) as (s' & es & R & A & B & C & D). rewrite R.
    exists s', ([EDone i r] ++ es). repeat split; auto. intros j r' [E|K]; [injection E as <- <-; now left|right; auto].
Qed.

Lemma open_where : forall s es i, good s es -> open_op es i -> In i (map fst (queue s)) \/ In i (map fst (posted s)).
Proof.
  intros s es i G (A & B). apply cnt_in in A. pose proof (g_end _ _ G i). assert (cnt i (ended es) = 0) as Z.
  { destruct (cnt i (ended es)) eqn:Z; [reflexivity|]. exfalso. apply B. apply cnt_in. lia. }
  destruct (cnt i (map fst (queue s))) eqn:Q; [right; apply cnt_in; lia|left; apply cnt_in; lia].
Qed.

Definition delivers (n : nat) : list label := repeat LDeliver n.

(** a signal to the coroutine, cancel and close end its operation *)
Theorem C89_stop : forall ls s es i l, run ls init = Some (s, es) -> open_op es i -> In l [LSignal i; LCancel; LClose] ->
  exists n s' es', run (l :: delivers n) s = Some (s', es') /\ In i (ended es').
Proof.
  intros ls s es i l H O I. apply good_run in H. pose proof (open_where s es i H O) as W.
  assert (forall f s1, f i = true -> posted s1 = posted (abort f s) -> exists n s' es', run (delivers n) s1 = Some (s', es') /\ In i (ended es')) as GO.
  { intros f s1 F P. destruct (drain (posted s1) s1 eq_refl) as (s' & es' & R & _ & _ & _ & D). exists (length (posted s1)), s', es'. split; [exact R|].
    assert (exists r, In (i, r) (posted s1)) as (r & K).
    { rewrite P. unfold abort. cbn [posted set]. destruct W as [W|W]; apply in_map_iff in W as ([j k] & E & W); cbn in E; subst j.
      - exists Aborted. apply in_or_app. right. apply in_map_iff. exists (i, k). split; [reflexivity|]. apply filter_In. auto.
      - exists k. apply in_or_app. auto. }
    unfold ended. apply in_flat_map. exists (EDone i r). split; [auto|now left]. }
  assert (forall s1 e1, step l s = Some (s1, e1) -> (exists n s' es', run (delivers n) s1 = Some (s', es') /\ In i (ended es')) -> exists n s' es', run (l :: delivers n) s = Some (s', es') /\ In i (ended es')) as LIFT.
  { intros s1 e1 St (n & s' & es' & R & K). exists n, s', (e1 ++ es'). cbn [run]. rewrite St, R. split; [reflexivity|]. rewrite ended_app. apply in_or_app. auto. }
  destruct I as [<-|[<-|[<-|[]]]]; eapply LIFT; try reflexivity.
  - apply (GO (Nat.eqb i)); [apply Nat.eqb_refl|reflexivity].
  - apply (GO (fun _ => true)); reflexivity.
  - apply (GO (fun _ => true)); reflexivity.
Qed.
Print Assumptions C89_stop.

(** when there are bytes or the stream has ended, the operation that began first ends; when the stream has ended, all do *)
Lemma serve_posted : forall q s i r, In (i, r) (posted s) -> In (i, r) (posted (fst (serve q s))).
Proof.
  induction q as [|[j k] q IH]; intros s i r K; cbn [serve]; [exact K|]. destruct k; [|apply IH; cbn; apply in_or_app; auto].
  destruct (receive n s) as [[r' a]|]; [|exact K]. specialize (IH (set a q (posted s ++ [(j, r')]) s) i r).
  destruct (serve q (set a q (posted s ++ [(j, r')]) s)). apply IH. cbn. apply in_or_app. auto.
Qed.
Lemma serve_first : forall i k q s, avail s <> [] \/ eof s = true -> exists r, In (i, r) (posted (fst (serve ((i, k) :: q) s))).
Proof.
  intros i k q s A. cbn [serve]. destruct k as [n|].
  - assert (exists r a, receive n s = Some (r, a)) as (r & a & R).
    { unfold receive. destruct (avail s); [|eauto]. destruct A as [A|A]; [contradiction|]. rewrite A. eauto. }
    rewrite R. pose proof (serve_posted q (set a q (posted s ++ [(i, r)]) s) i r) as P. destruct (serve q (set a q (posted s ++ [(i, r)]) s)). exists r. apply P. cbn. apply in_or_app. right. now left.
  - exists Ready. apply serve_posted. cbn. apply in_or_app. right. now left.
Qed.
Lemma serve_all : forall q s, eof s = true -> forall i k, In (i, k) q -> exists r, In (i, r) (posted (fst (serve q s))).
Proof.
  induction q as [|[j k'] q IH]; intros s E i k K; [destruct K|]. destruct K as [K|K]; [injection K as <- <-; apply serve_first; auto|].
  cbn [serve]. destruct k' as [n|]; [|apply (IH (set (avail s) q (posted s ++ [(j, Ready)]) s) E i k K)].
  assert (exists r a, receive n s = Some (r, a)) as (r & a & R) by (unfold receive; destruct (avail s); [rewrite E|]; eauto).
  rewrite R. destruct (IH (set a q (posted s ++ [(j, r)]) s) E i k K) as (r' & P). destruct (serve q (set a q (posted s ++ [(j, r)]) s)). eauto.
Qed.

Theorem C89_progress : forall ls s es i, run ls init = Some (s, es) -> open_op es i -> ~ In EClose es ->
  (avail s <> [] /\ (forall j, open_op es j -> i <= j)) \/ In EEof es ->
  exists ls' s' es', run ls' s = Some (s', es') /\ (forall l, In l ls' -> In l [LPoll; LReact; LDeliver]) /\ In i (ended es').
Proof.
  intros ls s es i H O NC C. apply good_run in H.
  assert (isopen s = true) as OP by (destruct (isopen s) eqn:P; [reflexivity|exfalso; apply NC; now apply (g_open _ _ H)]).
  assert (forall s1 r, In (i, r) (posted s1) -> exists s' es', run (repeat LDeliver (length (posted s1))) s1 = Some (s', es') /\ In i (ended es')) as FIN.
  { intros s1 r K. destruct (drain (posted s1) s1 eq_refl) as (s' & es' & R & _ & _ & _ & D). exists s', es'. split; [exact R|]. unfold ended. apply in_flat_map. exists (EDone i r). split; [auto|now left]. }
  assert (forall n l, In l (repeat LDeliver n) -> In l [LPoll; LReact; LDeliver]) as OK by (intros n l K; apply repeat_spec in K; subst; cbn; auto).
  destruct (open_where s es i H O) as [W|W]; apply in_map_iff in W as ([j k] & E & W); cbn in E; subst j.
  2: { destruct (FIN s k W) as (s' & es' & R & K). exists (repeat LDeliver (length (posted s))), s', es'. split; [exact R|]. split; [apply OK|exact K]. }
  set (s0 := mk (avail s) (eof s) (isopen s) (queue s) false (posted s) (nops s)).
  destruct (serve (queue s) s0) as [s1 e1] eqn:SV.
  assert (exists r, In (i, r) (posted s1)) as (r & P).
  { replace s1 with (fst (serve (queue s) s0)) by now rewrite SV. destruct C as [(A & F)|C].
    - destruct (queue s) as [|[j k'] q] eqn:Q; [destruct W|]. assert (i = j) as ->; [|apply serve_first; auto].
      assert (i <= j) as L.
      { apply F. split; [apply in_flat_map; exists (EStart j k'); split; [apply (g_st _ _ H); rewrite Q; now left|now left]|].
        intro K. apply cnt_in in K. pose proof (g_end _ _ H j) as E. pose proof (g_ops _ _ H j) as OO. rewrite Q in E. cbn [map fst] in E. rewrite (cnt_cons j j), Nat.eqb_refl in E. destruct (j <? nops s); lia. }
      destruct W as [W|W]; [now injection W|]. pose proof (g_inc _ _ H) as I. rewrite Q in I. apply inc_app in I as (_ & (I & _) & _). specialize (I i). assert (j < i); [|lia]. apply I. apply in_map_iff. exists (i, k). auto.
    - apply (serve_all (queue s) s0 (proj2 (g_eof _ _ H) C) i k W). }
  destruct (FIN s1 r P) as (s' & es' & R & K). exists (LPoll :: LReact :: repeat LDeliver (length (posted s1))), s', ([] ++ e1 ++ es').
  split; [|split].
  - cbn [run]. assert (step LPoll s = Some (mk (avail s) (eof s) (isopen s) (queue s) true (posted s) (nops s), [])) as ->.
    { cbn [step]. destruct (queue s) as [|x q]; [destruct W|]. assert (match avail s with [] => eof s | _ => true end = true) as ->; [|now rewrite OP].
      destruct C as [(A & _)|C]; [destruct (avail s); [contradiction|reflexivity]|]. apply (g_eof _ _ H) in C. rewrite C. destruct (avail s); reflexivity. }
    cbn [step Rdy_Model.ev avail eof isopen queue posted nops]. fold s0. rewrite SV, R. reflexivity.
  - intros l [<-|[<-|L]]; [cbn; auto..|]. eapply OK; eauto.
  - rewrite !ended_app. apply in_or_app. right. apply in_or_app. auto.
Qed.
Print Assumptions C89_progress.

(** a wait that does not suspend: there are bytes, and if nobody else reads the next read has some at once *)
Theorem C89_wait_partial : forall ls s es s' e i, run ls init = Some (s, es) -> step LWait s = Some (s', e) -> In (EDone i Ready) e ->
  avail s' <> [] /\ avail s' = avail s /\
  (queue s = [] -> forall n, n <> 0 -> exists s'' j bs, step (LRead n true) s' = Some (s'', [EStart j (KRead n); ETake j bs; EDone j (Data bs)]) /\ bs <> []).
Proof.
  intros ls s es s' e i H St K. cbn [step] in St. destruct (isopen s) eqn:O; cbn [negb] in St.
  2: { injection St as <- <-. destruct K as [K|[K|[]]]; discriminate K. }
  destruct (avail s) as [|x l] eqn:A; injection St as <- <-; [destruct K as [K|[]]; discriminate K|]. cbn [avail next]. rewrite A. split; [discriminate|]. split; [reflexivity|].
  intros Q n N. cbn [step]. destruct (Nat.eqb_spec n 0) as [|_]; [contradiction|]. cbn [isopen queue next]. rewrite O, Q. cbn [negb]. unfold receive. cbn [avail next]. rewrite A.
  destruct n as [|n]; [contradiction|]. eexists _, _, _. split; [reflexivity|discriminate].
Qed.
Print Assumptions C89_wait_partial.

Lemma obs_run : forall ls (Q : state -> list event -> Prop), match run ls init with Some (s, es) => Q s es | None => False end -> exists s es, run ls init = Some (s, es) /\ Q s es.
Proof. intros ls Q H. destruct (run ls init) as [[s es]|]; [eauto|destruct H]. Qed.

(** a wait that suspends: of two coroutines both go on, the first reads everything and the second waits again *)
Theorem C89_wait_refuted : exists s es, run [LWait; LWait; LArrive [7]; LPoll; LReact; LDeliver; LRead 10 true; LDeliver; LRead 10 true] init = Some (s, es) /\
  In (EDone 0 Ready) es /\ In (EDone 1 Ready) es /\ In (EDone 2 (Data [7])) es /\ open_op es 3 /\ avail s = [] /\ eof s = false.
Proof. apply obs_run. vm_compute. repeat split; auto 12. intros K. repeat destruct K as [K|K]; try discriminate K; destruct K. Qed.
Print Assumptions C89_wait_refuted.

(** ... and even with one coroutine: the event that ends the wait was fetched before the coroutine read the bytes *)
Theorem C89_spurious_refuted : exists s es, run [LRead 1 true; LArrive [7]; LPoll; LSignal 0; LDeliver; LRead 10 true; LWait; LReact; LDeliver; LRead 10 true] init = Some (s, es) /\
  In (EDone 0 Aborted) es /\ In (EDone 1 (Data [7])) es /\ In (EDone 2 Ready) es /\ open_op es 3 /\ avail s = [] /\ eof s = false.
Proof. apply obs_run. vm_compute. repeat split; auto 12. intros K. repeat destruct K as [K|K]; try discriminate K; destruct K. Qed.
Print Assumptions C89_spurious_refuted.

(** the coroutines need not go on in the order in which they have taken their bytes *)
Theorem C89_resume_refuted : exists s es a b, run [LRead 1 true; LArrive [7; 8]; LPoll; LReact; LRead 1 true; LDeliver] init = Some (s, es) /\
  takers es = [0; 1] /\ es = a ++ [EDone 1 (Data [8])] ++ b /\ ~ In 0 (ended a) /\ In (EDone 0 (Data [7])) b.
Proof.
  eexists _, _, [EStart 0 (KRead 1); EArrive [7; 8]; ETake 0 [7]; EStart 1 (KRead 1); ETake 1 [8]], [EDone 0 (Data [7])].
  split; [reflexivity|]. split; [reflexivity|]. split; [reflexivity|]. split; [intros []|now left].
Qed.
Print Assumptions C89_resume_refuted.

(** a history with several readers, a cancelled one, and the end of the stream *)
Example C89_nonvacuous : exists s es, run [LRead 2 true; LRead 3 false; LArrive [1; 2; 3]; LSignal 0; LPoll; LReact; LArrive [4; 5; 6]; LRead 2 true; LDeliver; LDeliver; LWait; LRead 9 false; LRead 0 true; LEof; LRead 1 true; LWait] init = Some (s, es) /\
  takers es = [1; 2; 4] /\ taken es = [1; 2; 3; 4; 5; 6] /\ In (EDone 0 Aborted) es /\ In (EDone 1 (Data [1; 2; 3])) es /\ In (EDone 3 Ready) es /\ In (EDone 6 Eof) es /\
  open_op es 4 /\ open_op es 7 /\ In EEof es /\ ~ In EClose es /\ nops s = 8.
Proof.
  apply obs_run. vm_compute. repeat split; auto 25; intros K; repeat destruct K as [K|K]; try discriminate K; destruct K.
Qed.

Example C89_nonvacuous_first : exists s es, run [LRead 2 true; LWait; LArrive [1]] init = Some (s, es) /\ open_op es 0 /\ ~ In EClose es /\ avail s <> [] /\ (forall j, open_op es j -> 0 <= j).
Proof.
  apply obs_run. vm_compute. split; [split; [auto|intros [] ]|]. split; [intros K; repeat destruct K as [K|K]; try discriminate K; destruct K|]. split; [discriminate|]. intros. apply Nat.le_0_l.
Qed.
