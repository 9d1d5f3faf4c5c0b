(** A small reflective solver for goals [Permutation (a ++ b ++ ...) (c ++ ...)].
    Proof tool only; nothing here models code. *)
From Coq Require Import List Arith Permutation.
Import ListNotations.

Inductive pexp := PN | PA (n : nat) | PP (a b : pexp).

Section P.
Context {A : Type}.
Fixpoint pden (env : list (list A)) (e : pexp) : list A :=
  match e with
  | PN => [] | PA n => nth n env [] | PP a b => pden env a ++ pden env b end.
Fixpoint pflat (e : pexp) : list nat :=
  match e with PN => [] | PA n => [n] | PP a b => pflat a ++ pflat b end.

Fixpoint pins (x : nat) (l : list nat) : list nat :=
  match l with [] => [x] | y :: l' => if x <=? y then x :: l else y :: pins x l' end.
Definition psort (l : list nat) := fold_right pins [] l.

Lemma pins_perm x l : Permutation (x :: l) (pins x l).
Proof.
  induction l as [|y l IH]; simpl; auto. destruct (x <=? y); auto.
  rewrite perm_swap. now rewrite IH.
Qed.
Lemma psort_perm l : Permutation l (psort l).
Proof. induction l; simpl; auto. rewrite <- pins_perm. now rewrite <- IHl. Qed.

Lemma pden_flat env e : pden env e = flat_map (fun n => nth n env []) (pflat e).
Proof.
  induction e; simpl; auto. - now rewrite app_nil_r. - now rewrite flat_map_app, IHe1, IHe2.
Qed.

Lemma perm_solve env a b : psort (pflat a) = psort (pflat b) -> Permutation (pden env a) (pden env b).
Proof.
  intros E. rewrite !pden_flat. apply Permutation_flat_map.
  rewrite (psort_perm (pflat a)), E. symmetry. apply psort_perm.
Qed.

Lemma cons_app (x : A) l : x :: l = [x] ++ l.
Proof. reflexivity. Qed.

Lemma perm_use (P Q X Y : list A) : Permutation P Q -> Permutation (X ++ Q) (Y ++ P) -> Permutation X Y.
Proof.
  intros H1 H2. apply (Permutation_app_inv_r P). rewrite H1 at 1. exact H2.
Qed.
End P.

Ltac p_mem x l :=
  match l with
  | nil => constr:(false)
  | x :: _ => constr:(true)
  | _ :: ?l' => p_mem x l'
  end.
Ltac p_idx x l :=
  match l with
  | x :: _ => constr:(0)
  | _ :: ?l' => let n := p_idx x l' in constr:(S n)
  end.
Ltac p_atoms e env :=
  match e with
  | nil => env
  | ?a ++ ?b => let env := p_atoms a env in p_atoms b env
  | ?x :: nil => let m := p_mem e env in match m with true => env | false => constr:(e :: env) end
  | ?x :: ?b => let env := p_atoms (x :: nil) env in p_atoms b env
  | _ => let m := p_mem e env in match m with true => env | false => constr:(e :: env) end
  end.
Ltac p_reify e env :=
  match e with
  | nil => constr:(PN)
  | ?a ++ ?b => let a' := p_reify a env in let b' := p_reify b env in constr:(PP a' b')
  | ?x :: nil => let n := p_idx e env in constr:(PA n)
  | ?x :: ?b => let a' := p_reify (x :: nil) env in let b' := p_reify b env in constr:(PP a' b')
  | _ => let n := p_idx e env in constr:(PA n)
  end.
Ltac perm :=
  match goal with
  | |- @Permutation ?A ?X ?Y =>
      let e0 := constr:(@nil (list A)) in
      let env := p_atoms X e0 in
      let env := p_atoms Y env in
      let X' := p_reify X env in
      let Y' := p_reify Y env in
      change (Permutation (pden env X') (pden env Y'));
      apply perm_solve; vm_compute; reflexivity
  end.
Ltac perm_by H := apply (perm_use _ _ _ _ H); perm.

Goal forall (A : Type) (a b c : list A) x, Permutation (a ++ b) c -> Permutation (x :: b ++ a) (c ++ [x]).
Proof. intros. perm_by H. Qed.
