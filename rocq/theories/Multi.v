(** * Replacing an element of a list by smaller ones ends *)
From stdpp Require Import prelude list.

Section multi.
Context {A : Type} (R : A -> A -> Prop).

(** [smaller l' l]: up to the order, [l'] is [l] with one element replaced by smaller ones. *)
Definition smaller (l' l : list A) : Prop :=
  exists x xs ys, l ≡ₚ x :: ys /\ l' ≡ₚ xs ++ ys /\ Forall (fun y => R y x) xs.

Lemma smaller_app l' l r : smaller l' l -> smaller (l' ++ r) (l ++ r).
Proof.
  intros (x & xs & ys & H1 & H2 & HF). exists x, xs, (ys ++ r). split; [rewrite H1; reflexivity|].
  split; [rewrite H2, app_assoc; reflexivity|exact HF].
Qed.
Lemma smaller_perm l1' l1 l2' l2 : l1' ≡ₚ l2' -> l1 ≡ₚ l2 -> smaller l1' l1 -> smaller l2' l2.
Proof. intros Hp' Hp (x & xs & ys & H1 & H2 & HF). exists x, xs, ys. rewrite <- Hp, <- Hp'. auto. Qed.

Lemma acc_perm l l' : l ≡ₚ l' -> Acc smaller l -> Acc smaller l'.
Proof. intros Hp [H]. constructor. intros k Hk. apply H. revert Hk. apply smaller_perm; [reflexivity|symmetry; exact Hp]. Qed.

Lemma acc_nil : Acc smaller [].
Proof. constructor. intros k (x & xs & ys & H & _). apply Permutation_nil in H. discriminate. Qed.

Lemma acc_many xs a M : (forall y, R y a -> forall N, Acc smaller N -> Acc smaller (y :: N)) ->
  Forall (fun y => R y a) xs -> Acc smaller M -> Acc smaller (xs ++ M).
Proof. intros Hy HF HM. induction HF as [|y xs Hya HF IH]; cbn; auto. Qed.

Lemma acc_cons a : Acc R a -> forall M, Acc smaller M -> Acc smaller (a :: M).
Proof.
  induction 1 as [a _ IHa]. intros M HM. induction HM as [M HM IHM]. constructor. intros N (x & xs & ys & H1 & H2 & HF).
  assert (Hin : x ∈ a :: M) by (rewrite H1; left).
  apply elem_of_cons in Hin as [->|Hin].
  - apply Permutation_cons_inv in H1. apply (acc_perm (xs ++ M)); [rewrite H2, H1; reflexivity|].
    apply (acc_many xs a); auto. constructor. exact HM.
  - apply elem_of_Permutation in Hin as [zs Hz]. assert (Hy : ys ≡ₚ a :: zs).
    { rewrite Hz in H1. apply (Permutation_cons_inv (a := x)). rewrite <- H1. constructor. }
    apply (acc_perm (a :: (xs ++ zs))); [rewrite H2, Hy; apply Permutation_middle|].
    apply IHM. exists x, xs, zs. auto.
Qed.

Lemma smaller_wf : well_founded R -> well_founded smaller.
Proof. intros HR l. induction l as [|a l IH]; [apply acc_nil|apply acc_cons; auto]. Qed.
End multi.
