(** * A little matrix algebra on entry functions, up to equality of the relevant entries *)
From Coq Require Import List Arith Lia Setoid Morphisms FunctionalExtensionality.
From Verif Require Import Base FSum Linalg_Proofs Mat Matrix_Proofs.
Import ListNotations.

Section MA.
Variable K : Fld.
Add Field MAF : (Fth K).
Local Open Scope fld_scope.
Definition fmat := nat -> nat -> K.
Definition meq (r c : nat) (A B : fmat) : Prop := forall i j, (i < r)%nat -> (j < c)%nat -> A i j = B i j.
Definition mul (k : nat) (A B : fmat) : fmat := fun i j => nsum k (fun l => A i l * B l j).
Definition madd (A B : fmat) : fmat := fun i j => A i j + B i j.
Definition mscal (a : K) (A : fmat) : fmat := fun i j => a * A i j.
Definition mid : fmat := fun i j => kron i j.
Definition mdiag (d : nat -> K) : fmat := fun i j => kron i j * d j.

Global Instance meq_equiv r c : Equivalence (meq r c).
Proof.
  split.
  - intros A i j _ _. reflexivity.
  - intros A B H i j Hi Hj. symmetry. now apply H.
  - intros A B C H1 H2 i j Hi Hj. rewrite H1 by assumption. now apply H2.
Qed.
Global Instance mul_proper r k c : Proper (meq r k ==> meq k c ==> meq r c) (mul k).
Proof. intros A A' HA B B' HB i j Hi Hj. unfold mul. apply nsum_ext. intros l Hl. now rewrite HA, HB. Qed.
Global Instance madd_proper r c : Proper (meq r c ==> meq r c ==> meq r c) madd.
Proof. intros A A' HA B B' HB i j Hi Hj. unfold madd. now rewrite HA, HB. Qed.
Global Instance mscal_proper r c a : Proper (meq r c ==> meq r c) (mscal a).
Proof. intros A A' HA i j Hi Hj. unfold mscal. now rewrite HA. Qed.

Ltac mext := let i := fresh "i" in let j := fresh "j" in apply functional_extensionality; intros i; apply functional_extensionality; intros j.
Lemma mul_assoc k l A B C : mul k (mul l A B) C = mul l A (mul k B C).
Proof.
  mext. unfold mul. rewrite (nsum_ext K k _ (fun m => nsum l (fun n => A i n * (B n m * C m j)))).
  2:{ intros m _. rewrite <- nsum_mul_r. apply nsum_ext. intros; ring. }
  rewrite nsum_swap. apply nsum_ext. intros n _. now rewrite nsum_mul_l.
Qed.
Lemma mul_add_l k A B C : mul k (madd A B) C = madd (mul k A C) (mul k B C).
Proof. mext. unfold mul, madd. rewrite <- nsum_add. apply nsum_ext. intros; ring. Qed.
Lemma mul_add_r k A B C : mul k A (madd B C) = madd (mul k A B) (mul k A C).
Proof. mext. unfold mul, madd. rewrite <- nsum_add. apply nsum_ext. intros; ring. Qed.
Lemma mul_scal_l k a A B : mul k (mscal a A) B = mscal a (mul k A B).
Proof. mext. unfold mul, mscal. rewrite <- nsum_mul_l. apply nsum_ext. intros; ring. Qed.
Lemma mul_scal_r k a A B : mul k A (mscal a B) = mscal a (mul k A B).
Proof. mext. unfold mul, mscal. rewrite <- nsum_mul_l. apply nsum_ext. intros; ring. Qed.
Lemma mul_id_l k c B : meq k c (mul k mid B) B.
Proof. intros i j Hi Hj. exact (kron_sum K k i (fun l => B l j) Hi). Qed.
Lemma mul_id_r k r A : meq r k (mul k A mid) A.
Proof.
  intros i j Hi Hj. unfold mul, mid. rewrite (nsum_single K k j); [unfold kron; rewrite Nat.eqb_refl; ring|exact Hj|].
  intros l Hl N. unfold kron. rewrite (proj2 (Nat.eqb_neq l j)) by exact N. ring.
Qed.
Lemma mul_diag k d e : meq k k (mul k (mdiag d) (mdiag e)) (mdiag (fun i => d i * e i)).
Proof.
  intros i j Hi Hj. unfold mul, mdiag. rewrite (nsum_single K k i); [|exact Hi|].
  - unfold kron. rewrite Nat.eqb_refl. destruct (Nat.eqb_spec i j) as [->|]; ring.
  - intros l Hl N. unfold kron. rewrite (proj2 (Nat.eqb_neq i l)) by auto. ring.
Qed.
Lemma mdiag_ext k d e : (forall i, (i < k)%nat -> d i = e i) -> meq k k (mdiag d) (mdiag e).
Proof. intros H i j Hi Hj. unfold mdiag. now rewrite H. Qed.
Lemma mdiag_one k : meq k k (mdiag (fun _ => 1)) mid.
Proof. intros i j _ _. unfold mdiag, mid. ring. Qed.
Lemma mul_mdiag_r k A d i j : (j < k)%nat -> mul k A (mdiag d) i j = A i j * d j.
Proof.
  intros Hj. unfold mul, mdiag. rewrite (nsum_single K k j); [unfold kron; rewrite Nat.eqb_refl; ring|exact Hj|].
  intros l Hl N. unfold kron. rewrite (proj2 (Nat.eqb_neq l j)) by exact N. ring.
Qed.
Lemma mul_mdiag_l k A d i j : (i < k)%nat -> mul k (mdiag d) A i j = d i * A i j.
Proof.
  intros Hi. unfold mul, mdiag. rewrite (nsum_single K k i); [unfold kron; rewrite Nat.eqb_refl; ring|exact Hi|].
  intros l Hl N. unfold kron. rewrite (proj2 (Nat.eqb_neq i l)) by auto. ring.
Qed.
Lemma minv_meq n A B : minv K n A B <-> meq n n (mul n A B) mid.
Proof. reflexivity. Qed.
Lemma minv_comm n A B : minv K n A B -> minv K n B A.
Proof. intros H i j Hi Hj. now apply (inv_comm K n A B H). Qed.
End MA.
Arguments mul {K}. Arguments madd {K}. Arguments mscal {K}. Arguments mid {K}. Arguments mdiag {K}. Arguments meq {K}.
