(** * Matrix identities behind gftool/beb.py: resolvents of low-rank hoppings *)
From Coq Require Import List Arith Lia Field Setoid Morphisms FunctionalExtensionality.
From Verif Require Import Base FSum Linalg_Proofs Mat Matrix_Proofs MatAlg.
Import ListNotations.
Local Open Scope fld_scope.

Section Core.
Variable K : Fld.
Add Field BCF : (Fth K).
Notation meq := (@meq K). Notation fmat := (fmat K).
Variables (n m : nat) (Z Zi US SUH rv ri : fmat) (e : nat -> K).
Hypothesis HZ : minv K n Z Zi.
Hypothesis HR : minv K m rv ri.
Hypothesis He : forall a, (a < m)%nat -> e a <> 0.
Hypothesis HM : meq m m (mul n SUH (mul n Zi US)) (mul m rv (mul m (mdiag e) ri)).
Definition Thop : fmat := mul m US SUH.
Definition Zeps (eps : K) : fmat := madd Z (mscal (- eps) Thop).

Lemma meq_trans r c (A B C : fmat) : meq r c A B -> meq r c B C -> meq r c A C.
Proof. intros; etransitivity; eassumption. Qed.
Lemma riv : meq m m (mul m ri rv) mid.
Proof. apply (minv_comm K). exact HR. Qed.
Lemma rvi : meq m m (mul m rv ri) mid.
Proof. exact HR. Qed.
Lemma ziz : meq n n (mul n Zi Z) mid.
Proof. apply (minv_comm K). exact HZ. Qed.
Lemma zzi : meq n n (mul n Z Zi) mid.
Proof. exact HZ. Qed.

(** the eigenvalues of the reduced matrix do not meet the band energies *)
Lemma eps_avoid eps : inj K n (Zeps eps) -> forall a, (a < m)%nat -> 1 - eps * e a <> 0.
Proof.
  intros HI a Ha E.
  (* x = Zi US (column a of rv) *)
  set (x := mul n Zi (mul m US rv)).
  assert (X : meq n m (mul n (Zeps eps) x) (mul m US (mul m rv (mdiag (fun b => 1 - eps * e b))))).
  { unfold Zeps, x. rewrite mul_add_l, mul_scal_l.
    rewrite <- (mul_assoc K n n Z Zi). rewrite zzi. rewrite mul_id_l.
    unfold Thop. rewrite !mul_assoc. rewrite <- (mul_assoc K m n Zi US rv), <- (mul_assoc K m n SUH _ rv).
    rewrite HM. rewrite !mul_assoc. rewrite riv. rewrite (mul_id_r K m m).
    intros i j Hi Hj. unfold madd, mscal. rewrite !(fun A B => eq_refl : mul m A B i j = nsum m (fun l => A i l * B l j)).
    rewrite <- nsum_mul_l, <- nsum_add. apply nsum_ext. intros l Hl.
    rewrite !mul_mdiag_r by exact Hj. ring. }
  assert (C0 : forall i, (i < n)%nat -> x i a = 0).
  { apply (HI (fun i => x i a)). intros i Hi. transitivity (mul n (Zeps eps) x i a); [reflexivity|]. rewrite (X i a Hi Ha).
    unfold mul at 1. apply nsum_0'. intros l Hl. rewrite mul_mdiag_r by exact Ha. rewrite E. ring. }
  assert (Y : meq m m (mul n SUH x) (mul m rv (mdiag e))).
  { unfold x. rewrite <- (mul_assoc K m n Zi US rv), <- (mul_assoc K m n SUH _ rv). rewrite HM. rewrite !mul_assoc. rewrite riv. now rewrite (mul_id_r K m m). }
  assert (W : forall i, (i < m)%nat -> rv i a = 0).
  { intros i Hi. assert (Q := Y i a Hi Ha). rewrite mul_mdiag_r in Q by exact Ha.
    assert (mul n SUH x i a = 0) as Q0. { unfold mul. apply nsum_0'. intros l Hl. rewrite C0 by exact Hl. ring. }
    rewrite Q0 in Q. apply (fmul_cancel_l K (e a)); [now apply He|]. transitivity (rv i a * e a); [ring|]. rewrite <- Q. ring. }
  assert (Q := riv a a Ha Ha). unfold mul, mid, kron in Q. rewrite Nat.eqb_refl in Q. apply (F1_neq_0 K). rewrite <- Q.
  apply nsum_0'. intros l Hl. rewrite W by exact Hl. ring.
Qed.

Definition corr (c : nat -> K) : fmat := mul m rv (mul m (mdiag c) ri).
Lemma corr_mul c d : meq m m (mul m (corr c) (corr d)) (corr (fun a => c a * d a)).
Proof.
  unfold corr. rewrite !mul_assoc. rewrite <- (mul_assoc K m m ri rv). rewrite riv. rewrite mul_id_l.
  rewrite <- (mul_assoc K m m (mdiag c)). rewrite mul_diag. reflexivity.
Qed.
Lemma corr_add c d : meq m m (madd (corr c) (corr d)) (corr (fun a => c a + d a)).
Proof.
  intros i j Hi Hj. unfold corr, madd, mul at 1 3 5. rewrite <- nsum_add. apply nsum_ext. intros l Hl. rewrite !mul_mdiag_l by exact Hl. ring.
Qed.
Lemma corr_scal a c : meq m m (mscal a (corr c)) (corr (fun b => a * c b)).
Proof.
  intros i j Hi Hj. unfold corr, mscal, mul at 1 3. rewrite <- nsum_mul_l. apply nsum_ext. intros l Hl. rewrite !mul_mdiag_l by exact Hl. ring.
Qed.
Lemma corr_ext c d : (forall a, (a < m)%nat -> c a = d a) -> meq m m (corr c) (corr d).
Proof. intros H. unfold corr. rewrite (mdiag_ext K m c d H). reflexivity. Qed.
Lemma corr_const a : meq m m (corr (fun _ => a)) (mscal a mid).
Proof.
  transitivity (mscal a (corr (fun _ => 1))); [rewrite corr_scal; apply corr_ext; intros; ring|].
  unfold corr. rewrite mdiag_one. rewrite mul_id_l. now rewrite rvi.
Qed.

(** low-rank update of the inverse *)
Lemma trunc_inv eps : (forall a, (a < m)%nat -> 1 - eps * e a <> 0) ->
  minv K n (Zeps eps) (madd Zi (mul m (mul n Zi US) (mul m (corr (fun a => eps / (1 - eps * e a))) (mul n SUH Zi)))).
Proof.
  intros Hd. apply minv_meq. set (X := corr _). unfold Zeps. rewrite mul_add_l, !mul_add_r, !mul_scal_l. rewrite zzi.
  assert (A : meq n n (mul n Z (mul m (mul n Zi US) (mul m X (mul n SUH Zi)))) (mul m US (mul m X (mul n SUH Zi)))).
  { rewrite <- (mul_assoc K m n Z (mul n Zi US)), <- (mul_assoc K n n Z Zi US). rewrite zzi. now rewrite mul_id_l. }
  rewrite A. unfold Thop.
  assert (B : meq n n (mul n (mul m US SUH) (mul m (mul n Zi US) (mul m X (mul n SUH Zi)))) (mul m US (mul m (mul m (corr e) X) (mul n SUH Zi)))).
  { rewrite mul_assoc. rewrite <- (mul_assoc K m n SUH (mul n Zi US)). rewrite HM. now rewrite <- (mul_assoc K m m _ X). }
  rewrite B. rewrite (mul_assoc K n m US SUH Zi).
  assert (X' : X = corr (fun a => eps / (1 - eps * e a))) by reflexivity.
  assert (D : meq m m X (madd (mscal eps mid) (mscal eps (mul m (corr e) X)))).
  { rewrite X'. rewrite corr_mul, corr_scal, <- corr_const, corr_add. apply corr_ext. intros a Ha. field. now apply Hd. }
  clearbody X. clear X'.
  assert (F : meq n n (mul m US (mul m X (mul n SUH Zi)))
     (madd (mscal eps (mul m US (mul n SUH Zi))) (mscal eps (mul m US (mul m (mul m (corr e) X) (mul n SUH Zi)))))).
  { rewrite D at 1. rewrite mul_add_l, mul_add_r, !mul_scal_l, !mul_scal_r. now rewrite mul_id_l. }
  rewrite F. intros i j Hi Hj. unfold madd, mscal. ring.
Qed.

(** the local Green's function and its inverse *)
Lemma trunc_ginv (h : nat -> K) : (forall a, (a < m)%nat -> h a <> 0) ->
  minv K n (madd Z (mul m US (mul m (corr (fun a => 1 / h a - 1 / e a)) SUH)))
           (madd Zi (mul m (mul n Zi US) (mul m (corr (fun a => (1 / e a * h a - 1) * (1 / e a))) (mul n SUH Zi)))).
Proof.
  intros Hh. apply minv_meq. set (Y := corr (fun a => 1 / h a - 1 / e a)). set (X := corr (fun a => (1 / e a * h a - 1) * (1 / e a))).
  rewrite mul_add_l, !mul_add_r. rewrite zzi.
  assert (A : meq n n (mul n Z (mul m (mul n Zi US) (mul m X (mul n SUH Zi)))) (mul m US (mul m X (mul n SUH Zi)))).
  { rewrite <- (mul_assoc K m n Z (mul n Zi US)), <- (mul_assoc K n n Z Zi US). rewrite zzi. now rewrite mul_id_l. }
  rewrite A. rewrite (mul_assoc K n m US), (mul_assoc K n m Y SUH Zi).
  assert (B : meq n n (mul n (mul m US (mul m Y SUH)) (mul m (mul n Zi US) (mul m X (mul n SUH Zi))))
     (mul m US (mul m (mul m Y (mul m (corr e) X)) (mul n SUH Zi)))).
  { rewrite (mul_assoc K n m US), (mul_assoc K n m Y SUH). rewrite <- (mul_assoc K m n SUH (mul n Zi US)). rewrite HM. fold (corr e).
    now rewrite <- (mul_assoc K m m (corr e)), <- (mul_assoc K m m Y). }
  rewrite B.
  assert (D : meq m m (mul m Y (mul m (corr e) X)) (mscal (- (1)) (madd X Y))).
  { unfold X, Y. rewrite !corr_mul, corr_add, corr_scal. apply corr_ext. intros a Ha. field. split; [now apply He|now apply Hh]. }
  rewrite D. rewrite mul_scal_l, mul_add_l, mul_scal_r, mul_add_r. intros i j _ _. unfold madd, mscal. ring.
Qed.
End Core.

(** ** full rank *)
Section Full.
Variable K : Fld.
Add Field BCF2 : (Fth K).
Notation meq := (@meq K). Notation fmat := (fmat K).
Variables (n : nat) (Z Zi US SUH rv ri : fmat) (e : nat -> K).
Hypothesis HZ : minv K n Z Zi.
Hypothesis HR : minv K n rv ri.
Hypothesis He : forall a, (a < n)%nat -> e a <> 0.
Hypothesis HM : meq n n (mul n SUH (mul n Zi US)) (mul n rv (mul n (mdiag e) ri)).
Variables (SI UI : fmat).
Hypothesis HS : minv K n SUH SI.
Hypothesis HU : minv K n US UI.
Notation corr := (corr K n rv ri).
Notation corr_mul := (corr_mul K n rv ri HR).
Notation corr_const := (corr_const K n rv ri HR).
Notation corr_ext := (corr_ext K n rv ri).
Notation corr_scal := (corr_scal K n rv ri).
Notation corr_add := (corr_add K n rv ri).
Notation ziz := (ziz K n Z Zi HZ).
Lemma full_N : meq n n (mul n UI (mul n Z SI)) (corr (fun a => 1 / e a)).
Proof.
  assert (A : minv K n (corr e) (mul n UI (mul n Z SI))).
  { apply minv_meq. assert (M := HM). fold (corr e) in M. rewrite <- M. rewrite !mul_assoc. rewrite <- (mul_assoc K n n US UI), (proj1 (minv_meq K n US UI) HU).
    rewrite mul_id_l. rewrite <- (mul_assoc K n n Zi Z SI). rewrite ziz. rewrite mul_id_l. exact HS. }
  assert (B : minv K n (corr e) (corr (fun a => 1 / e a))).
  { apply minv_meq. rewrite corr_mul. transitivity (corr (fun _ => 1)).
    - apply corr_ext. intros a Ha. field. now apply He.
    - rewrite corr_const. intros i j _ _. unfold mscal. ring. }
  intros i j Hi Hj. exact (minv_unique K n _ _ _ A B i j Hi Hj).
Qed.
Lemma full_inv eps : (forall a, (a < n)%nat -> 1 - eps * e a <> 0) ->
  minv K n (Zeps K n Z US SUH eps) (mul n SI (mul n (corr (fun a => e a / (1 - eps * e a))) UI)).
Proof.
  intros Hd. apply minv_meq. set (X := corr _). unfold Zeps. rewrite mul_add_l, mul_scal_l.
  assert (A : meq n n (mul n Z SI) (mul n US (corr (fun a => 1 / e a)))).
  { rewrite <- full_N. rewrite <- (mul_assoc K n n US UI). rewrite (proj1 (minv_meq K n US UI) HU). now rewrite mul_id_l. }
  rewrite <- (mul_assoc K n n Z SI). rewrite A. unfold Thop.
  rewrite (mul_assoc K n n US SUH). rewrite <- (mul_assoc K n n SUH SI). rewrite (proj1 (minv_meq K n SUH SI) HS), mul_id_l.
  rewrite (mul_assoc K n n US _ (mul n X UI)). rewrite <- !(mul_assoc K n n _ X UI).
  unfold X. rewrite corr_mul.
  assert (D : meq n n (madd (mul n US (mul n (corr (fun a => 1 / e a * (e a / (1 - eps * e a)))) UI)) (mscal (- eps) (mul n US (mul n X UI))))
     (mul n US (mul n (corr (fun _ => 1)) UI))).
  { transitivity (mul n US (mul n (madd (corr (fun a => 1 / e a * (e a / (1 - eps * e a)))) (mscal (- eps) X)) UI)).
    - now rewrite mul_add_l, mul_add_r, !mul_scal_l, !mul_scal_r.
    - unfold X. rewrite corr_scal, corr_add. rewrite (corr_ext _ (fun _ => 1)); [reflexivity|]. intros a Ha. field. split; [now apply Hd|now apply He]. }
  fold X. rewrite (mul_assoc K n n US X UI). rewrite D. rewrite corr_const. rewrite mul_scal_l, mul_scal_r. rewrite mul_id_l. rewrite (proj1 (minv_meq K n US UI) HU).
  intros i j _ _. unfold mscal. ring.
Qed.
Lemma full_ginv (h : nat -> K) : (forall a, (a < n)%nat -> h a <> 0) ->
  minv K n (mul n US (mul n (corr (fun a => 1 / h a)) SUH)) (mul n SI (mul n (corr h) UI)).
Proof.
  intros Hh. apply minv_meq. rewrite (mul_assoc K n n US), (mul_assoc K n n _ SUH). rewrite <- (mul_assoc K n n SUH SI).
  rewrite (proj1 (minv_meq K n SUH SI) HS). rewrite mul_id_l. rewrite <- (mul_assoc K n n _ (corr h)). rewrite corr_mul.
  rewrite (corr_ext _ (fun _ => 1)) by (intros a Ha; field; now apply Hh). rewrite corr_const, mul_scal_l, mul_scal_r. rewrite mul_id_l.
  rewrite (proj1 (minv_meq K n US UI) HU). intros i j _ _. unfold mscal. ring.
Qed.
End Full.
