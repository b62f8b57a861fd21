(** * The imaginary part of the inverse local Green's function of gftool/beb.py *)
From Coq Require Import List Arith Lia Bool Reals Lra.
From Coquelicot Require Import Coquelicot.
From Verif Require Import Base FSum CBase Linalg_Proofs Mat Matrix_Model Matrix_Proofs MatAlg BebCausal_Proofs.
Import ListNotations.
Local Open Scope R_scope.

Definition mv (n : nat) (A : nat -> nat -> C) (v : nat -> C) (i : nat) : C := csum n (fun j => (A i j * v j)%C).
Lemma mv_inv n A R v i : minv CF n A R -> (i < n)%nat -> mv n A (mv n R v) i = v i.
Proof.
  intros MR Hi. unfold mv. rewrite (nsum_ext CF n _ (fun l => csum n (fun j => (A i l * R l j * v j)%C))).
  2:{ intros l Hl. change Cmult with (Fmul (f := CF)). rewrite <- (nsum_mul_l CF n). apply (nsum_ext CF n). intros j Hj. change (Fmul (f := CF)) with Cmult. ringC. }
  rewrite (nsum_swap CF n n (fun l j => (A i l * R l j * v j)%C : CF)). rewrite (nsum_ext CF n _ (fun j => Fmul (f := CF) (kron i j) (v j))).
  - exact (kron_sum CF n i v Hi).
  - intros j Hj. rewrite <- (MR i j Hi Hj). exact (nsum_mul_r CF n (v j) (fun l => Fmul (f := CF) (A i l) (R l j))).
Qed.
Lemma qform_mv n A R v : minv CF n A R -> Cconj (qform n R v) = qform n A (mv n R v).
Proof.
  intros MR. unfold qform. rewrite conj_csum. apply (nsum_ext CF n). intros i Hi.
  transitivity (Cconj (mv n R v i) * v i)%C.
  - transitivity (Cconj (Cconj (v i) * mv n R v i)%C); [|apply injective_projections; cbn; ring]. f_equal. unfold mv.
    refine (eq_trans _ (nsum_mul_l CF n (Cconj (v i)) (fun j => (R i j * v j)%C))). apply (nsum_ext CF n). intros j Hj. change (Fmul (f := CF)) with Cmult. ringC.
  - rewrite <- (mv_inv n A R v i MR Hi) at 1. unfold mv at 2. refine (eq_trans (eq_sym (nsum_mul_l CF n (Cconj (mv n R v i)) (fun j => (A i j * mv n R v j)%C))) _). apply (nsum_ext CF n). intros j Hj. change (Fmul (f := CF)) with Cmult. ringC.
Qed.
Lemma qform_ext n A u v : (forall i, (i < n)%nat -> u i = v i) -> qform n A u = qform n A v.
Proof. intros H. unfold qform. apply (nsum_ext CF). intros i Hi. apply (nsum_ext CF). intros j Hj. now rewrite (H i Hi), (H j Hj). Qed.

Lemma rsum_nonneg n (y : nat -> C) : 0 <= sq n y.
Proof. unfold sq. induction n as [|n IH]; cbn [rsum]; [lra|]. nra. Qed.

(** weighted averages *)
Section Avg.
Variables (N : nat) (w : nat -> R).
Hypothesis W1 : csum N (fun k => RtoC (w k)) = RtoC 1.
Definition avg (f : nat -> C) : C := csum N (fun k => (RtoC (w k) * f k)%C).
Lemma avg_sub f g : avg (fun k => f k - g k)%C = (avg f - avg g)%C.
Proof. unfold avg. refine (eq_trans _ (nsum_sub CF N (fun k => RtoC (w k) * f k)%C (fun k => RtoC (w k) * g k)%C)). apply (nsum_ext CF). intros k _. change (Fsub (f := CF)) with Cminus. ringC. Qed.
Lemma avg_l c f : avg (fun k => c * f k)%C = (c * avg f)%C.
Proof. unfold avg. refine (eq_trans _ (nsum_mul_l CF N c (fun k => RtoC (w k) * f k)%C)). apply (nsum_ext CF). intros k _. change (Fmul (f := CF)) with Cmult. ringC. Qed.
Lemma avg_ext f g : (forall k, (k < N)%nat -> f k = g k) -> avg f = avg g.
Proof. intros H. unfold avg. apply (nsum_ext CF). intros k Hk. now rewrite (H k Hk). Qed.
Lemma avg_conj f : Cconj (avg f) = avg (fun k => Cconj (f k)).
Proof. unfold avg. rewrite conj_csum. apply (nsum_ext CF). intros k _. apply injective_projections; cbn; ring. Qed.
Lemma avg_c c : avg (fun _ => c) = c.
Proof. transitivity (avg (fun _ => c * RtoC 1)%C); [apply avg_ext; intros; ring|]. rewrite avg_l. unfold avg. rewrite (nsum_ext CF N _ (fun k => RtoC (w k) : CF)) by (intros; change (@eq C (RtoC (w i) * RtoC 1)%C (RtoC (w i))); ring). rewrite W1. ring. Qed.
Lemma avg_cov (a b : nat -> C) : avg (fun k => Cconj (a k - avg a) * (b k - avg b))%C = (avg (fun k => Cconj (a k) * b k) - Cconj (avg a) * avg b)%C.
Proof.
  transitivity (avg (fun k => (Cconj (a k) * b k - avg b * Cconj (a k)) - Cconj (avg a) * (b k - avg b))%C).
  - apply avg_ext. intros k _. set (x := avg a). set (y := avg b). apply injective_projections; cbn; ring.
  - rewrite !avg_sub, !avg_l, avg_sub, avg_c, <- avg_conj. ring.
Qed.
Lemma avg_csum n (f : nat -> nat -> C) : avg (fun k => csum n (f k)) = csum n (fun i => avg (fun k => f k i)).
Proof.
  unfold avg. transitivity (csum N (fun k => csum n (fun i => (RtoC (w k) * f k i)%C))); [|exact (nsum_swap CF N n (fun k i => (RtoC (w k) * f k i)%C : CF))].
  apply (nsum_ext CF). intros k _. symmetry. exact (nsum_mul_l CF n (RtoC (w k)) (f k)).
Qed.
Lemma avg_qform n B (y : nat -> nat -> C) : avg (fun k => qform n B (y k)) = csum n (fun i => csum n (fun j => (B i j * avg (fun k => Cconj (y k i) * y k j))%C)).
Proof.
  unfold qform. rewrite (avg_csum n (fun k i => csum n (fun j => (Cconj (y k i) * B i j * y k j)%C))). apply (nsum_ext CF). intros i _.
  rewrite (avg_csum n (fun k j => (Cconj (y k i) * B i j * y k j)%C)). apply (nsum_ext CF). intros j _. rewrite <- avg_l. apply avg_ext. intros k _. ring.
Qed.
Lemma avg_mat n (R : nat -> nat -> nat -> C) v : avg (fun k => qform n (R k) v) = qform n (fun i j => csum N (fun l => (RtoC (w l) * R l i j)%C)) v.
Proof.
  unfold qform. rewrite (avg_csum n (fun k i => csum n (fun j => (Cconj (v i) * R k i j * v j)%C))). apply (nsum_ext CF). intros i _.
  rewrite (avg_csum n (fun k j => (Cconj (v i) * R k i j * v j)%C)). apply (nsum_ext CF). intros j _.
  change (avg (fun k => Cconj (v i) * R k i j * v j)%C = (Cconj (v i) * avg (fun k => R k i j) * v j)%C).
  transitivity ((Cconj (v i) * v j) * avg (fun k => R k i j))%C; [|ring]. rewrite <- avg_l. apply avg_ext. intros k _. ring.
Qed.
Lemma avg_mv n (R : nat -> nat -> nat -> C) v i : avg (fun k => mv n (R k) v i) = mv n (fun i j => csum N (fun l => (RtoC (w l) * R l i j)%C)) v i.
Proof.
  unfold mv. rewrite (avg_csum n (fun k j => (R k i j * v j)%C)). apply (nsum_ext CF). intros j _. change (avg (fun k => R k i j * v j)%C = (avg (fun k => R k i j) * v j)%C).
  rewrite Cmult_comm, <- avg_l. apply avg_ext. intros k _. ring.
Qed.
Lemma snd_avg f : snd (avg f) = rsum N (fun k => w k * snd (f k)).
Proof. unfold avg. rewrite snd_csum. clear. induction N as [|m IH]; [reflexivity|]. cbn [rsum]. rewrite IH. f_equal. cbn. ring. Qed.

(** the variance of a quadratic form *)
Lemma qform_variance n B (y : nat -> nat -> C) : avg (fun k => qform n B (fun i => y k i - avg (fun l => y l i))%C) = (avg (fun k => qform n B (y k)) - qform n B (fun i => avg (fun l => y l i)))%C.
Proof.
  rewrite !avg_qform. unfold qform. refine (eq_trans _ (nsum_sub CF n _ _)). apply (nsum_ext CF). intros i _. refine (eq_trans _ (nsum_sub CF n _ _)). apply (nsum_ext CF). intros j _.
  change (Fsub (f := CF)) with Cminus. rewrite (avg_cov (fun k => y k i) (fun k => y k j)). ringC.
Qed.
Hypothesis W0 : forall k, (k < N)%nat -> 0 <= w k.
Lemma jensen n B (y : nat -> nat -> C) : (forall v, 0 <= snd (qform n B v)) -> snd (qform n B (fun i => avg (fun l => y l i))) <= rsum N (fun k => w k * snd (qform n B (y k))).
Proof.
  intros H. assert (V := f_equal snd (qform_variance n B y)). rewrite snd_avg in V.
  assert (P : 0 <= rsum N (fun k => w k * snd (qform n B (fun i => y k i - avg (fun l => y l i))%C))).
  { clear V. assert (Z : rsum N (fun _ => 0) = 0) by (clear; induction N as [|m IH]; cbn; [reflexivity|rewrite IH; ring]). rewrite <- Z. apply rsum_le. intros k Hk. apply Rmult_le_pos; [now apply W0|apply H]. }
  rewrite V in P. change (0 <= snd (avg (fun k => qform n B (y k))) - snd (qform n B (fun i => avg (fun l => y l i)))) in P. rewrite snd_avg in P. lra.
Qed.
End Avg.

(** Im (G^-1 + Sigma) >= Im z for the average G of the resolvents *)
Lemma medium n (z : C) (Sg T : nat -> nat -> C) : 0 < snd z -> (forall v, snd (qform n Sg v) <= 0) -> (forall i j, (i < n)%nat -> (j < n)%nat -> T j i = Cconj (T i j)) ->
  forall N (w eps : nat -> R) (R : nat -> nat -> nat -> C), (forall k, (k < N)%nat -> 0 <= w k) -> csum N (fun k => RtoC (w k)) = RtoC 1 ->
  (forall k, (k < N)%nat -> minv CF n (Mk z Sg T (eps k)) (R k)) ->
  forall Gi, minv CF n (fun i j => csum N (fun l => (RtoC (w l) * R l i j)%C)) Gi ->
  forall u, snd z * sq n u <= snd (qform n Gi u) + snd (qform n Sg u).
Proof.
  intros Hz HS HT N w eps R P1 P2 MR Gi MG u.
  set (G := fun i j => csum N (fun l => (RtoC (w l) * R l i j)%C)) in *. set (v := mv n Gi u). set (B := Mk z Sg T 0).
  assert (FB : forall e y, snd (qform n (Mk z Sg T e) y) = snd z * sq n y - snd (qform n Sg y)).
  { intros e y. rewrite qform_lin. assert (H2 := herm_real n T HT y). set (a := qform n Sg y) in *. set (b := qform n T y) in *. cbn. rewrite H2. ring. }
  assert (GU : forall i, (i < n)%nat -> avg N w (fun k => mv n (R k) v i) = u i).
  { intros i Hi. rewrite avg_mv. exact (mv_inv n G Gi u i MG Hi). }
  assert (J := jensen N w P2 P1 n B (fun k => mv n (R k) v) (fun y => Rle_trans 0 _ _ (Rmult_le_pos _ _ (Rlt_le _ _ Hz) (rsum_nonneg n y)) (q_res n z Sg T 0 HS HT y))).
  cbv beta in J. rewrite (qform_ext n B _ u GU) in J. unfold B in J at 1. rewrite FB in J.
  assert (E : rsum N (fun k => w k * snd (qform n B (mv n (R k) v))) = snd (qform n Gi u)).
  { transitivity (- snd (qform n G v)).
    - unfold G. rewrite <- avg_mat, snd_avg. clear -MR FB. revert MR. induction N as [|m IH]; intros MR; [cbn; ring|]. cbn [rsum]. rewrite IH by (intros k Hk; apply MR; lia).
      assert (Q := f_equal snd (qform_mv n _ _ v (MR m ltac:(lia)))). unfold B. rewrite FB. rewrite FB in Q. rewrite <- Q. unfold Cconj. cbn [snd]. ring.
    - assert (Q := f_equal snd (qform_mv n Gi G v (minv_comm CF n _ _ MG))). rewrite (qform_ext n Gi _ u) in Q by (intros i Hi; exact (mv_inv n G Gi u i MG Hi)). rewrite <- Q. reflexivity. }
  rewrite E in J. lra.
Qed.
