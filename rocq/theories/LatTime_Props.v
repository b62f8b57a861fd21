(** * C52: retarded-time Green's functions of the box and the Bethe lattice *)
From Coq Require Import Reals List ZArith Bool Lia Lra.
From Coquelicot Require Import Coquelicot.
From Verif Require Import Base CBase CExp Lattice_Model Fourier_Filon LatTime_Proofs.
Local Open Scope R_scope.

Lemma ret_err (x y : R) e : Rabs (y - x) <= e -> Cmod (Cminus (Cmult (Copp Ci) (RtoC x)) (Cmult (Copp Ci) (RtoC y))) <= e.
Proof.
  intros H. replace (Cminus (Cmult (Copp Ci) (RtoC x)) (Cmult (Copp Ci) (RtoC y))) with (Cmult Ci (RtoC (y - x))) by (rewrite RtoC_minus; ring).
  rewrite Cmod_mult, Cmod_R. replace (Cmod Ci) with 1; [lra|]. unfold Cmod, Ci; cbn. replace (0 * (0 * 1) + 1 * (1 * 1)) with 1 by ring. symmetry. apply sqrt_1.
Qed.
(** the unshifted functions are the one-sided Fourier integrals of the density of states: exactly for |D t| >= small, up
    to the order neglected by the Taylor expansion below *)
Theorem C52_box_transform : forall (small t D : R) (d : R -> R), 0 < small <= 1 -> 0 < D -> 0 <= t -> (forall e, box_dos e D = Ok (d e)) ->
  exists I, is_CInt (fun e => Cmult (RtoC (d e)) (cexp (Cmult (Copp Ci) (RtoC (e * t))))) (- D) D I /\
    Cmod (Cminus (box_gf_ret_t small t D 0) (Cmult (Copp Ci) I)) <= (if Rlt_dec (D * t) small then (D * t) ^ 6 / 5040 else 0).
Proof.
  intros small t D d Hs HD Ht Hd. exists (RtoC (sinc (D * t))). split; [exact (box_int D d t HD Hd)|].
  assert (Hx : 0 <= D * t) by (apply Rmult_le_pos; lra). set (x := D * t) in *.
  unfold box_gf_ret_t. fold x. destruct (Req_EM_T 0 0) as [_|]; [|lra]. destruct (Rle_dec 0 x) as [_|]; [|lra].
  rewrite (Rabs_pos_eq x Hx). destruct (Rlt_dec x small) as [Hl|Hl].
  - cbv zeta. apply ret_err. apply sinc_taylor. lra.
  - apply ret_err. unfold sinc. destruct (Req_EM_T x 0) as [->|_]; [lra|]. rewrite Rminus_eq_0, Rabs_R0. lra.
Qed.
Print Assumptions C52_box_transform.
(** jv(1, .) is an oracle: Bessel's integral *)
Theorem C52_bethe_transform : forall (jv1 : R -> R) (small t D : R) (d : R -> R),
  (forall x, jv1 x = RInt (fun th => cos (th - x * sin th)) 0 PI / PI) ->
  0 < small <= 1 -> 0 < D -> 0 <= t -> (forall e, bethe_dos e D = Ok (d e)) ->
  exists I, is_CInt (fun e => Cmult (RtoC (d e)) (cexp (Cmult (Copp Ci) (RtoC (e * t))))) (- D) D I /\
    Cmod (Cminus (bethe_gf_ret_t jv1 small t D 0) (Cmult (Copp Ci) I)) <= (if Rlt_dec (D * t) small then (D * t) ^ 6 / 9216 else 0).
Proof.
  intros jv1 small t D d Hj Hs HD Ht Hd. exists (RtoC (2 / PI * B (D * t))). split; [exact (bethe_int D d t HD Hd)|].
  assert (Hx : 0 <= D * t) by (apply Rmult_le_pos; lra). set (x := D * t) in *.
  unfold bethe_gf_ret_t. fold x. destruct (Req_EM_T 0 0) as [_|]; [|lra]. destruct (Rle_dec 0 x) as [_|]; [|lra].
  rewrite (Rabs_pos_eq x Hx). destruct (Rlt_dec x small) as [Hl|Hl].
  - cbv zeta. apply ret_err. apply B_taylor. lra.
  - apply ret_err. rewrite <- bessel_B by lra. rewrite Hj. unfold bessel_J1. rewrite Rminus_eq_0, Rabs_R0. lra.
Qed.
Print Assumptions C52_bethe_transform.
(** zero for negative times, whatever the center *)
Theorem C52_retarded : forall (jv1 : R -> R) (small t D center : R), 0 < D -> t < 0 ->
  box_gf_ret_t small t D center = RtoC 0 /\ bethe_gf_ret_t jv1 small t D center = RtoC 0.
Proof.
  intros jv1 small t D c HD Ht. unfold box_gf_ret_t, bethe_gf_ret_t. assert (D * t < 0) by (assert (0 < D * - t) by (apply Rmult_lt_0_compat; lra); lra).
  destruct (Rle_dec 0 (D * t)); [lra|]. cbv zeta. destruct (Req_EM_T c 0); split; try reflexivity; apply Cmult_0_l.
Qed.
Print Assumptions C52_retarded.

(** the center only rotates the phase; the rotation frequency is center * half_bandwidth *)
Theorem C52_center_partial : forall (jv1 : R -> R) (small t D center : R),
  box_gf_ret_t small t D center = Cmult (cexp (Cmult (Copp Ci) (RtoC (center * D * t)))) (box_gf_ret_t small t D 0) /\
  bethe_gf_ret_t jv1 small t D center = Cmult (cexp (Cmult (Copp Ci) (RtoC (center * D * t)))) (bethe_gf_ret_t jv1 small t D 0).
Proof.
  intros jv1 small t D c. unfold box_gf_ret_t, bethe_gf_ret_t. destruct (Req_EM_T 0 0) as [_|]; [|congruence].
  destruct (Req_EM_T c 0) as [->|Hc].
  - replace (0 * D * t) with 0 by ring. rewrite Cmult_0_r, cexp_0, !Cmult_1_l. split; reflexivity.
  - replace (Cmult (Cmult (Copp Ci) (RtoC c)) (RtoC (D * t))) with (Cmult (Copp Ci) (RtoC (c * D * t))) by (rewrite !RtoC_mult; ring).
    split; apply Cmult_comm.
Qed.
Print Assumptions C52_center_partial.
(** so the documented rotation exp(-i center t) holds for half-bandwidth one *)
Theorem C52_center_unit_partial : forall (jv1 : R -> R) (small t center : R),
  box_gf_ret_t small t 1 center = Cmult (cexp (Cmult (Copp Ci) (RtoC (center * t)))) (box_gf_ret_t small t 1 0) /\
  bethe_gf_ret_t jv1 small t 1 center = Cmult (cexp (Cmult (Copp Ci) (RtoC (center * t)))) (bethe_gf_ret_t jv1 small t 1 0).
Proof.
  intros jv1 small t c. destruct (C52_center_partial jv1 small t 1 c) as [A B']. rewrite Rmult_1_r in A, B'. split; assumption.
Qed.
Print Assumptions C52_center_unit_partial.
(** and fails for every other half-bandwidth and every center, although the documentation says that center is not in units
    of the half-bandwidth *)
Theorem C52_center_refuted : forall (jv1 : R -> R) (small D center : R), 0 < small -> 0 < D -> D <> 1 -> center <> 0 -> exists t, 0 < t /\
  box_gf_ret_t small t D center <> Cmult (cexp (Cmult (Copp Ci) (RtoC (center * t)))) (box_gf_ret_t small t D 0) /\
  bethe_gf_ret_t jv1 small t D center <> Cmult (cexp (Cmult (Copp Ci) (RtoC (center * t)))) (bethe_gf_ret_t jv1 small t D 0).
Proof.
  intros jv1 small D c Hs HD H1 Hc. set (w := Rabs (c * (D - 1))).
  assert (Hw : 0 < w) by (apply Rabs_pos_lt; apply Rmult_integral_contrapositive; split; lra).
  set (t := Rmin (Rmin (small / (2 * D)) (1 / (2 * D))) (1 / w)).
  assert (Hsd : 0 < small / (2 * D)) by (apply Rdiv_lt_0_compat; lra). assert (Hd1 : 0 < 1 / (2 * D)) by (apply Rdiv_lt_0_compat; lra). assert (Hw1 : 0 < 1 / w) by (apply Rdiv_lt_0_compat; lra).
  assert (Ht : 0 < t) by (unfold t; repeat apply Rmin_glb_lt; assumption).
  assert (T1 : t <= small / (2 * D)) by (unfold t; eapply Rle_trans; [apply Rmin_l|apply Rmin_l]).
  assert (T2 : t <= 1 / (2 * D)) by (unfold t; eapply Rle_trans; [apply Rmin_l|apply Rmin_r]).
  assert (T3 : t <= 1 / w) by (unfold t; apply Rmin_r).
  assert (X1 : D * t <= small / 2). { replace (small / 2) with (D * (small / (2 * D))) by (field; lra). apply Rmult_le_compat_l; lra. }
  assert (X2 : D * t <= 1 / 2). { replace (1 / 2) with (D * (1 / (2 * D))) by (field; lra). apply Rmult_le_compat_l; lra. }
  assert (X0 : 0 < D * t) by (apply Rmult_lt_0_compat; assumption).
  assert (W : 0 < w * t <= 1). { split; [apply Rmult_lt_0_compat; assumption|]. replace 1 with (w * (1 / w)) by (field; lra). apply Rmult_le_compat_l; lra. }
  assert (P : cexp (Cmult (Copp Ci) (RtoC (c * D * t))) <> cexp (Cmult (Copp Ci) (RtoC (c * t)))).
  { intros E. assert (E2 : cexp (Cmult (Copp Ci) (RtoC (c * (D - 1) * t))) = RtoC 1).
    { replace (Cmult (Copp Ci) (RtoC (c * (D - 1) * t))) with (Cplus (Cmult (Copp Ci) (RtoC (c * D * t))) (Copp (Cmult (Copp Ci) (RtoC (c * t)))))
        by (replace (c * (D - 1) * t) with (c * D * t - c * t) by ring; rewrite RtoC_minus; ring).
      rewrite cexp_add, E, cexp_opp. apply Cinv_r, cexp_neq_0. }
    apply (f_equal snd) in E2. cbn in E2. replace (- (0) * (c * (D - 1) * t) - - (1) * 0) with 0 in E2 by ring.
    replace (- (0) * 0 + - (1) * (c * (D - 1) * t)) with (- (c * (D - 1) * t)) in E2 by ring. rewrite exp_0, sin_neg in E2.
    assert (S : 0 < sin (w * t)) by (apply sin_gt_0; [lra|assert (HP := PI2_1); lra]).
    assert (S2 : sin (w * t) = sin (c * (D - 1) * t) \/ sin (w * t) = - sin (c * (D - 1) * t)).
    { unfold w, Rabs. destruct (Rcase_abs (c * (D - 1))); [right; rewrite <- sin_neg; f_equal; ring|left; reflexivity]. }
    destruct S2 as [S2|S2]; lra. }
  assert (Q : 0 < (D * t) * (D * t) <= 1 / 4). { split; [apply Rmult_lt_0_compat; assumption|]. replace (1 / 4) with (1 / 2 * (1 / 2)) by field. apply Rmult_le_compat; lra. }
  exists t. split; [exact Ht|].
  destruct (C52_center_partial jv1 small t D c) as [EA EB]. rewrite EA, EB.
  assert (G1 : box_gf_ret_t small t D 0 <> RtoC 0).
  { unfold box_gf_ret_t. destruct (Req_EM_T 0 0); [|congruence]. destruct (Rle_dec 0 (D * t)); [|lra]. rewrite Rabs_pos_eq by lra. destruct (Rlt_dec (D * t) small); [|lra].
    cbv zeta. intros E. apply (f_equal snd) in E. cbn in E. assert (0 <= D * t * (D * t) * (D * t * (D * t))) by (apply Rle_0_sqr). lra. }
  assert (G2 : bethe_gf_ret_t jv1 small t D 0 <> RtoC 0).
  { unfold bethe_gf_ret_t. destruct (Req_EM_T 0 0); [|congruence]. destruct (Rle_dec 0 (D * t)); [|lra]. rewrite Rabs_pos_eq by lra. destruct (Rlt_dec (D * t) small); [|lra].
    cbv zeta. intros E. apply (f_equal snd) in E. cbn in E. assert (0 <= D * t * (D * t) * (D * t * (D * t))) by (apply Rle_0_sqr). lra. }
  assert (K : forall a b g : C, g <> RtoC 0 -> a <> b -> Cmult a g <> Cmult b g).
  { intros a b g Hg Hab E. apply Hab. replace a with (Cmult (Cmult a g) (Cinv g)) by (field; exact Hg). rewrite E. field. exact Hg. }
  split; apply K; assumption.
Qed.
Print Assumptions C52_center_refuted.
Example C52_example : box_gf_ret_t (1 / 2) (PI / 4) 2 0 = Cmult (Copp Ci) (RtoC (2 / PI)) /\
  box_gf_ret_t (1 / 2) (PI / 4) 2 1 = Cmult (Copp Ci) (Cmult (RtoC (2 / PI)) (Copp Ci)).
Proof.
  assert (HP := PI2_1). assert (E : box_gf_ret_t (1 / 2) (PI / 4) 2 0 = Cmult (Copp Ci) (RtoC (2 / PI))).
  { unfold box_gf_ret_t. replace (2 * (PI / 4)) with (PI / 2) by field. destruct (Req_EM_T 0 0); [|congruence]. destruct (Rle_dec 0 (PI / 2)); [|lra].
    rewrite Rabs_pos_eq by lra. destruct (Rlt_dec (PI / 2) (1 / 2)); [lra|]. rewrite sin_PI2. do 2 f_equal. field. lra. }
  split; [exact E|]. destruct (C52_center_partial (fun _ => 0) (1 / 2) (PI / 4) 2 1) as [A _]. rewrite A, E.
  replace (1 * 2 * (PI / 4)) with (PI / 2) by field. 
  replace (cexp (Cmult (Copp Ci) (RtoC (PI / 2)))) with (Copp Ci); [ring|].
  unfold cexp. cbn. replace (- (0) * (PI / 2) - - (1) * 0) with 0 by ring. replace (- (0) * 0 + - (1) * (PI / 2)) with (- (PI / 2)) by ring.
  rewrite exp_0, cos_neg, sin_neg, cos_PI2, sin_PI2. unfold Copp, Ci. cbn. f_equal; ring.
Qed.
