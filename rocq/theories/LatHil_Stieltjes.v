(** * The Poisson kernel and integrals over punctured bands *)
From Coq Require Import Reals Lra Lia List.
From Coquelicot Require Import Coquelicot.
From Verif Require Import LatHil_Poisson.
Local Open Scope R_scope.

Definition pk (n u : R) : R := n / (u * u + n * n) / PI.
Lemma atan_le x y : x <= y -> atan x <= atan y.
Proof. intros [H| ->]; [left; apply atan_increasing, H|right; reflexivity]. Qed.
Section Kernel.
Variable n : R.
Hypothesis Hn : 0 < n.
Lemma pk_den u : 0 < u * u + n * n.
Proof. nra. Qed.
Lemma pk_pos u : 0 <= pk n u.
Proof. unfold pk. assert (A := pk_den u). assert (P := PI_RGT_0). apply Rdiv_le_0_compat; [|exact P]. apply Rdiv_le_0_compat; lra. Qed.
Lemma pk_le u : pk n u <= / n.
Proof.
  unfold pk. assert (A := pk_den u). assert (P := PI2_3_2). assert (P1 : 1 < PI) by lra. apply Rle_trans with (n / (u * u + n * n)).
  - apply Rmult_le_reg_r with PI; [lra|]. unfold Rdiv at 1. rewrite Rmult_assoc, Rinv_l, Rmult_1_r by lra. assert (Q : 0 <= n / (u * u + n * n)) by (apply Rdiv_le_0_compat; lra). nra.
  - apply Rmult_le_reg_r with (n * (u * u + n * n)); [apply Rmult_lt_0_compat; lra|]. replace (n / (u * u + n * n) * (n * (u * u + n * n))) with (n * n) by (field; lra). replace (/ n * (n * (u * u + n * n))) with (u * u + n * n) by (field; lra). nra.
Qed.
Lemma pk_sq u : u * u * pk n u <= n.
Proof.
  unfold pk. assert (A := pk_den u). assert (P := PI2_3_2). assert (P1 : 1 < PI) by lra. apply Rmult_le_reg_r with (PI * (u * u + n * n)); [apply Rmult_lt_0_compat; lra|].
  replace (u * u * (n / (u * u + n * n) / PI) * (PI * (u * u + n * n))) with (n * (u * u)) by (field; lra).
  assert (Q : u * u + n * n <= PI * (u * u + n * n)) by nra. apply Rle_trans with (n * (u * u + n * n)); [nra|]. apply Rmult_le_compat_l; lra.
Qed.
Lemma pk_lip u v : Rabs (pk n u - pk n v) <= / (n * n) * Rabs (u - v).
Proof.
  unfold pk. assert (A := pk_den u). assert (B := pk_den v). assert (P := PI2_3_2). assert (P1 : 1 < PI) by lra.
  replace (n / (u * u + n * n) / PI - n / (v * v + n * n) / PI) with ((v - u) * (n * (u + v) / ((u * u + n * n) * (v * v + n * n)) / PI)) by (field; lra).
  rewrite Rabs_mult, Rmult_comm, (Rabs_minus_sym v u). apply Rmult_le_compat_r; [apply Rabs_pos|].
  assert (AB : 0 < (u * u + n * n) * (v * v + n * n)) by (apply Rmult_lt_0_compat; assumption).
  assert (K : Rabs (n * (u + v)) * (n * n) <= (u * u + n * n) * (v * v + n * n)).
  { rewrite Rabs_mult, (Rabs_pos_eq n) by lra. assert (T : n * Rabs (u + v) <= (u * u + n * n) / 2 + (v * v + n * n) / 2).
    { assert (T := Rabs_triang u v). assert (U : n * Rabs u <= (u * u + n * n) / 2) by (assert (X1 := Rle_0_sqr (u - n)); assert (X2 := Rle_0_sqr (u + n)); unfold Rsqr in *; unfold Rabs; destruct (Rcase_abs u); lra). assert (V : n * Rabs v <= (v * v + n * n) / 2) by (assert (X1 := Rle_0_sqr (v - n)); assert (X2 := Rle_0_sqr (v + n)); unfold Rsqr in *; unfold Rabs; destruct (Rcase_abs v); lra). assert (Z : n * Rabs (u + v) <= n * (Rabs u + Rabs v)) by (apply Rmult_le_compat_l; lra). lra. }
    assert (N2 : 0 < n * n) by nra. set (X := u * u + n * n) in *. set (Y := v * v + n * n) in *. assert (X1 : n * n <= X) by (unfold X; nra). assert (Y1 : n * n <= Y) by (unfold Y; nra).
    apply Rle_trans with ((X / 2 + Y / 2) * (n * n)); [apply Rmult_le_compat_r; [lra|exact T]|]. assert (Q1 : X * (n * n) <= X * Y) by (apply Rmult_le_compat_l; lra). assert (Q2 : Y * (n * n) <= Y * X) by (apply Rmult_le_compat_l; lra). lra. }
  unfold Rdiv at 1. rewrite Rabs_mult. unfold Rdiv. rewrite Rabs_mult, (Rabs_pos_eq (/ ((u * u + n * n) * (v * v + n * n)))) by (left; apply Rinv_0_lt_compat; lra). rewrite (Rabs_pos_eq (/ PI)) by (left; apply Rinv_0_lt_compat; lra).
  apply Rmult_le_reg_r with ((n * n) * ((u * u + n * n) * (v * v + n * n)) * PI); [apply Rmult_lt_0_compat; [apply Rmult_lt_0_compat; [nra|lra]|lra]|].
  replace (Rabs (n * (u + v)) * / ((u * u + n * n) * (v * v + n * n)) * / PI * (n * n * ((u * u + n * n) * (v * v + n * n)) * PI)) with (Rabs (n * (u + v)) * (n * n)) by (field; lra).
  replace (/ (n * n) * (n * n * ((u * u + n * n) * (v * v + n * n)) * PI)) with ((u * u + n * n) * (v * v + n * n) * PI) by (field; lra). nra.
Qed.
Lemma pk_cont : cont (pk n).
Proof.
  intros x. apply cont_eps. intros t Ht. assert (N2 : 0 < n * n) by nra. exists (t * (n * n)). split; [apply Rmult_lt_0_compat; lra|]. intros y Hy. eapply Rle_trans; [apply pk_lip|].
  apply Rmult_le_reg_l with (n * n); [lra|]. rewrite <- Rmult_assoc, Rinv_r, Rmult_1_l by lra. lra.
Qed.
Lemma pk_contx e : cont (fun x => pk n (e - x)).
Proof. intros x. apply (continuous_comp (fun x => e - x) (pk n)); [|apply pk_cont]. apply (continuous_minus (V := R_NormedModule) (fun _ => e) (fun x => x)); [apply continuous_const|apply continuous_id]. Qed.
Lemma pk_conte x : cont (fun e => pk n (e - x)).
Proof. intros e. apply (continuous_comp (fun e => e - x) (pk n)); [|apply pk_cont]. apply (continuous_minus (V := R_NormedModule) (fun e => e) (fun _ => x)); [apply continuous_id|apply continuous_const]. Qed.
Lemma pk_int x a b : is_RInt (fun e => pk n (e - x)) a b ((atan ((b - x) / n) - atan ((a - x) / n)) / PI).
Proof.
  assert (P := PI_RGT_0). assert (H : is_RInt (fun e => pk n (e - x)) a b (minus (atan ((b - x) / n) / PI) (atan ((a - x) / n) / PI))).
  { apply (is_RInt_derive (V := R_CompleteNormedModule) (fun e => atan ((e - x) / n) / PI)); intros e _; [|apply pk_conte].
    unfold pk. assert (A := pk_den (e - x)). auto_derive; [lra|]. unfold Rsqr, Rdiv. field. repeat split; try lra; nra. }
  replace ((atan ((b - x) / n) - atan ((a - x) / n)) / PI) with (minus (atan ((b - x) / n) / PI) (atan ((a - x) / n) / PI)); [exact H|]. change (atan ((b - x) / n) / PI - atan ((a - x) / n) / PI = (atan ((b - x) / n) - atan ((a - x) / n)) / PI). field. lra.
Qed.
Lemma pk_int_le1 x a b : RInt (fun e => pk n (e - x)) a b <= 1.
Proof.
  assert (P := PI_RGT_0). rewrite (is_RInt_unique _ _ _ _ (pk_int x a b)). assert (A := atan_bound ((b - x) / n)). assert (B := atan_bound ((a - x) / n)).
  apply Rmult_le_reg_r with PI; [lra|]. unfold Rdiv at 1. rewrite Rmult_assoc, Rinv_l, Rmult_1_r by lra. lra.
Qed.
Lemma atan_le_id m : 0 < m -> atan m <= m.
Proof.
  intros Hm. destruct (MVT_cor2 atan (fun x => / (1 + x * x)) 0 m Hm) as (c & E & Hc).
  - intros c Hc. replace (/ (1 + c * c)) with (/ (1 + c ^ 2)) by (f_equal; ring). apply derivable_pt_lim_atan.
  - rewrite atan_0, !Rminus_0_r in E. rewrite E. assert (G : / (1 + c * c) <= 1) by (rewrite <- Rinv_1; apply Rinv_le_contravar; nra). nra.
Qed.
Lemma pk_int_ge x a b : a + 1 <= x <= b - 1 -> 1 - n <= RInt (fun e => pk n (e - x)) a b.
Proof.
  intros Hx. assert (P := PI2_3_2). assert (P1 : 2 < PI) by lra. rewrite (is_RInt_unique _ _ _ _ (pk_int x a b)).
  assert (N1 : 0 < / n) by (apply Rinv_0_lt_compat; exact Hn). assert (E := atan_inv n Hn). assert (I := atan_le_id n Hn).
  assert (B1 : atan (/ n) <= atan ((b - x) / n)). { apply (atan_le (/ n) ((b - x) / n)). unfold Rdiv. nra. }
  assert (A1 : atan ((a - x) / n) <= - atan (/ n)). { rewrite <- atan_opp. apply (atan_le ((a - x) / n) (- / n)). unfold Rdiv. nra. }
  apply Rmult_le_reg_r with PI; [lra|]. unfold Rdiv at 1. rewrite Rmult_assoc, Rinv_l, Rmult_1_r by lra. nra.
Qed.
(** weight of an interval of half width d >= n *)
Lemma pk_bad d p x : n <= d -> RInt (fun e => pk n (e - x)) (p - d) (p + d) <= 5 * (d * d / ((x - p) * (x - p) + d * d)).
Proof.
  intros Hd. assert (P := PI2_3_2). assert (P1 : 2 < PI) by lra. assert (dd : 0 < d * d) by (apply Rmult_lt_0_compat; lra). assert (D0 : 0 < (x - p) * (x - p) + d * d) by (assert (X1 := Rle_0_sqr (x - p)); unfold Rsqr in X1; lra). destruct (Rle_dec ((x - p) * (x - p)) (4 * (d * d))) as [Q|Q].
  - eapply Rle_trans; [apply pk_int_le1|]. apply Rmult_le_reg_r with ((x - p) * (x - p) + d * d); [exact D0|]. replace (5 * (d * d / ((x - p) * (x - p) + d * d)) * ((x - p) * (x - p) + d * d)) with (5 * (d * d)) by (field; lra). lra.
  - apply Rnot_le_lt in Q. set (s := x - p) in *. assert (S2 : 0 < s * s) by nra. assert (S0 : s <> 0) by (intros Z; rewrite Z in S2; lra).
    apply Rle_trans with ((p + d - (p - d)) * (2 * (d / (s * s)))).
    + eapply Rle_trans; [apply Rle_abs|]. apply (norm_RInt_le_const (V := R_NormedModule) (fun e => pk n (e - x)) (p - d) (p + d)).
      * lra.
      * intros e He. change (norm (pk n (e - x))) with (Rabs (pk n (e - x))). rewrite Rabs_pos_eq by apply pk_pos. unfold pk.
        assert (U : s * s <= 4 * ((e - x) * (e - x))). { replace (e - x) with ((e - p) - s) by (unfold s; ring). set (y := e - p). assert (Y : - d <= y <= d) by (unfold y; lra). destruct (Rle_dec 0 s); [assert (2 * d < s) by nra; nra|assert (s < - (2 * d)) by nra; nra]. }
        assert (A := pk_den (e - x)). set (w := (e - x) * (e - x)) in *. apply Rmult_le_reg_r with ((w + n * n) * PI * (s * s)); [apply Rmult_lt_0_compat; [apply Rmult_lt_0_compat; lra|exact S2]|].
        replace (n / (w + n * n) / PI * ((w + n * n) * PI * (s * s))) with (n * (s * s)) by (field; lra). replace (2 * (d / (s * s)) * ((w + n * n) * PI * (s * s))) with (2 * d * PI * (w + n * n)) by (field; exact S0).
        assert (K1 : n * (s * s) <= d * (s * s)) by nra. assert (K2 : d * (s * s) <= d * (4 * w)) by (apply Rmult_le_compat_l; lra). assert (K3 : d * (4 * w) <= 2 * d * PI * w). { assert (w0 : 0 <= w) by (exact (Rle_0_sqr (e - x))). assert (dw : 0 <= d * w) by (apply Rmult_le_pos; lra). replace (2 * d * PI * w) with (2 * PI * (d * w)) by ring. replace (d * (4 * w)) with (4 * (d * w)) by ring. apply Rmult_le_compat_r; lra. }
        assert (K4 : 0 <= 2 * d * PI * (n * n)). { apply Rmult_le_pos; [|exact (Rle_0_sqr n)]. apply Rmult_le_pos; lra. } lra.
      * apply (RInt_correct (V := R_CompleteNormedModule)). apply cont_int, pk_conte.
    + replace ((p + d - (p - d)) * (2 * (d / (s * s)))) with (4 * (d * d / (s * s))) by (field; exact S0).
      apply Rmult_le_reg_r with ((s * s) * (s * s + d * d)); [apply Rmult_lt_0_compat; lra|]. replace (4 * (d * d / (s * s)) * (s * s * (s * s + d * d))) with (4 * (d * d) * (s * s + d * d)) by (field; exact S0).
      replace (5 * (d * d / (s * s + d * d)) * (s * s * (s * s + d * d))) with (5 * (d * d) * (s * s)) by (field; lra). nra.
Qed.
End Kernel.
