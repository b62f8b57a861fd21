(** * Complex numbers: field instances, principal square root, exponential.

    Shared vocabulary of the models that need order, modulus or analysis.  Nothing in this file models
    gftool code by itself. *)
From Coq Require Import Reals Lra Field Psatz.
From Coquelicot Require Import Coquelicot.
From Verif Require Import Base.
Local Open Scope R_scope.

Definition RF : Fld := mkFld R 0 1 Rplus Rmult Rminus Ropp Rdiv Rinv Rfield Req_EM_T.
Definition CF : Fld := mkFld C (RtoC 0) (RtoC 1) Cplus Cmult Cminus Copp Cdiv Cinv C_field_theory Ceq_dec.

Lemma C_ext (z w : C) : fst z = fst w -> snd z = snd w -> z = w.
Proof. destruct z, w; cbn; intros -> ->; reflexivity. Qed.

Lemma Cmod_sqr (z : C) : Cmod z * Cmod z = fst z * fst z + snd z * snd z.
Proof. unfold Cmod. rewrite sqrt_sqrt by nra. ring. Qed.

Lemma Rsqr_0_both (x y : R) : x * x + y * y = 0 -> x = 0 /\ y = 0.
Proof. intros H. split; nra. Qed.

(** Principal square root as numpy computes it on complex numbers without signed zeros: non-negative
    real part, and on the negative real axis non-negative imaginary part. *)
Definition csqrt (z : C) : C :=
  (sqrt ((Cmod z + fst z) / 2),
   (if Rle_dec 0 (snd z) then 1 else -1) * sqrt ((Cmod z - fst z) / 2)).

Lemma Cmod_ge_re z : Rabs (fst z) <= Cmod z.
Proof.
  apply Rsqr_incr_0_var; [|apply Cmod_ge_0]. unfold Rsqr. rewrite Cmod_sqr, <- Rabs_mult.
  rewrite Rabs_pos_eq by nra. nra.
Qed.

Lemma csqrt_sqr z : Cmult (csqrt z) (csqrt z) = z.
Proof.
  assert (H := Cmod_ge_re z). assert (H2 := Cmod_sqr z). assert (H0 := Cmod_ge_0 z).
  assert (Ha : 0 <= (Cmod z + fst z) / 2) by (apply Rabs_le_between in H; lra).
  assert (Hb : 0 <= (Cmod z - fst z) / 2) by (apply Rabs_le_between in H; lra).
  assert (Ea := sqrt_sqrt _ Ha). assert (Eb := sqrt_sqrt _ Hb).
  assert (Eab : sqrt ((Cmod z + fst z) / 2) * sqrt ((Cmod z - fst z) / 2) = Rabs (snd z) / 2).
  { rewrite <- sqrt_mult by assumption.
    replace ((Cmod z + fst z) / 2 * ((Cmod z - fst z) / 2)) with (Rsqr (snd z / 2)) by (unfold Rsqr; nra).
    rewrite sqrt_Rsqr_abs. unfold Rdiv. rewrite Rabs_mult. f_equal. apply Rabs_pos_eq. lra. }
  unfold csqrt. set (a := sqrt _) in *. set (b := sqrt ((Cmod z - fst z) / 2)) in *.
  apply C_ext; cbn.
  - destruct (Rle_dec 0 (snd z)); nra.
  - destruct (Rle_dec 0 (snd z)) as [L|L].
    + rewrite Rabs_pos_eq in Eab by assumption. nra.
    + rewrite Rabs_left in Eab by lra. nra.
Qed.

Lemma csqrt_re_nonneg z : 0 <= fst (csqrt z).
Proof. apply sqrt_pos. Qed.

Lemma Csqr_eq (s t : C) : Cmult s s = Cmult t t -> s = t \/ s = Copp t.
Proof.
  intros H. destruct (Ceq_dec s t) as [|N]; [now left|right].
  assert (E : Cmult (Cminus s t) (Cplus s t) = RtoC 0).
  { transitivity (Cminus (Cmult s s) (Cmult t t)); [ring|rewrite H; ring]. }
  assert (N2 : Cminus s t <> RtoC 0). { intros E0. apply N. replace s with (Cplus (Cminus s t) t) by ring. rewrite E0. ring. }
  destruct (Ceq_dec (Cplus s t) (RtoC 0)) as [E0|N0].
  - replace s with (Cminus (Cplus s t) t) by ring. rewrite E0. ring.
  - exfalso. exact (Cmult_neq_0 _ _ N2 N0 E).
Qed.

(** The principal root is the root with positive real part. *)
Lemma csqrt_unique (s z : C) : Cmult s s = z -> 0 < fst s -> csqrt z = s.
Proof.
  intros H Hp. destruct (Csqr_eq (csqrt z) s) as [|E].
  - rewrite csqrt_sqr. symmetry. exact H.
  - assumption.
  - exfalso. assert (H0 := csqrt_re_nonneg z). rewrite E in H0. cbn in H0. lra.
Qed.

(** Off the cut (-inf, 0] the real part is positive. *)
Lemma csqrt_re_pos z : (snd z <> 0 \/ 0 < fst z) -> 0 < fst (csqrt z).
Proof.
  intros H. destruct (csqrt_re_nonneg z) as [|E]; [assumption|exfalso].
  assert (S := csqrt_sqr z). destruct (csqrt z) as [a b]. cbn in E. subst a. 
  rewrite <- S in H. cbn in H. destruct H; nra.
Qed.

Lemma csqrt_0 : csqrt (RtoC 0) = RtoC 0.
Proof.
  assert (S := csqrt_sqr (RtoC 0)). destruct (Ceq_dec (csqrt (RtoC 0)) (RtoC 0)) as [|N]; [assumption|].
  exfalso. exact (Cmult_neq_0 _ _ N N S).
Qed.
