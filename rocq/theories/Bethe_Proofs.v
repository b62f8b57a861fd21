(** * Proofs about the Bethe lattice and its relatives *)
From Coq Require Import Reals Lra Psatz Field.
From Coquelicot Require Import Coquelicot.
From Verif Require Import Base CBase CExp CSqrt Lattice_Model.
Local Open Scope C_scope.

Lemma RtoC_neq0 (x : R) : x <> 0%R -> RtoC x <> 0.
Proof. intros H E. apply RtoC_inj in E. easy. Qed.
Lemma C1_neq0 : RtoC 1 <> 0. Proof. apply RtoC_neq0. lra. Qed.
Lemma C2_eq : RtoC 2 = RtoC 1 + RtoC 1. Proof. rewrite <- RtoC_plus. reflexivity. Qed.
Lemma C2_neq0 : RtoC 2 <> 0. Proof. apply RtoC_neq0. lra. Qed.
Lemma C11_neq0 : RtoC 1 + RtoC 1 <> 0. Proof. rewrite <- C2_eq. exact C2_neq0. Qed.
Lemma cdiv_ok (x y : C) : y <> 0 -> cdiv x y = Ok (x / y).
Proof. intros H. unfold cdiv. destruct (Ceq_dec y 0); [easy|reflexivity]. Qed.
Lemma rdiv_ok (x y : R) : y <> 0%R -> rdiv x y = Ok (x / y)%R.
Proof. intros H. unfold rdiv. destruct (Req_EM_T y 0); [easy|reflexivity]. Qed.
Lemma Cdiv_neq0 (x y : C) : x <> 0 -> y <> 0 -> x / y <> 0.
Proof. intros Hx Hy E. apply Hx. transitivity (x / y * y); [field; exact Hy|rewrite E; ring]. Qed.

(** ** The root u of u^2 - 2 w u + 1 inside the unit disc *)
Definition sq (w : C) : C := csqrt (1 - 1 / (w * w)).
Arguments sq : simpl never.
Definition uu (w : C) : C := w * (1 - sq w).
Definition cutfree (w : C) : Prop := snd w <> 0%R \/ (1 < Rabs (fst w))%R.

Section U.
Variable w : C.
Hypothesis Hw : w <> 0.
Lemma sq_sqr : sq w * sq w = 1 - 1 / (w * w).
Proof. apply csqrt_sqr. Qed.
Lemma uu_prod : uu w * (w * (1 + sq w)) = 1.
Proof. unfold uu. transitivity (w * w * (1 - sq w * sq w)); [ring|]. rewrite sq_sqr. field. exact Hw. Qed.
Lemma uu_neq0 : uu w <> 0.
Proof. intros E. apply C1_neq0. rewrite <- uu_prod, E. ring. Qed.
Lemma uu_quad : uu w * uu w - 2 * w * uu w + 1 = 0.
Proof. rewrite C2_eq. unfold uu. transitivity (w * w * (sq w * sq w - 1) + 1); [ring|]. rewrite sq_sqr. field. exact Hw. Qed.
Lemma uu_inv : / uu w = w * (1 + sq w).
Proof. transitivity (/ uu w * (uu w * (w * (1 + sq w)))); [rewrite uu_prod; ring|]. field. exact uu_neq0. Qed.
Lemma sq_re : (0 <= fst (sq w))%R. Proof. apply csqrt_re_nonneg. Qed.

Lemma Cmod_lt_of_sqr (a b : C) : (Cmod a * Cmod a < Cmod b * Cmod b)%R -> (Cmod a < Cmod b)%R.
Proof. intros H. assert (Ha := Cmod_ge_0 a). assert (Hb := Cmod_ge_0 b). nra. Qed.
Lemma Cmod_le_of_sqr (a b : C) : (Cmod a * Cmod a <= Cmod b * Cmod b)%R -> (Cmod a <= Cmod b)%R.
Proof. intros H. assert (Ha := Cmod_ge_0 a). assert (Hb := Cmod_ge_0 b). nra. Qed.

Lemma uu_le : (Cmod (uu w)%C <= 1)%R.
Proof.
  assert (P := uu_prod). apply (f_equal Cmod) in P. rewrite Cmod_mult, Cmod_1 in P.
  assert (B : (Cmod (uu w)%C <= Cmod (w * (1 + sq w))%C)%R).
  { unfold uu. rewrite !Cmod_mult. apply Rmult_le_compat_l; [apply Cmod_ge_0|]. apply Cmod_le_of_sqr. rewrite !Cmod_sqr. cbn. assert (H := sq_re). nra. }
  assert (H0 := Cmod_ge_0 (uu w)). nra.
Qed.
Lemma offcut_sq : cutfree w -> offcut (1 - 1 / (w * w)).
Proof.
  intros H. destruct w as [a b]. unfold cutfree, offcut in *. cbn [fst snd] in H.
  assert (N : (0 < a * a + b * b)%R). { destruct (Req_dec b 0) as [->|]; [|nra]. destruct H as [H|H]; [easy|]. destruct (Req_dec a 0) as [->|]; [rewrite Rabs_R0 in H; lra|nra]. }
  assert (E : 1 - 1 / ((a, b) * (a, b)) = (1 - (a * a - b * b) / ((a * a + b * b) * (a * a + b * b)), 2 * a * b / ((a * a + b * b) * (a * a + b * b)))%R).
  { assert (Hz : ((a, b) * (a, b) : C) <> 0) by (apply Cmult_neq_0; exact Hw).
    assert (X : 1 / ((a, b) * (a, b)) = ((a * a - b * b) / ((a * a + b * b) * (a * a + b * b)), - (2 * a * b) / ((a * a + b * b) * (a * a + b * b)))%R).
    { match goal with |- _ = ?r => transitivity (r * ((a, b) * (a, b)) / ((a, b) * (a, b))) end; [|field; exact Hw].
      f_equal. apply C_ext; cbn; field; nra. }
    rewrite X. apply C_ext; cbn; field; nra. }
  rewrite E. cbn [fst snd]. destruct (Req_dec b 0) as [Hb|Hb].
  - right. destruct H as [H|H]; [easy|]. subst b. assert (A : (1 < a * a)%R). { rewrite <- (Rabs_pos_eq (a * a)), Rabs_mult by nra. nra. }
    assert ((a * a - 0 * 0) / ((a * a + 0 * 0) * (a * a + 0 * 0)) < 1)%R; [|lra].
    replace ((a * a - 0 * 0) / ((a * a + 0 * 0) * (a * a + 0 * 0)))%R with (/ (a * a))%R by (field; nra). rewrite <- Rinv_1. apply Rinv_lt_contravar; lra.
  - destruct (Req_dec a 0) as [->|Ha].
    + right. assert ((0 * 0 - b * b) / ((0 * 0 + b * b) * (0 * 0 + b * b)) < 0)%R; [|lra].
      replace ((0 * 0 - b * b) / ((0 * 0 + b * b) * (0 * 0 + b * b)))%R with (- / (b * b))%R by (field; nra). assert (0 < / (b * b))%R by (apply Rinv_0_lt_compat; nra). lra.
    + left. apply Rmult_integral_contrapositive. split; [repeat apply Rmult_integral_contrapositive; repeat split; lra || (repeat apply Rmult_integral_contrapositive; lra)|]. apply Rinv_neq_0_compat. nra.
Qed.
Lemma sq_pos : cutfree w -> (0 < fst (sq w))%R.
Proof. intros H. apply csqrt_pos, offcut_sq, H. Qed.
Lemma uu_lt : cutfree w -> (Cmod (uu w)%C < 1)%R.
Proof.
  intros H. assert (Hs := sq_pos H). assert (P := uu_prod). apply (f_equal Cmod) in P. rewrite Cmod_mult, Cmod_1 in P.
  assert (B : (Cmod (uu w)%C < Cmod (w * (1 + sq w))%C)%R).
  { unfold uu. rewrite !Cmod_mult. apply Rmult_lt_compat_l; [now apply Cmod_gt_0|]. apply Cmod_lt_of_sqr. rewrite !Cmod_sqr. cbn. nra. }
  assert (H0 := Cmod_ge_0 (uu w)). nra.
Qed.
(** imaginary part has the opposite sign of that of w *)
Lemma im_inv (v : C) : v <> 0 -> snd (/ v) = (- snd v / (Cmod v * Cmod v))%R.
Proof. intros H. rewrite Cmod_sqr. destruct v as [a b]. cbn. field. intros E. apply H. apply Rsqr_0_both in E. destruct E as [-> ->]. reflexivity. Qed.
Lemma uu_w : w = (uu w + / uu w) / 2.
Proof. rewrite uu_inv, C2_eq. unfold uu. field. exact C11_neq0. Qed.
Lemma uu_im : (snd w * snd (uu w) <= 0)%R /\ (snd w <> 0%R -> (snd w * snd (uu w) < 0)%R).
Proof.
  assert (N := uu_neq0). assert (L := uu_le). assert (M := proj1 (Cmod_gt_0 (uu w)) N). set (m := Cmod (uu w)%C) in *.
  assert (E : snd w = (snd (uu w) * (1 - / (m * m)) / 2)%R).
  { transitivity (snd ((uu w + / uu w) / 2)); [now rewrite <- uu_w|].
    replace ((uu w + / uu w) / 2) with ((uu w + / uu w) * RtoC (1 / 2)) by (rewrite RtoC_div; [unfold Cdiv; ring|lra]).
    change (snd ((uu w + / uu w) * RtoC (1 / 2))) with (fst (uu w + / uu w)%C * 0 + (snd (uu w) + snd (/ uu w)%C) * (1 / 2))%R. rewrite im_inv by exact N. fold m. field. lra. }
  assert (I : (1 <= / (m * m))%R). { rewrite <- Rinv_1. apply Rinv_le_contravar; [nra|nra]. }
  split.
  - rewrite E. nra.
  - intros Hn. assert (snd (uu w) <> 0%R) by (intros E0; apply Hn; rewrite E, E0; field; nra).
    assert (/ (m * m) <> 1)%R by (intros E0; apply Hn; rewrite E, E0; field).
    rewrite E. assert (0 < snd (uu w) * snd (uu w))%R by nra. nra.
Qed.
End U.

(** uniqueness of the root in the open disc, for any v with 2 w = v + 1/v *)
Lemma uu_unique (v : C) : v <> 0 -> (Cmod v < 1)%R -> uu ((v + / v) / 2) = v.
Proof.
  intros Hv L. set (w := (v + / v) / 2).
  assert (N1 : 1 + v * v <> 0).
  { intros E. assert (E1 : v * v = - (1)) by (transitivity (1 + v * v - 1); [ring|rewrite E; ring]).
    apply (f_equal Cmod) in E1. rewrite Cmod_mult, Cmod_opp, Cmod_1 in E1. assert (H0 := Cmod_ge_0 v). nra. }
  assert (Ew : w = (1 + v * v) / (2 * v)) by (unfold w; field; split; [exact Hv|exact C2_neq0]).
  assert (Hw : w <> 0) by (rewrite Ew; apply Cdiv_neq0; [exact N1|apply Cmult_neq_0; [exact C2_neq0|exact Hv]]).
  assert (Es : sq w = (1 - v * v) / (1 + v * v)).
  { apply csqrt_unique.
    - rewrite Ew, C2_eq. field. repeat split; try assumption. exact C11_neq0.
    - (* real part of (1-q)/(1+q) is (1-|q|^2)/|1+q|^2 *)
      set (q := v * v) in *. assert (Hq : (Cmod q * Cmod q < 1)%R). { unfold q. rewrite Cmod_mult. assert (H0 := Cmod_ge_0 v). assert (Cmod v * Cmod v < 1)%R by nra. nra. }
      rewrite Cmod_sqr in Hq. assert (D0 : (0 < Cmod (1 + q)%C * Cmod (1 + q)%C)%R). { assert (P := proj1 (Cmod_gt_0 (1 + q)) N1). nra. }
      rewrite Cmod_sqr in D0. destruct q as [a b]. cbn in *.
      match goal with |- (0 < ?e)%R => replace e with ((1 - (a * a + b * b)) / ((1 + a) * (1 + a) + b * b))%R by (field; nra) end.
      apply Rdiv_lt_0_compat; nra. }
  unfold uu. rewrite Es, Ew, C2_eq. field. repeat split; try assumption. exact C11_neq0.
Qed.
