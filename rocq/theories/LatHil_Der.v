(** * The eigenvalues of the lattices with several sites in the cell *)
From Coq Require Import Reals Lra Lia List FunctionalExtensionality.
From Coquelicot Require Import Coquelicot.
From Verif Require Import Base CBase Fourier_Filon LatMom_Spec LatDer_Spec LatInt_Spec LatInt_Proofs LatInt_Local LatInt_Square LatBz_Spec LatSpf_Spec LatHil_Spec LatHil_Poisson LatHil_Stieltjes LatHil_Main LatHil_Mean LatHil_Band LatHil_Avg LatHil_Lat LatHil_Inst.
Import ListNotations.
Local Open Scope R_scope.

Lemma spec_near (gf : C -> C -> Prop) e d : spectral gf e d -> forall t, 0 < t -> exists r, 0 < r /\ forall u v, Rabs (u - e) < r -> 0 < v < r -> exists G, gf (u, v) G /\ Rabs (- snd G / PI - d) < t.
Proof.
  intros S t Ht. destruct (S t Ht) as (r & Hr & Q). exists (r / 2). split; [lra|]. intros u v Hu Hv. apply (Q (u, v)); [cbn; lra|].
  eapply Rle_lt_trans; [apply Cmod_2Rmax|]. cbn [fst snd Cminus Cplus Copp RtoC].
  match goal with |- sqrt 2 * Rmax ?x ?y < r => assert (X : Rmax x y < r / 2) by (apply Rmax_lub_lt; [exact Hu|replace (v + - 0) with v by ring; rewrite Rabs_pos_eq; lra]); assert (X0 : 0 <= Rmax x y) by (eapply Rle_trans; [apply Rabs_pos|apply Rmax_l]); set (w := Rmax x y) in * end.
  assert (S2 : sqrt 2 <= 2). { rewrite <- (sqrt_square 2) at 2 by lra. apply sqrt_le_1_alt. lra. } apply Rle_lt_trans with (2 * w); [apply Rmult_le_compat_r; lra|lra].
Qed.
(** a flat band does not contribute at other energies *)
Lemma pk_far f0 e b t : 0 <= b -> e <> f0 -> 0 < t -> exists r, 0 < r /\ forall u v, Rabs (u - e) < r -> 0 < v < r -> 0 <= b * pk v (u - f0) <= t.
Proof.
  intros Hb Ne Ht. set (h := Rabs (e - f0) / 2). assert (Hh : 0 < h) by (unfold h; assert (X := Rabs_pos_lt (e - f0) ltac:(lra)); lra). assert (h2 : 0 < h * h) by (apply Rmult_lt_0_compat; exact Hh). assert (P := PI_RGT_0).
  exists (Rmin h (t * (h * h) / (b + 1))). assert (T0 : 0 < t * (h * h) / (b + 1)) by (apply Rdiv_lt_0_compat; [apply Rmult_lt_0_compat; lra|lra]). split; [apply Rmin_pos; assumption|]. intros u v Hu Hv.
  assert (m1 := Rmin_l h (t * (h * h) / (b + 1))). assert (m2 := Rmin_r h (t * (h * h) / (b + 1))). assert (A : h <= Rabs (u - f0)). { assert (X := Rabs_triang (u - f0) (e - u)). replace (u - f0 + (e - u)) with (e - f0) in X by ring. rewrite (Rabs_minus_sym e u) in X. unfold h in *. lra. }
  assert (Q : (u - f0) * (u - f0) = Rabs (u - f0) * Rabs (u - f0)) by (unfold Rabs; destruct (Rcase_abs (u - f0)); ring). assert (A2 : h * h <= (u - f0) * (u - f0)) by (rewrite Q; apply Rmult_le_compat; lra).
  assert (vv : 0 < v * v) by (apply Rmult_lt_0_compat; lra). assert (K0 : 0 <= pk v (u - f0)) by (unfold pk; apply Rdiv_le_0_compat; [apply Rdiv_le_0_compat; lra|lra]). split; [apply Rmult_le_pos; assumption|].
  assert (K1 : pk v (u - f0) <= v / (h * h)). { unfold pk. apply Rle_trans with (v / ((u - f0) * (u - f0) + v * v)).
    - set (w := v / ((u - f0) * (u - f0) + v * v)). assert (0 <= w) by (unfold w; apply Rdiv_le_0_compat; lra). assert (P1 : 1 < PI) by (assert (Z := PI2_1); lra). apply Rmult_le_reg_r with PI; [lra|]. unfold Rdiv. rewrite Rmult_assoc, Rinv_l by lra. nra.
    - apply Rmult_le_compat_l; [lra|]. apply Rinv_le_contravar; lra. }
  assert (K2 : v / (h * h) <= t / (b + 1)). { apply Rmult_le_reg_r with (h * h); [exact h2|]. replace (v / (h * h) * (h * h)) with v by (field; lra). replace (t / (b + 1) * (h * h)) with (t * (h * h) / (b + 1)) by (field; lra). lra. }
  apply Rle_trans with (b * (t / (b + 1))); [apply Rmult_le_compat_l; lra|]. assert (0 <= t / (b + 1)) by (apply Rdiv_le_0_compat; lra). replace t with ((b + 1) * (t / (b + 1))) at 2 by (field; lra). lra.
Qed.

Section Two.
Variables (a b f0 c0 m p : R) (ps : list R) (dos : R -> result R) (gf : C -> C -> Prop) (E : K 2 -> R) (es : R * R -> list R).
Hypothesis Ha : 0 < a.
Hypothesis Hb : 0 <= b.
Hypothesis Hm : 0 < m.
Let e1 (k : K 2) := c0 + sqrt (E k).
Let e2 (k : K 2) := c0 - sqrt (E k).
Hypothesis UE : uc 2 E.
Hypothesis BE : forall k, 0 <= E k <= m * m.
Hypothesis Naa : forall r, noatom 2 (fun k => E k - r).
Hypothesis Ep : p = c0 - m.
Hypothesis Ef : final p ps = c0 + m.
Hypothesis Inc : incr p ps.
Hypothesis Out : forall e, e < p \/ final p ps < e -> dos e = Ok 0.
Hypothesis Flat : In f0 (p :: ps).
Hypothesis Sp : forall e, ~ In e (p :: ps) -> exists d, dos e = Ok d /\ spectral gf e d.
Hypothesis Hes : forall phi k, mean_of phi (es k) = (RtoC b * phi f0 + (RtoC a * phi (e1 (k2 k)) + RtoC a * phi (e2 (k2 k))))%C.
Hypothesis HG : forall z G, 0 < snd z -> gf z G -> is_bz_average (fun k => mean_of (fun e => 1 / (z - RtoC e))%C (es k)) G.
Lemma root_uc : uc 2 (fun k => sqrt (E k)).
Proof. apply (uc_comp 2 sqrt E 0 (m * m)); [exact UE|exact BE|]. intros x Hx. apply continuous_sqrt. Qed.
Lemma root_b k : 0 <= sqrt (E k) <= m.
Proof. split; [apply sqrt_pos|]. rewrite <- (sqrt_square m) by lra. apply sqrt_le_1_alt. apply BE. Qed.
Lemma e1_uc : uc 2 e1. Proof. apply (uc_plus 2 (fun _ => c0) (fun k => sqrt (E k))); [apply uc_const|exact root_uc]. Qed.
Lemma e2_uc : uc 2 e2. Proof. apply (uc_ext 2 (fun k => c0 + -1 * sqrt (E k))); [intros; unfold e2; ring|]. apply uc_plus; [apply uc_const|apply uc_scal, root_uc]. Qed.
Lemma e1_b k : p <= e1 k <= final p ps. Proof. rewrite Ef, Ep. assert (R := root_b k). unfold e1. lra. Qed.
Lemma e2_b k : p <= e2 k <= final p ps. Proof. rewrite Ef, Ep. assert (R := root_b k). unfold e2. lra. Qed.
Lemma e_na q (s : R) : s * s = 1 -> p <= q <= final p ps -> noatom 2 (fun k => c0 + s * sqrt (E k) - q).
Proof.
  intros Hs Hq. rewrite Ef, Ep in Hq. apply (noatom_dom 2 _ (fun k => E k - (q - c0) * (q - c0)) (2 * m + 1)).
  - apply uc_shift, uc_plus; [apply uc_const|apply uc_scal, root_uc].
  - apply bd_shift. exists (Rabs c0 + m). intros k. assert (R := root_b k). assert (A1 := Rle_abs c0). assert (A2 := Rle_abs (- c0)). rewrite Rabs_Ropp in A2. assert (S : s = 1 \/ s = -1) by (assert (Z : (s - 1) * (s + 1) = 0) by (ring_simplify; lra); apply Rmult_integral in Z; destruct Z; [left|right]; lra). destruct S; subst s; lra.
  - apply uc_shift, UE.
  - apply bd_shift. exists (m * m). intros k. assert (X := BE k). lra.
  - lra.
  - intros k. assert (Q : E k = sqrt (E k) * sqrt (E k)) by (symmetry; apply sqrt_sqrt, BE). assert (R := root_b k). set (x := sqrt (E k)) in *. rewrite Q. replace (x * x - (q - c0) * (q - c0)) with ((c0 + s * x - q) * (s * x + (q - c0))) by (transitivity (s * s * (x * x) - (q - c0) * (q - c0)); [ring|rewrite Hs; ring]).
    rewrite Rabs_mult, Rmult_comm. apply Rmult_le_compat_r; [apply Rabs_pos|]. eapply Rle_trans; [apply Rabs_triang|]. rewrite Rabs_mult. assert (S : Rabs s = 1). { assert (Z : Rabs s * Rabs s = 1) by (rewrite <- Hs; unfold Rabs; destruct (Rcase_abs s); ring). assert (P := Rabs_pos s). nra. }
    rewrite S, (Rabs_pos_eq x) by lra. assert (Rabs (q - c0) <= m) by (apply Rabs_le; lra). lra.
  - apply Naa.
Qed.
Definition LL (f : R -> R) : R := a * mean 2 (fun k => f (e1 k)) + a * mean 2 (fun k => f (e2 k)).
Lemma fst_RtoC_mul (x : R) (z : C) : fst (RtoC x * z)%C = x * fst z. Proof. cbn. ring. Qed.
Lemma snd_RtoC_mul (x : R) (z : C) : snd (RtoC x * z)%C = x * snd z. Proof. cbn. ring. Qed.
Lemma two_avg (phi : R -> C) : (forall x, p <= x <= final p ps -> ccont phi x) ->
  is_bz_average (fun k => mean_of phi (es k)) (RtoC b * phi f0 + (LL (fun x => fst (phi x)), LL (fun x => snd (phi x))))%C.
Proof.
  intros Cp. assert (U : forall e, uc 2 e -> (forall k, p <= e k <= final p ps) -> uc 2 (fun k => fst (phi (e k))) /\ uc 2 (fun k => snd (phi (e k)))).
  { intros e Ue Be. split; [apply (uc_comp 2 (fun x => fst (phi x)) e p (final p ps))|apply (uc_comp 2 (fun x => snd (phi x)) e p (final p ps))]; try assumption; intros x Hx; apply (Cp x Hx). }
  destruct (U e1 e1_uc e1_b) as [U1 V1]. destruct (U e2 e2_uc e2_b) as [U2 V2].
  set (g := fun k => (RtoC b * phi f0 + (RtoC a * phi (e1 k) + RtoC a * phi (e2 k)))%C).
  assert (Gf : forall k, fst (g k) = b * fst (phi f0) + (a * fst (phi (e1 k)) + a * fst (phi (e2 k)))) by (intros k; unfold g; cbn; ring).
  assert (Gs : forall k, snd (g k) = b * snd (phi f0) + (a * snd (phi (e1 k)) + a * snd (phi (e2 k)))) by (intros k; unfold g; cbn; ring).
  assert (UF : uc 2 (fun k => a * fst (phi (e1 k)) + a * fst (phi (e2 k)))) by (apply uc_plus; apply uc_scal; assumption).
  assert (US : uc 2 (fun k => a * snd (phi (e1 k)) + a * snd (phi (e2 k)))) by (apply uc_plus; apply uc_scal; assumption).
  replace (fun k => mean_of phi (es k)) with (fun k => g (k2 k)) by (apply functional_extensionality; intros k; rewrite Hes; reflexivity).
  replace (RtoC b * phi f0 + (LL (fun x => fst (phi x)), LL (fun x => snd (phi x))))%C with (cmean 2 g).
  - apply bz2; [apply (uc_ext 2 (fun k => b * fst (phi f0) + (a * fst (phi (e1 k)) + a * fst (phi (e2 k)))))|apply (uc_ext 2 (fun k => b * snd (phi f0) + (a * snd (phi (e1 k)) + a * snd (phi (e2 k)))))]; try (intros k; symmetry; auto; fail); apply uc_plus; try apply uc_const; assumption.
  - unfold cmean. rewrite (mean_ext 2 _ _ Gf), (mean_ext 2 _ _ Gs). rewrite !mean_plus, !mean_scal, !mean_const by (assumption || apply uc_const || (apply uc_scal; assumption)). unfold LL. apply C_ext; cbn; ring.
Qed.
Lemma two_M : - Rmax (Rabs p) (Rabs (final p ps)) <= p /\ final p ps <= Rmax (Rabs p) (Rabs (final p ps)).
Proof. assert (F := final_ge ps p Inc). assert (A := range_M p (final p ps) p ltac:(lra)). assert (B := range_M p (final p ps) (final p ps) ltac:(lra)). lra. Qed.
Lemma two_band (phi : R -> C) : (forall x, p <= x <= final p ps -> ccont phi x) -> is_band_integral (fun e => RtoC (tot dos e) * phi e)%C p ps (LL (fun x => fst (phi x)), LL (fun x => snd (phi x))).
Proof.
  assert (MM := two_M). set (M := Rmax (Rabs p) (Rabs (final p ps))) in *.
  assert (B1 : forall k, - M <= e1 k <= M) by (intros k; assert (X := e1_b k); lra). assert (B2 : forall k, - M <= e2 k <= M) by (intros k; assert (X := e2_b k); lra).
  apply (band_integral LL p ps (tot dos)).
  - apply (meanl_comb (fun f => mean 2 (fun k => f (e1 k))) (fun f => mean 2 (fun k => f (e2 k)))); [lra|lra|exact (mean_meanl 2 e1 M e1_uc B1)|exact (mean_meanl 2 e2 M e2_uc B2)].
  - intros f g X. unfold LL. f_equal; f_equal; apply mean_ext; intros k; apply X; [apply e1_b|apply e2_b].
  - exact Inc.
  - intros e He t Ht. destruct (Sp e He) as (d & Ed & S). destruct (spec_near _ _ _ S (t / 2) ltac:(lra)) as (r & Hr & Q). assert (Nf : e <> f0) by (intros X; apply He; rewrite X; exact Flat). destruct (pk_far f0 e b (t / 2) Hb Nf ltac:(lra)) as (r' & Hr' & Q').
    exists (Rmin r r'). split; [apply Rmin_pos; assumption|]. intros u v Hu Hv. assert (m1 := Rmin_l r r'). assert (m2 := Rmin_r r r'). destruct (Q u v ltac:(lra) ltac:(lra)) as (G & HgG & EG). specialize (Q' u v ltac:(lra) ltac:(lra)).
    assert (A := HG (u, v) G ltac:(cbn; lra) HgG). assert (A' := two_avg (fun x => (1 / ((u, v) - RtoC x))%C) (fun x _ => res_ccont (u, v) x ltac:(cbn; lra))). assert (Eq := bz_uniq _ _ _ A A'). clear A A'. rewrite Eq in EG. clear Eq.
    assert (SP : forall x y : C, snd (x + y)%C = snd x + snd y) by reflexivity. rewrite SP, snd_RtoC_mul, res_pk in EG by lra. cbn [snd] in EG. assert (EL : LL (fun x => snd (1 / ((u, v) - RtoC x))%C) = - PI * rho LL v u).
    { unfold rho, LL. assert (C1 : forall e, uc 2 e -> (forall k, - M <= e k <= M) -> mean 2 (fun k => snd (1 / ((u, v) - RtoC (e k)))%C) = - PI * mean 2 (fun k => pk v (u - e k))).
      { intros e' Ue Be. rewrite <- mean_scal; [apply mean_ext; intros k; apply res_pk; lra|]. apply (uc_comp 2 (fun x => pk v (u - x)) e' (- M) M); [exact Ue|exact Be|]. intros x _. apply pk_contx. lra. }
      rewrite (C1 e1 e1_uc B1), (C1 e2 e2_uc B2). ring. }
    rewrite EL in EG. unfold tot. rewrite Ed. replace (- (b * (- PI * pk v (u - f0)) + - PI * rho LL v u) / PI - d) with (b * pk v (u - f0) + (rho LL v u - d)) in EG by (field; exact PI_neq0).
    replace (rho LL v u - d) with ((b * pk v (u - f0) + (rho LL v u - d)) - b * pk v (u - f0)) by ring. eapply Rle_lt_trans; [apply Rabs_triang|]. rewrite Rabs_Ropp, (Rabs_pos_eq (b * pk v (u - f0))) by lra. lra.
  - intros e He. unfold tot. rewrite (Out e He). reflexivity.
  - intros q Hq t Ht. assert (Hq' : p <= q <= final p ps).
    { clear - Inc Hq. revert p Inc Hq. induction ps as [|x xs IH]; cbn; intros p0 I0 Hq; [destruct Hq as [->|[]]; lra|]. destruct I0 as [I1 I2]. assert (F := final_ge xs x I2). destruct Hq as [->|Hq]; [lra|]. specialize (IH x I2 Hq). lra. }
    destruct (e_na q 1 ltac:(lra) Hq' (t / (2 * a)) ltac:(apply Rdiv_lt_0_compat; lra)) as (r1 & Hr1 & Q1). destruct (e_na q (-1) ltac:(lra) Hq' (t / (2 * a)) ltac:(apply Rdiv_lt_0_compat; lra)) as (r2 & Hr2 & Q2).
    exists (Rmin r1 r2). split; [apply Rmin_pos; assumption|]. intros d Hd. assert (m1 := Rmin_l r1 r2). assert (m2 := Rmin_r r1 r2). specialize (Q1 d ltac:(lra)). specialize (Q2 d ltac:(lra)).
    unfold weight, LL. assert (X1 : mean 2 (fun k => d * d / ((e1 k - q) * (e1 k - q) + d * d)) <= t / (2 * a)). { eapply Rle_trans; [|exact Q1]. right. apply mean_ext. intros k. unfold lor, e1. rewrite Rmult_1_l. reflexivity. }
    assert (X2 : mean 2 (fun k => d * d / ((e2 k - q) * (e2 k - q) + d * d)) <= t / (2 * a)). { eapply Rle_trans; [|exact Q2]. right. apply mean_ext. intros k. unfold lor, e2. replace (c0 + -1 * sqrt (E k) - q) with (c0 - sqrt (E k) - q) by ring. reflexivity. }
    replace t with (a * (t / (2 * a)) + a * (t / (2 * a))) by (field; lra). apply Rplus_le_compat; apply Rmult_le_compat_l; lra.
Qed.
End Two.
