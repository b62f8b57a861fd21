(** * Triangular lattice: mean over the Brillouin zone, honeycomb and kagome lattice, the branch cut *)
From Coq Require Import Reals Lra List ZArith FunctionalExtensionality Classical ClassicalDescription.
From Coquelicot Require Import Coquelicot.
From Verif Require Import Base CBase CExp CSqrt Lattice_Model Bethe_Proofs Bethe_Main Fourier_Filon LatMom_Spec LatDer_Spec LatDer_Model LatDer_Proofs LatEll_Model LatInt_Spec LatInt_Proofs LatInt_Hilbert LatInt_Fubini LatInt_Square LatInt_Local LatInt_Legendre CAnal CHol CEll CHolo LatBz_Spec LatRect_Proofs LatRect_Main LatTri_Proofs LatTri_Main.
Local Open Scope C_scope.

Lemma div1 (x : C) : x / RtoC 1 = x.
Proof. rewrite div_real by lra. apply C_ext; cbn [fst snd]; field. Qed.
Lemma bz_affine f l a b : is_bz_average f l -> is_bz_average (fun k => a + b * f k) (a + b * l).
Proof.
  intros (inner & A & B). exists (fun k1 => RtoC (2 * PI) * a + b * inner k1). split.
  - intros k1. apply is_CInt_plus; [|apply is_CInt_scal, A]. eapply is_CInt_eq; [apply is_CInt_const|]. f_equal. f_equal. ring.
  - eapply is_CInt_eq; [apply is_CInt_plus; [apply is_CInt_const|apply is_CInt_scal, B]|]. replace (4 * (PI * PI))%R with ((PI - - PI) * (2 * PI))%R by ring. rewrite !RtoC_mult. ring.
Qed.
Lemma tri_band_off (D : R) (x : C) : (0 < D)%R -> (forall k, x - bloch triangular (D / 2) k 0 0 <> 0) -> offT (x / RtoC D).
Proof.
  intros HD H. rewrite div_real by lra. unfold offT. cbn [fst snd]. destruct (Req_dec (snd x) 0) as [E|N]; [right|left; apply Rmult_integral_contrapositive_currified; [exact N|apply Rinv_neq_0_compat; lra]].
  set (y := (fst x / D)%R). destruct (Rlt_dec y (- (3 / 2))) as [L1|L1]; [left; exact L1|]. destruct (Rlt_dec 3 y) as [L2|L2]; [right; exact L2|exfalso].
  set (s := sqrt (2 * y + 3)). assert (S2 : (s * s = 2 * y + 3)%R) by (apply sqrt_sqrt; lra). assert (S0 : (0 <= s)%R) by apply sqrt_pos. assert (S3 : (s <= 3)%R) by nra.
  set (c := ((s - 1) / 2)%R). assert (B : (-1 <= c <= 1)%R) by (unfold c; lra). apply (H (acos c, (- acos c)%R)). rewrite tri_band. rewrite cos_neg. replace (acos c - - acos c)%R with (2 * acos c)%R by ring. rewrite cos_2a_cos, cos_acos by exact B.
  assert (EE : (c + c + (2 * c * c - 1) = y)%R) by (unfold c; nra). rewrite EE. replace (2 * (D / 2) * y)%R with (fst x)%R by (unfold y; field; lra). apply C_ext; cbn; [ring|rewrite E; ring].
Qed.
Lemma tri_averages (D : R) : (0 < D)%R -> averages bz_mean (fun k => bloch triangular (D / 2) k 0 0).
Proof.
  intros HD a b x Hx. assert (O := tri_band_off D x HD Hx). assert (A := tri_avg (x / RtoC D) x D HD ltac:(field; apply RtoC_neq0; lra) O). rewrite (average_mean _ _ A). apply average_mean. apply (is_bz_ext (fun k => a + b * (1 / (x - bloch triangular (D / 2) k 0 0)))); [intros k; unfold Cdiv; ring|]. apply bz_affine, A.
Qed.
Section Derived.
Variable ellipk : C -> result C.
Hypothesis HK : computes_K ellipk.
Let tb := fun k => bloch triangular (4 * (9 / 4) / 9 / 2) k 0 0.
(** the mean where the elliptic integral is on its cut *)
Definition tri' (x : C) (D : R) : result C := if excluded_middle_informative (tri_ok ellipk x) then triangular_gf_z ellipk x D else Ok (bz_mean (fun k => 1 / (x - bloch triangular (4 * (9 / 4) / 9 / 2) k 0 0))).
Lemma tb_eq : tb = fun k => bloch triangular (1 / 2) k 0 0. Proof. apply functional_extensionality. intros k. unfold tb. f_equal. field. Qed.
Lemma tri'_mean : averages bz_mean tb. Proof. rewrite tb_eq. apply tri_averages. lra. Qed.
Lemma tri'_local : is_local_gf bz_mean tb (fun x => tri' x (9 / 4)%R).
Proof.
  intros x Hx. unfold tri'. destruct (excluded_middle_informative (tri_ok ellipk x)) as [X|X]; [|reflexivity]. assert (Hx' : forall k, x - bloch triangular (1 / 2) k 0 0 <> 0) by (intros k; assert (Y := Hx k); rewrite tb_eq in Y; exact Y).
  assert (O := tri_band_off 1 x ltac:(lra) Hx'). rewrite div1 in O.
  destruct (tri_average ellipk HK (9 / 4) x) as (G & E & A); [lra| | | |].
  - destruct O as [H|[H|H]]; [left; exact H|right; left; lra|right; right; lra].
  - intros E. rewrite E in O. unfold offT in O. cbn in O. lra.
  - replace (9 / 4 * 4 / 9)%R with 1%R by field. rewrite div1. exact X.
  - rewrite E. f_equal. rewrite <- (average_mean _ _ A). f_equal. apply functional_extensionality. intros k. unfold tb. do 3 f_equal. field.
Qed.
Lemma honeycomb_same z D : tri_ok ellipk (2 * (z / RtoC (D / (3 / 2)) * (z / RtoC (D / (3 / 2)))) - RtoC (3 / 2)) -> (0 < D)%R -> honeycomb_gf_z (triangular_gf_z ellipk) z D = honeycomb_gf_z tri' z D.
Proof.
  intros N HD. unfold honeycomb_gf_z. assert (D0 : RtoC (D / (3 / 2)) <> 0) by (apply RtoC_neq0; lra). rewrite !cdiv_ok by exact D0. cbn [bind]. unfold tri'. destruct (excluded_middle_informative _) as [X|X]; [reflexivity|contradiction].
Qed.
Lemma honeycomb_avg (D : R) (z : C) (G : R * R -> nat -> nat -> C) : (0 < D)%R -> tri_ok ellipk (2 * (z / RtoC (D / (3 / 2)) * (z / RtoC (D / (3 / 2)))) - RtoC (3 / 2)) ->
  (forall k, is_resolvent 2 (bloch honeycomb (2 * D / 3 / 2) k) z (G k)) -> honeycomb_gf_z (triangular_gf_z ellipk) z D = Ok (bz_mean (fun k => site_average 2 (G k))).
Proof. intros HD N HG. rewrite honeycomb_same by assumption. apply (honeycomb_bloch bz_mean tri' tri'_mean tri'_local D z HD G HG). Qed.
Lemma kagome_avg (D : R) (z : C) (G : R * R -> nat -> nat -> C) : (0 < D)%R -> tri_ok ellipk (2 * ((z - RtoC (D / 3)) / RtoC (D / (3 / 2)) * ((z - RtoC (D / 3)) / RtoC (D / (3 / 2)))) - RtoC (3 / 2)) ->
  (forall k, is_resolvent 3 (bloch kagome (2 * D / 3 / 2) k) z (G k)) -> kagome_gf_z (triangular_gf_z ellipk) z D = Ok (bz_mean (fun k => site_average 3 (G k))).
Proof. intros HD N HG. rewrite <- (kagome_bloch bz_mean tri' tri'_mean tri'_local D z HD G HG). unfold kagome_gf_z. rewrite honeycomb_same by assumption. reflexivity. Qed.
End Derived.
