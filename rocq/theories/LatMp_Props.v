(** * C66: multi-precision densities of states; C67: stress tensor transform of the square lattice *)
From Coq Require Import Reals List Bool Lia Lra Psatz.
From Coquelicot Require Import Coquelicot.
From Verif Require Import Base CBase CExp CSqrt Fourier_Filon Lattice_Model Bethe_Proofs LatMom_Spec LatDer_Spec LatDer_Model LatDer_Dos LatDer_Proofs LatEll_Model LatEll_Proofs LatSym_Proofs LatEll_Props LatInt_Spec LatInt_Proofs LatInt_Hilbert LatInt_Square LatInt_Legendre LatInt_Local LatInt_Props
  LatMp_Model LatMp_Proofs LatMp_Sc LatMp_Stress LatMp_Pi.
Import ListNotations.
Local Open Scope C_scope.

(** ** C66: the same finite values at every energy, and none where the other has none *)
(** [ellipk] for the parameter m = 1 - p against scipy's ellipkm1 of p *)
Theorem C66_closed : forall (ellipk : C -> result C) (ellipkm1 ellipkr : R -> result R) (eps D : R), (0 < D)%R ->
  (forall p, (0 <= p <= 1)%R -> ellipkm1 p = ellipkr (1 - p)%R) ->
  List.Forall (fun fs : (R -> R -> result R) * (R -> R -> result R) => forall v, fst fs eps D = Ok v <-> snd fs eps D = Ok v)
    [(bethe_dos_mp, bethe_dos); (onedim_dos_mp, onedim_dos); (square_dos_mp ellipkr, square_dos ellipkm1); (bcc_dos_mp ellipk, bcc_dos ellipk);
     (lieb_dos_mp (square_dos_mp ellipkr), lieb_dos (square_dos ellipkm1))].
Proof.
  intros ek km kr eps D H S. repeat apply List.Forall_cons; try apply List.Forall_nil; cbn [fst snd].
  - apply agrees_eq, bethe_mp, H. - apply onedim_mp, H. - apply agrees_eq, square_mp; assumption. - apply agrees_eq, bcc_mp, H.
  - apply agrees_eq, lieb_mp; [exact H| |apply square_dos_scales]. intros x D' H'. apply square_mp; assumption.
Qed.
Print Assumptions C66_closed.
(** fcc: also outside of the band, although the guard [3 < eps < -1] of the code never fires *)
Theorem C66_fcc : forall (ellipk : C -> result C) (eps D : R), elliptic_like ellipk -> (0 < D)%R ->
  (forall v, fcc_dos_mp ellipk eps D = Ok v <-> fcc_dos ellipk eps D = Ok v) /\ ((eps < - (1 / 2) * D \/ 3 / 2 * D <= eps)%R -> fcc_dos_mp ellipk eps D = Ok 0%R).
Proof. intros ek eps D HK H. split; [apply fcc_mp; assumption|apply fcc_mp_out; assumption]. Qed.
Print Assumptions C66_fcc.
(** triangular, honeycomb, kagome: the constant [c] which stands for 2/pi^2 *)
Theorem C66_triangular_partial : forall (ellipkm1 ellipkr : R -> result R) (c eps D : R), (0 < D)%R ->
  (forall p, (0 <= p <= 1)%R -> ellipkm1 p = ellipkr (1 - p)%R) ->
  List.Forall (fun fs : (R -> R -> result R) * (R -> R -> result R) => fst fs eps D = match snd fs eps D with Ok d => Ok (c * (PI * PI) / 2 * d)%R | Err e => Err e end)
    [(triangular_dos_mp ellipkr c, triangular_dos ellipkm1); (honeycomb_dos_mp (triangular_dos_mp ellipkr c), honeycomb_dos (triangular_dos ellipkm1)); (kagome_dos_mp (triangular_dos_mp ellipkr c), kagome_dos (triangular_dos ellipkm1))].
Proof.
  intros km kr c eps D H S. assert (T := fun x D H => triangular_mp km kr S c x D H). repeat apply List.Forall_cons; try apply List.Forall_nil; cbn [fst snd].
  - rewrite (T eps D H). destruct (triangular_dos km eps D); reflexivity.
  - rewrite (honeycomb_mp (triangular_dos km) _ (c * (PI * PI) / 2) eps D H T). destruct (honeycomb_dos _ eps D); reflexivity.
  - rewrite (kagome_mp (triangular_dos km) _ (c * (PI * PI) / 2) eps D H T). destruct (kagome_dos _ eps D); reflexivity.
Qed.
Print Assumptions C66_triangular_partial.
(** with the floating point number of the code the densities are too large, whatever the working precision is *)
Theorem C66_triangular_refuted : exists c : R, c = (228155022448185 / 1125899906842624)%R /\ forall (ellipkm1 ellipkr : R -> result R) (eps D d : R), (0 < D)%R ->
  (forall p, (0 <= p <= 1)%R -> ellipkm1 p = ellipkr (1 - p)%R) -> triangular_dos ellipkm1 eps D = Ok d -> (0 < d)%R ->
  exists d', triangular_dos_mp ellipkr c eps D = Ok d' /\ (d < d')%R.
Proof.
  exists float_c. split; [reflexivity|]. intros km kr eps D d H S E Hd. rewrite (triangular_mp km kr S float_c eps D H), E. cbn [bind]. eexists. split; [reflexivity|].
  assert (G := float_c_gt). nra.
Qed.
Print Assumptions C66_triangular_refuted.
(** sc: Green's function everywhere, density of states outside of the expansion around the band centre *)
Theorem C66_sc_gf : forall (ellipk : C -> result C) (z : C) (D : R) (v : C), sc_gf_z_mp ellipk z D = Ok v <-> sc_gf_z ellipk z D = Ok v.
Proof. intros ek z D. exact (sc_gf_mp ek z D). Qed.
Print Assumptions C66_sc_gf.
Theorem C66_sc_partial : forall (ellipk : C -> result C) (small small_mp eps D : R), elliptic_like ellipk -> (0 < D)%R -> (small_mp <= Rabs eps)%R -> (small <= Rabs (3 / D * eps))%R ->
  forall v, sc_dos_mp ellipk small_mp eps D = Ok v <-> sc_dos ellipk small eps D = Ok v.
Proof. exact sc_mp. Qed.
Print Assumptions C66_sc_partial.
(** in the expansion: equal for half_bandwidth = 3 ... *)
Lemma legendre_ge (m : R) (k : C) : (0 <= m < 1)%R -> legendre_K (RtoC m) k -> snd k = 0%R /\ (PI / 2 <= fst k)%R.
Proof.
  intros Hm [H1 H2]. assert (HP := PI_RGT_0).
  assert (E : forall t, 1 / csqrt (1 - RtoC m * RtoC (sin t * sin t)) = RtoC (1 / sqrt (1 - m * (sin t * sin t))) /\ (1 <= 1 / sqrt (1 - m * (sin t * sin t)))%R).
  { intros t. assert (B := SIN_bound t). assert (S : (0 <= sin t * sin t <= 1)%R) by nra. assert (Q : (0 < 1 - m * (sin t * sin t) <= 1)%R) by nra. assert (R0 := sqrt_lt_R0 _ (proj1 Q)).
    replace (1 - RtoC m * RtoC (sin t * sin t)) with (RtoC (1 - m * (sin t * sin t))) by (rewrite RtoC_minus, RtoC_mult; reflexivity). rewrite csqrt_R by lra. rewrite <- RtoC_div by lra. split; [reflexivity|]. assert (R1 : (sqrt (1 - m * (sin t * sin t)) <= 1)%R) by (rewrite <- sqrt_1 at 2; apply sqrt_le_1_alt; lra). apply Rle_div_r; lra. }
  split.
  - apply (is_RInt_unique (V := R_CompleteNormedModule)) in H2. rewrite <- H2. apply (is_RInt_unique (V := R_CompleteNormedModule)). apply (is_RInt_ext (fun _ => 0%R)); [intros t _; rewrite (proj1 (E t)); reflexivity|].
    evar_last; [apply (is_RInt_const (V := R_NormedModule))|]. unfold scal; cbn. unfold mult; cbn. ring.
  - assert (C : is_RInt (fun _ => 1%R) 0 (PI / 2) (PI / 2)%R). { evar_last; [apply (is_RInt_const (V := R_NormedModule))|]. unfold scal; cbn. unfold mult; cbn. ring. }
    apply (is_RInt_le (fun _ => 1%R) _ 0 (PI / 2) _ _ ltac:(lra) C H1). intros t _. rewrite (proj1 (E t)). exact (proj2 (E t)).
Qed.
Lemma sc_dos0_pos (ellipk : C -> result C) : computes_K ellipk -> exists a, sc_dos0 ellipk = Ok a /\ (0 < a)%R.
Proof.
  intros HK. assert (HP := PI_RGT_0). assert (S3 := sqrt_sqrt 3 ltac:(lra)). assert (S0 := sqrt_pos 3). assert (SB : (1 < sqrt 3 < 2)%R) by nra. unfold sc_dos0. cbv zeta. set (m := (1 / 4 * (2 - sqrt 3))%R). assert (M : (0 < m < 1)%R) by (unfold m; lra).
  rewrite <- RtoC_minus. destruct (HK (RtoC m) (or_intror (proj2 M))) as (k1 & E1 & L1). assert (M2 : (1 - m < 1)%R) by lra. destruct (HK (RtoC (1 - m)) (or_intror M2)) as (k2 & E2 & L2). rewrite E1, E2. cbn [bind]. eexists. split; [reflexivity|].
  apply legendre_ge in L1; [|lra]. apply legendre_ge in L2; [|lra]. destruct L1 as [I1 R1], L2 as [I2 R2].
  replace (RtoC (2 / (PI * PI)) * k1 * k2 / RtoC PI) with (RtoC (2 / (PI * PI) * fst k1 * fst k2 / PI)).
  - cbn [fst RtoC]. apply Rdiv_lt_0_compat; [|exact HP]. apply Rmult_lt_0_compat; [apply Rmult_lt_0_compat|]; [|lra|lra]. apply Rdiv_lt_0_compat; [lra|nra].
  - rewrite (RtoC_div _ PI) by lra. rewrite !RtoC_mult. f_equal. f_equal; [f_equal|]; apply C_ext; cbn; try reflexivity; symmetry; assumption.
Qed.
Theorem C66_sc_expansion_partial : forall (ellipk : C -> result C) (small small_mp eps : R), computes_K ellipk -> (Rabs eps < small)%R -> (Rabs eps < small_mp)%R ->
  exists v, sc_dos_mp ellipk small_mp eps 3 = Ok v /\ sc_dos ellipk small eps 3 = Ok v.
Proof.
  intros ek s sm eps HK Hs Hm. destruct (sc_dos0_pos ek HK) as (a & Ea & Ha). rewrite (sc_three ek a Ea Ha s sm eps Hs Hm). rewrite (sc_small ek a Ea Ha s eps 3) by (try lra; replace (3 / 3 * eps)%R with eps by field; exact Hs). eexists. split; reflexivity.
Qed.
Print Assumptions C66_sc_expansion_partial.
(** ... but for half_bandwidth = 1 the energy is not rescaled: the functions differ in every neighbourhood of the centre *)
Theorem C66_sc_refuted : exists D : R, (0 < D)%R /\ forall (ellipk : C -> result C) (small small_mp : R), computes_K ellipk -> (0 < small)%R -> (0 < small_mp)%R ->
  exists eps, (0 < eps < small_mp)%R /\ ~ (forall v, sc_dos_mp ellipk small_mp eps D = Ok v <-> sc_dos ellipk small eps D = Ok v).
Proof.
  exists 1%R. split; [lra|]. intros ek s sm HK Hs Hm. destruct (sc_dos0_pos ek HK) as (a & Ea & Ha). destruct (sc_differ ek a Ea Ha s sm Hs Hm) as (eps & B & _ & N). exists eps. split; [exact B|exact N].
Qed.
Print Assumptions C66_sc_refuted.
Example C66_example :
  bethe_dos_mp (3 / 5) 1 = Ok (8 / (5 * PI))%R /\ fcc_dos_mp ellip2 2 1 = Ok 0%R /\ onedim_dos_mp 1 1 = Err ZeroDivisionError /\ onedim_dos 1 1 = Err NonFinite /\
  triangular_dos_mp (fun m => Ok (PI / 2 + PI / 8 * m)%R) (2 / (PI * PI)) (4 / 3) 1 = Ok (sqrt 3 * 3 / (8 * PI))%R.
Proof.
  assert (HP := PI_RGT_0). assert (PP : (0 < PI * PI)%R) by nra. split; [|split; [|split; [|split]]].
  - unfold bethe_dos_mp. rewrite Rabs_pos_eq by lra. destruct (Rlt_dec 1 (3 / 5)); [lra|]. rewrite !mdiv_ok by lra. cbn [bind]. replace (- (3 / 5 / 1 * (3 / 5 / 1) - 1))%R with (4 / 5 * (4 / 5))%R by field. rewrite sqrt_square by lra. f_equal. field. lra.
  - apply (fcc_mp_out ellip2 2 1 ellip2_like); lra.
  - unfold onedim_dos_mp. rewrite Rabs_R1. destruct (Rlt_dec 1 1); [lra|]. rewrite mdiv_ok by lra. cbn [bind]. replace (- (1 / 1 * (1 / 1) - 1))%R with 0%R by field. rewrite sqrt_0, Rmult_0_r. unfold mdiv. destruct (Req_EM_T 0 0); [reflexivity|lra].
  - unfold onedim_dos. rewrite rdiv_ok' by lra. cbn [bind]. replace (1 / 1)%R with 1%R by field. rewrite Rabs_R1. destruct (Rle_dec 1 1); [|lra]. rewrite rdiv_ok' by lra. cbn [bind]. replace (1 - 1 * 1)%R with 0%R by ring. rewrite sqrt_0. unfold rdiv. destruct (Req_EM_T 0 0); [reflexivity|lra].
  - unfold triangular_dos_mp. cbv zeta. rewrite mdiv_ok by lra. cbn [bind]. replace (4 / 3 / (1 * (4 / 9)))%R with 3%R by lra. destruct (Rlt_dec 3 _); [lra|]. destruct (Rlt_dec 3 3); [lra|]. destruct (Rle_dec 3 (- (1))); [lra|].
    replace (2 * 3 + 3)%R with (3 * 3)%R by ring. rewrite sqrt_square by lra. replace (4 * 3)%R with (2 * 2 * 3)%R by ring. rewrite sqrt_mult, sqrt_square by lra. assert (s3 := sqrt_lt_R0 3 ltac:(lra)). rewrite !mdiv_ok by lra. cbn [bind]. f_equal.
    assert (q3 := sqrt_sqrt 3 ltac:(lra)). replace ((3 + 1) * (3 + 1) * (3 + 1) * (3 - 3) / 4 / (2 * 2 * 3))%R with 0%R by field. rewrite Rmult_0_r, Rplus_0_r. replace (sqrt 3 * 3 / (8 * PI))%R with (9 / (8 * PI) * (sqrt 3 * (1 / 3)))%R by (field; lra). replace (sqrt 3 * (1 / 3))%R with (1 / sqrt 3)%R by (apply (Rmult_eq_reg_r (sqrt 3)); [|lra]; replace (sqrt 3 * (1 / 3) * sqrt 3)%R with (sqrt 3 * sqrt 3 / 3)%R by field; rewrite q3; field; lra). field. split; lra.
Qed.

(** ** C67 *)
(** the second derivative [m] of the band in the x direction (inverse mass) weighs the resolvent of the band *)
Theorem C67_stress : forall (ellipk : C -> result C) (D : R) (z : C) (m : R * R -> R), computes_K ellipk -> (0 < D)%R -> snd z <> 0%R \/ (D < Rabs (fst z))%R ->
  (forall k1 k2, is_derive_n (fun x => fst (bloch square (D / 4) (x, k2) 0 0)) 2 k1 (m (k1, k2))) ->
  exists T, square_stress_trafo ellipk z D = Ok T /\ is_bz_average (fun k => RtoC (m k) / (z - bloch square (D / 4) k 0 0)) T.
Proof.
  intros ek D z m HK HD Oz Hm. destruct (C64_square ek D z HK HD Oz) as (G & E & A). unfold square_stress_trafo. rewrite E. cbn [bind]. eexists. split; [reflexivity|]. exact (stress_average D z HD Oz m G Hm A).
Qed.
Print Assumptions C67_stress.
Example C67_example : forall k1 k2, is_derive_n (fun x => fst (bloch square (1 / 4) (x, k2) 0 0)) 2 k1 ((fun k : R * R => - (1 / 2) * cos (fst k))%R (k1, k2)).
Proof.
  intros k1 k2. apply (is_derive_n_ext (fun x => 1 / 2 * cos x + 1 / 2 * cos k2)%R). { intros x. rewrite square_band. unfold p1. cbn [fst RtoC]. field. }
  assert (Z : forall x, Derive (fun x => 1 / 2 * cos x + 1 / 2 * cos k2)%R x = (1 / 2 * - sin x)%R) by (intros x; apply is_derive_unique; auto_derive; [exact I|ring]).
  apply (is_derive_ext (fun x => 1 / 2 * - sin x)%R). { intros x. symmetry. apply Z. } auto_derive; [exact I|cbn; ring].
Qed.
