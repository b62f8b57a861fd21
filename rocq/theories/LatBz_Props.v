(** * C70: the Green's functions given by elliptic integrals are averages over the Brillouin zone *)
From Coq Require Import Reals Lra List ZArith FunctionalExtensionality.
From Coquelicot Require Import Coquelicot.
From Verif Require Import Base CBase CExp CSqrt Lattice_Model Bethe_Proofs LatMom_Spec LatDer_Spec LatDer_Model LatEll_Model LatInt_Spec LatInt_Legendre LatInt_Local LatInt_Square LatBz_Spec LatRect_Main LatTri_Main LatTri_Derived LatBcc_Main LatSc_Main LatFcc_Y LatFcc_Main LatCut_Spec LatCut_Proofs LatDer_Props.
Local Open Scope C_scope.

(** ** the rectangular lattice: with a correct elliptic integral the Green's function is the average of the resolvent of
    the band with the hopping amplitudes t and scale t, where half_bandwidth = 2 t (1 + scale) *)
Theorem C70_rectangular : forall (ellipk : C -> result C) (D scale : R) (z : C), computes_K ellipk -> (0 < D)%R -> (0 <= scale)%R ->
  snd z <> 0%R \/ (D < Rabs (fst z))%R ->
  exists G, rectangular_gf_z ellipk z D scale = Ok G /\ is_bz_average (fun k => 1 / (z - rectangular_band (D / (1 + scale) / 2) scale k)) G.
Proof. intros ek D s z HK HD Hs O. exact (rect_average ek HK D s z HD Hs O). Qed.
Print Assumptions C70_rectangular.
(** equal amplitudes give the Green's function of the square lattice *)
Theorem C70_rectangular_square : forall (ellipk : C -> result C) (D : R) (z : C), computes_K ellipk -> (0 < D)%R -> snd z <> 0%R \/ (D < Rabs (fst z))%R ->
  exists G, rectangular_gf_z ellipk z D 1 = Ok G /\ square_gf_z ellipk z D = Ok G.
Proof.
  intros ek D z HK HD O. destruct (rect_average ek HK D 1 z HD ltac:(lra) O) as (G & E & A). destruct (square_average D HD ek HK z O) as (G' & E' & A'). exists G. split; [exact E|].
  rewrite E'. f_equal. apply average_mean in A, A'. rewrite <- A, <- A'. f_equal. apply functional_extensionality. intros [k1 k2]. rewrite square_band, rect_band. do 3 f_equal. unfold p1. field.
Qed.
Print Assumptions C70_rectangular_square.

(** the elliptic integral of LatInt_Legendre meets the hypothesis; an anisotropic lattice just above the band centre *)
Example C70_rectangular_example : exists G, rectangular_gf_z ellipk_legendre (1 / 5, 1 / 100)%R 3 (1 / 2) = Ok G /\ is_bz_average (fun k => 1 / ((1 / 5, 1 / 100)%R - rectangular_band 1 (1 / 2) k)) G.
Proof.
  destruct (C70_rectangular ellipk_legendre 3 (1 / 2) (1 / 5, 1 / 100)%R) as (G & E & A); [exact legendre_K_ok|lra|lra|left; cbn; lra|]. exists G. split; [exact E|]. replace (3 / (1 + 1 / 2) / 2)%R with 1%R in A by field. exact A.
Qed.

(** ** the triangular lattice, off the curve on which the parameter of the elliptic integral is on its cut: the hopping
    amplitude is 2/9 half_bandwidth.  The frequency -1 is excluded because the mask for the singularity of the band
    is applied to it for every half_bandwidth *)
Theorem C70_triangular : forall (ellipk : C -> result C) (D : R) (z : C), computes_K ellipk -> (0 < D)%R ->
  snd z <> 0%R \/ (fst z < - (2 / 3 * D))%R \/ (4 / 3 * D < fst z)%R -> z <> - (1) -> ~ tri_cut (z / RtoC (D * 4 / 9)) ->
  exists G, triangular_gf_z ellipk z D = Ok G /\ is_bz_average (fun k => 1 / (z - bloch triangular (D * 4 / 9 / 2) k 0 0)) G.
Proof. intros ek D z HK HD O N NC. exact (tri_average ek HK D z HD O N (fun X => False_ind _ (NC X))). Qed.
Print Assumptions C70_triangular.
(** the exclusion is needed: below the band of every half_bandwidth < 3/2 the average exists at z = -1, the code gives -i oo *)
Theorem C70_triangular_mask_refuted : forall (ellipk : C -> result C) (D : R), (0 < D < 3 / 2)%R ->
  triangular_gf_z ellipk (- (1)) D = Err NonFinite /\ exists G, is_bz_average (fun k => 1 / (- (1) - bloch triangular (D * 4 / 9 / 2) k 0 0)) G.
Proof.
  intros ek D HD. assert (N : (D * 4 / 9 <> 0)%R) by lra. assert (P : (0 < / (D * 4 / 9))%R) by (apply Rinv_0_lt_compat; lra). split.
  - unfold triangular_gf_z. rewrite rdiv_ok by lra. cbn [bind]. cbv zeta. replace (snd (RtoC (1 / (D * 4 / 9)) * - (1))) with 0%R by (cbn; ring). unfold cneg. destruct (Rlt_dec 0 0) as [L|_]; [lra|].
    destruct (Ceq_dec _ _) as [_|X]; [reflexivity|exfalso; apply X]. apply C_ext; cbn; field; lra.
  - eexists. apply (tri_avg (RtoC (/ (D * 4 / 9)) * - (1)) (- (1)) (D * 4 / 9)); [lra| |].
    + apply C_ext; cbn; field; lra.
    + right. left. cbn. assert (/ (2 / 3) < / (D * 4 / 9))%R by (apply Rinv_lt_contravar; [apply Rmult_lt_0_compat; lra|lra]). replace (/ (2 / 3))%R with (3 / 2)%R in H by field. lra.
Qed.
Print Assumptions C70_triangular_mask_refuted.
Lemma not_cut : ~ tri_cut (- (3 / 2), 1)%R.
Proof.
  intros ([x y] & q & _ & E1 & E2 & Q). apply (f_equal fst) in E1 as A1. apply (f_equal snd) in E1 as A2. apply (f_equal fst) in E2 as B1. apply (f_equal snd) in E2 as B2. cbn in A1, A2, B1, B2.
  assert (X : ((x - y) * (x + y) = 0)%R) by nra. assert (XY : (x * y = 1)%R) by lra. apply Rmult_integral in X. destruct X as [X|X]; [|nra]. assert (Y : y = x) by lra. subst y.
  assert (S : ((x - 1) * (x + 1) = 0)%R) by lra. apply Rmult_integral in S. destruct S as [S|S]; [assert (V : x = 1%R) by lra|assert (V : x = (-1)%R) by lra]; subst x; lra.
Qed.
(** a frequency in the upper half plane *)
Example C70_triangular_example : exists G, triangular_gf_z ellipk_legendre (- (3 / 2), 1)%R (9 / 4) = Ok G /\ is_bz_average (fun k => 1 / ((- (3 / 2), 1)%R - bloch triangular (1 / 2) k 0 0)) G.
Proof.
  destruct (C70_triangular ellipk_legendre (9 / 4) (- (3 / 2), 1)%R) as (G & E & A); [exact legendre_K_ok|lra|left; cbn; lra|intros E; apply (f_equal snd) in E; cbn in E; lra| |].
  - replace (9 / 4 * 4 / 9)%R with 1%R by field. rewrite div1. exact not_cut.
  - exists G. split; [exact E|]. replace (9 / 4 * 4 / 9 / 2)%R with (1 / 2)%R in A by field. exact A.
Qed.

(** ** the honeycomb and the kagome lattice: wherever the resolvent of the Bloch Hamiltonian exists for all wave vectors,
    the Green's function is the mean of its site average; the parameter of the triangular lattice is off the cut *)
Theorem C70_honeycomb : forall (ellipk : C -> result C) (D : R) (z : C) (G : R * R -> nat -> nat -> C), computes_K ellipk -> (0 < D)%R ->
  ~ tri_cut (2 * (z / RtoC (D / (3 / 2)) * (z / RtoC (D / (3 / 2)))) - RtoC (3 / 2)) ->
  (forall k, is_resolvent 2 (bloch honeycomb (2 * D / 3 / 2) k) z (G k)) -> honeycomb_gf_z (triangular_gf_z ellipk) z D = Ok (bz_mean (fun k => site_average 2 (G k))).
Proof. intros ek D z G HK HD N HG. exact (honeycomb_avg ek HK D z G HD (fun X => False_ind _ (N X)) HG). Qed.
Print Assumptions C70_honeycomb.
Theorem C70_kagome : forall (ellipk : C -> result C) (D : R) (z : C) (G : R * R -> nat -> nat -> C), computes_K ellipk -> (0 < D)%R ->
  ~ tri_cut (2 * ((z - RtoC (D / 3)) / RtoC (D / (3 / 2)) * ((z - RtoC (D / 3)) / RtoC (D / (3 / 2)))) - RtoC (3 / 2)) ->
  (forall k, is_resolvent 3 (bloch kagome (2 * D / 3 / 2) k) z (G k)) -> kagome_gf_z (triangular_gf_z ellipk) z D = Ok (bz_mean (fun k => site_average 3 (G k))).
Proof. intros ek D z G HK HD N HG. exact (kagome_avg ek HK D z G HD (fun X => False_ind _ (N X)) HG). Qed.
Print Assumptions C70_kagome.

(** the honeycomb lattice with hopping amplitude 1 at a frequency above the band *)
Example C70_honeycomb_example : honeycomb_gf_z (triangular_gf_z ellipk_legendre) 5 3 = Ok (bz_mean (fun k => site_average 2 (res_example k))).
Proof.
  apply C70_honeycomb; [exact legendre_K_ok|lra| |exact res_example_ok]. intros ([x y] & q & _ & E1 & E2 & Q). replace (3 / (3 / 2))%R with 2%R in E1 by field. rewrite div_real in E1 by lra. cbn [fst snd] in E1.
  apply (f_equal fst) in E1 as A1. apply (f_equal snd) in E1 as A2. apply (f_equal fst) in E2 as B1. cbn in A1, A2, B1. assert (XY : (x * y = 0)%R) by lra. apply Rmult_integral in XY. destruct XY as [X|X]; subst; [nra|].
  assert (S : ((x - 5) * (x + 5) = 0)%R) by lra. apply Rmult_integral in S. destruct S as [S|S]; [assert (V : x = 5%R) by lra|assert (V : x = (-5)%R) by lra]; subst x; lra.
Qed.

(** ** the body-centred cubic lattice, hopping amplitude half_bandwidth / 8: the elliptic integral is never evaluated on
    its cut *)
Theorem C70_bcc : forall (ellipk : C -> result C) (D : R) (z : C), computes_K ellipk -> (0 < D)%R -> snd z <> 0%R \/ (D < Rabs (fst z))%R ->
  exists G, bcc_gf_z ellipk z D = Ok G /\ is_bz_average3 (fun k => 1 / (z - band3 body_centered (D / 8) k)) G.
Proof. exact bcc_average. Qed.
Print Assumptions C70_bcc.
Example C70_bcc_example : exists G, bcc_gf_z ellipk_legendre (1 / 5, 1 / 100)%R 8 = Ok G /\ is_bz_average3 (fun k => 1 / ((1 / 5, 1 / 100)%R - band3 body_centered 1 k)) G.
Proof.
  destruct (C70_bcc ellipk_legendre 8 (1 / 5, 1 / 100)%R) as (G & E & A); [exact legendre_K_ok|lra|left; cbn; lra|]. exists G. split; [exact E|]. replace (8 / 8)%R with 1%R in A by field. exact A.
Qed.

(** ** the simple cubic lattice; half_bandwidth = 6 t *)
Theorem C70_sc : forall (ellipk : C -> result C) (D : R) (z : C), computes_K ellipk -> (0 < D)%R -> snd z <> 0%R \/ (D < Rabs (fst z))%R ->
  exists G, sc_gf_z ellipk z D = Ok G /\ is_bz_average3 (fun k => 1 / (z - band3 simple_cubic (D / 6) k)) G.
Proof. exact sc_average. Qed.
Print Assumptions C70_sc.
Example C70_sc_example : exists G, sc_gf_z ellipk_legendre (1 / 5, 1 / 100)%R 6 = Ok G /\ is_bz_average3 (fun k => 1 / ((1 / 5, 1 / 100)%R - band3 simple_cubic 1 k)) G.
Proof.
  destruct (C70_sc ellipk_legendre 6 (1 / 5, 1 / 100)%R) as (G & E & A); [exact legendre_K_ok|lra|left; cbn; lra|]. exists G. split; [exact E|]. replace (6 / 6)%R with 1%R in A by field. exact A.
Qed.

(** ** the face-centred cubic lattice, band from - half_bandwidth / 2 to 3 half_bandwidth / 2, hopping amplitude
    half_bandwidth / 8; the parameter of the elliptic integral is off the cut *)
Theorem C70_fcc : forall (ellipk : C -> result C) (D : R) (z : C), computes_K ellipk -> (0 < D)%R ->
  snd z <> 0%R \/ (fst z < - (D / 2))%R \/ (3 / 2 * D < fst z)%R -> ~ fcc_cut (z / RtoC (D / 2)) ->
  exists G, fcc_gf_z ellipk z D = Ok G /\ is_bz_average3 (fun k => 1 / (z - band3 face_centered (D / 8) k)) G.
Proof. exact fcc_average. Qed.
Print Assumptions C70_fcc.
(** on the real axis outside of the band the cut is never met *)
Theorem C70_fcc_real : forall (ellipk : C -> result C) (D x : R), computes_K ellipk -> (0 < D)%R -> (x < - (D / 2) \/ 3 / 2 * D < x)%R ->
  exists G, fcc_gf_z ellipk (RtoC x) D = Ok G /\ is_bz_average3 (fun k => 1 / (RtoC x - band3 face_centered (D / 8) k)) G.
Proof. intros ek D x HK HD H. apply fcc_average; [exact HK|exact HD|right; exact H|]. exact (fcc_real_nocut D x HD H). Qed.
Print Assumptions C70_fcc_real.
Lemma fcc_not_cut : ~ fcc_cut (- (1097 / 3145), 8736 / 3145)%R.
Proof.
  intros X. apply (fcc_cut_T _ (3, 1)%R) in X; [|cbn; lra|unfold nrm; cbn; lra|apply C_ext; cbn; lra]. destruct X as (q & E & _). apply (f_equal fst) in E as E1. apply (f_equal snd) in E as E2. cbn in E1, E2. lra.
Qed.
(** a frequency in the upper half plane, within the band: z = -1097/3145 + 8736/3145 i *)
Example C70_fcc_example : exists G, fcc_gf_z ellipk_legendre (- (1097 / 3145), 8736 / 3145)%R 2 = Ok G /\ is_bz_average3 (fun k => 1 / ((- (1097 / 3145), 8736 / 3145)%R - band3 face_centered (1 / 4) k)) G.
Proof.
  destruct (C70_fcc ellipk_legendre 2 (- (1097 / 3145), 8736 / 3145)%R) as (G & E & A); [exact legendre_K_ok|lra|left; cbn; lra| |].
  - replace (2 / 2)%R with 1%R by field. rewrite div1. exact fcc_not_cut.
  - exists G. split; [exact E|]. replace (2 / 8)%R with (1 / 4)%R in A by field. exact A.
Qed.
(** a frequency below the band *)
Example C70_fcc_real_example : exists G, fcc_gf_z ellipk_legendre (RtoC (- (2))) 2 = Ok G /\ is_bz_average3 (fun k => 1 / (RtoC (- (2)) - band3 face_centered (1 / 4) k)) G.
Proof. destruct (C70_fcc_real ellipk_legendre 2 (- (2))) as (G & E & A); [exact legendre_K_ok|lra|left; lra|]. exists G. split; [exact E|]. replace (2 / 8)%R with (1 / 4)%R in A by field. exact A. Qed.

(** ** on the curves where the parameter of the elliptic integral is on its cut the result depends on the side from which
    the elliptic integral is continuous there: from above the Green's functions are right for all frequencies off the
    band, from below (the convention of mpmath) they are wrong on the curves *)
Theorem C70_triangular_above : forall (ellipk : C -> result C) (D : R) (z : C), computes_K ellipk -> cut_from_above ellipk -> (0 < D)%R ->
  snd z <> 0%R \/ (fst z < - (2 / 3 * D))%R \/ (4 / 3 * D < fst z)%R -> z <> - (1) ->
  exists G, triangular_gf_z ellipk z D = Ok G /\ is_bz_average (fun k => 1 / (z - bloch triangular (D * 4 / 9 / 2) k 0 0)) G.
Proof. intros ek D z HK HA HD O N. exact (tri_average ek HK D z HD O N (fun _ x => above_val ek x HA)). Qed.
Print Assumptions C70_triangular_above.
Theorem C70_honeycomb_above : forall (ellipk : C -> result C) (D : R) (z : C) (G : R * R -> nat -> nat -> C), computes_K ellipk -> cut_from_above ellipk -> (0 < D)%R ->
  (forall k, is_resolvent 2 (bloch honeycomb (2 * D / 3 / 2) k) z (G k)) -> honeycomb_gf_z (triangular_gf_z ellipk) z D = Ok (bz_mean (fun k => site_average 2 (G k))).
Proof. intros ek D z G HK HA HD HG. exact (honeycomb_avg ek HK D z G HD (fun _ x => above_val ek x HA) HG). Qed.
Print Assumptions C70_honeycomb_above.
Theorem C70_kagome_above : forall (ellipk : C -> result C) (D : R) (z : C) (G : R * R -> nat -> nat -> C), computes_K ellipk -> cut_from_above ellipk -> (0 < D)%R ->
  (forall k, is_resolvent 3 (bloch kagome (2 * D / 3 / 2) k) z (G k)) -> kagome_gf_z (triangular_gf_z ellipk) z D = Ok (bz_mean (fun k => site_average 3 (G k))).
Proof. intros ek D z G HK HA HD HG. exact (kagome_avg ek HK D z G HD (fun _ x => above_val ek x HA) HG). Qed.
Print Assumptions C70_kagome_above.
Theorem C70_fcc_above : forall (ellipk : C -> result C) (D : R) (z : C), computes_K ellipk -> cut_from_above ellipk -> (0 < D)%R ->
  snd z <> 0%R \/ (fst z < - (D / 2))%R \/ (3 / 2 * D < fst z)%R ->
  exists G, fcc_gf_z ellipk z D = Ok G /\ is_bz_average3 (fun k => 1 / (z - band3 face_centered (D / 8) k)) G.
Proof. exact fcc_average_above. Qed.
Print Assumptions C70_fcc_above.
(** an elliptic integral meeting the hypotheses, at a frequency on the curve *)
Example C70_fcc_above_example : exists ellipk z, computes_K ellipk /\ cut_from_above ellipk /\ fcc_cut z /\
  exists G, fcc_gf_z ellipk z 2 = Ok G /\ is_bz_average3 (fun k => 1 / (z - band3 face_centered (1 / 4) k)) G.
Proof.
  destruct fcc_cut_point as (z & Hz & Hc). exists ellipk_above, z. split; [exact ellipk_above_K|]. split; [exact ellipk_above_cut|]. split; [exact Hc|].
  destruct (C70_fcc_above ellipk_above 2 z ellipk_above_K ellipk_above_cut) as (G & E & A); [lra|left; lra|]. exists G. split; [exact E|]. replace (2 / 8)%R with (1 / 4)%R in A by field. exact A.
Qed.
Example C70_triangular_above_example : exists G, triangular_gf_z ellipk_above (RtoC (- sqrt 3)) (9 / 4) = Ok G /\ is_bz_average (fun k => 1 / (RtoC (- sqrt 3) - bloch triangular (1 / 2) k 0 0)) G.
Proof.
  assert (S := sqrt3_gt). destruct (C70_triangular_above ellipk_above (9 / 4) (RtoC (- sqrt 3)) ellipk_above_K ellipk_above_cut) as (G & E & A); [lra|right; left; cbn; lra|intros E; apply (f_equal fst) in E; cbn in E; lra|].
  exists G. split; [exact E|]. replace (9 / 4 * 4 / 9 / 2)%R with (1 / 2)%R in A by field. exact A.
Qed.
(** with the other convention the triangular lattice is wrong at z = - sqrt 3 below the band [-3/2, 3] *)
Theorem C70_triangular_below_refuted : forall ellipk : C -> result C, computes_K ellipk -> cut_from_below ellipk ->
  exists G A, triangular_gf_z ellipk (RtoC (- sqrt 3)) (9 / 4) = Ok G /\ is_bz_average (fun k => 1 / (RtoC (- sqrt 3) - bloch triangular (1 / 2) k 0 0)) A /\ G <> A.
Proof. exact tri_below_sqrt3. Qed.
Print Assumptions C70_triangular_below_refuted.
Theorem C70_fcc_below_refuted : forall ellipk : C -> result C, computes_K ellipk -> cut_from_below ellipk ->
  exists z G A, snd z <> 0%R /\ fcc_gf_z ellipk z 2 = Ok G /\ is_bz_average3 (fun k => 1 / (z - band3 face_centered (1 / 4) k)) A /\ G <> A.
Proof.
  intros ek HK HB. destruct fcc_cut_point as (z & Hz & Hc). destruct (fcc_below ek 1 z HK HB ltac:(lra) Hz Hc) as (G & A & E1 & E2 & N). exists z, G, A. rewrite Cmult_1_l in E1. replace (2 * 1)%R with 2%R in E1 by ring.
  split; [lra|]. split; [exact E1|]. split; [|exact N]. apply is_bz3_ext with (2 := E2). intros k. rewrite Cmult_1_l. reflexivity.
Qed.
Print Assumptions C70_fcc_below_refuted.
Example C70_below_example : computes_K ellipk_below /\ cut_from_below ellipk_below.
Proof. split; [exact ellipk_below_K|exact ellipk_below_cut]. Qed.
