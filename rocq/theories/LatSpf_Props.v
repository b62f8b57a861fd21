(** * C71: the densities of states given by elliptic integrals are the spectral functions of their own lattices *)
From Coq Require Import Reals Lra Lia List FunctionalExtensionality.
From Coquelicot Require Import Coquelicot.
From Verif Require Import Base CBase Lattice_Model Bethe_Main LatMom_Spec LatDer_Spec LatDer_Model LatDer_Dos LatEll_Model LatEll_Proofs LatEll_Dos LatInt_Spec LatInt_Local LatInt_Legendre CAnal CHol CEll CHolo LatBz_Spec LatBcc_Main LatSc_Main LatTri_Main LatCut_Spec LatCut_Proofs LatRect_Main LatSpf_Spec LatSpf_Proofs LatSpf_Tri LatSpf_Sc LatSpf_Fcc LatSpf_Edge LatSpf_Der LatRdos_Model LatSpf_Rect.
Local Open Scope C_scope.

(** The spectral function is the limit over the whole upper half plane; the excluded energies are the band edges and the van
    Hove singularities, where the limit need not exist, and the flat bands. *)
Theorem C71_square : forall (ellipkm1 : R -> result R) (D e : R), computes_Km1 ellipkm1 -> (0 < D)%R -> e <> 0%R -> Rabs e <> D ->
  exists d, square_dos ellipkm1 e D = Ok d /\ spectral (fun z => is_bz_average (fun k => 1 / (z - bloch square (D / 4) k 0 0))) e d.
Proof.
  intros km1 D e HM HD N0 N1. destruct (square_bd ellipk_above km1 D e) as (g & B & E); try assumption; try exact ellipk_above_K. eexists. split; [exact E|]. apply (spectral_bd _ _ _ _ _ B).
  intros w G Hw EG. destruct (square_average D HD ellipk_above ellipk_above_K w ltac:(left; lra)) as (G' & E' & A). rewrite EG in E'. injection E' as ->. exact A.
Qed.
Print Assumptions C71_square.
(** the rectangular lattice, hopping amplitudes t and scale t with t = D/(1 + scale)/2 *)
Theorem C71_rectangular : forall (ellipk : C -> result C) (feps D scale e : R), computes_K ellipk -> cut_from_above ellipk \/ cut_from_below ellipk -> (0 < D)%R -> (0 < scale)%R ->
  Rabs e <> D -> ((1 + scale) * Rabs e <> D * Rabs (scale - 1))%R ->
  exists d, rectangular_dos ellipk feps e D scale = Ok d /\ spectral (fun z => is_bz_average (fun k => 1 / (z - rectangular_band (D / (1 + scale) / 2) scale k))) e d.
Proof.
  intros ek feps D s e HK HC HD Hs N1 N2. destruct (rect_excl D s e HD ltac:(lra) N1 N2) as [Nq Ne]. destruct (rect_bd D s e HD ltac:(lra) Nq Ne) as (g & B & V).
  exists (- snd g / PI)%R. split; [rewrite V; exact (rect_dos_val ek D s e feps HK HC HD Hs Nq Ne)|]. apply (spectral_bd _ _ _ _ _ B).
  intros w G Hw EG. destruct (rect_average ellipk_above ellipk_above_K D s w HD ltac:(lra) ltac:(left; lra)) as (G' & E' & A). rewrite EG in E'. injection E' as ->. exact A.
Qed.
Print Assumptions C71_rectangular.
(** scale = 0, decoupled chains: gf_z is defined, the spectral function exists, and dos divides by zero *)
Theorem C71_rectangular_scale0_refuted : forall (ellipk : C -> result C) (feps D e : R), (0 < D)%R -> Rabs e <> D ->
  (exists d, spectral (fun z => is_bz_average (fun k => 1 / (z - rectangular_band (D / 2) 0 k))) e d) /\ rectangular_dos ellipk feps e D 0 = Err NonFinite.
Proof.
  intros ek feps D e HD N1. split.
  - destruct (rect_excl D 0 e HD ltac:(lra) N1) as [Nq Ne]; [rewrite (Rabs_left (0 - 1)) by lra; lra|]. destruct (rect_bd D 0 e HD ltac:(lra) Nq Ne) as (g & B & _). exists (- snd g / PI)%R. apply (spectral_bd _ _ _ _ _ B).
    intros w G Hw EG. destruct (rect_average ellipk_above ellipk_above_K D 0 w HD ltac:(lra) ltac:(left; lra)) as (G' & E' & A). rewrite EG in E'. injection E' as ->. replace (D / 2)%R with (D / (1 + 0) / 2)%R by field. exact A.
  - unfold rectangular_dos. rewrite rdiv_ok' by lra. cbn [bind]. rewrite rsqrt_ok, sqrt_0 by lra. cbn [bind]. unfold rdiv at 1. destruct (Req_EM_T 0 0) as [_|X]; [reflexivity|contradiction].
Qed.
Print Assumptions C71_rectangular_scale0_refuted.
Theorem C71_triangular : forall (ellipkm1 : R -> result R) (D e : R), computes_Km1 ellipkm1 -> (0 < D)%R ->
  e <> (- (2 / 3) * D)%R -> e <> (- (4 / 9) * D)%R -> e <> (4 / 3 * D)%R ->
  exists d, triangular_dos ellipkm1 e D = Ok d /\ spectral (fun z => is_bz_average (fun k => 1 / (z - bloch triangular (D * 4 / 9 / 2) k 0 0))) e d.
Proof.
  intros km1 D e HM HD N1 N2 N3. destruct (tri_bd ellipk_above km1 D ellipk_above_K ellipk_above_cut HM HD e) as (g & B & E); try lra. eexists. split; [exact E|]. apply (spectral_bd _ _ _ _ _ B).
  intros w G Hw EG. destruct (tri_average ellipk_above ellipk_above_K D w HD ltac:(left; lra)) as (G' & E' & A).
  - intros X. rewrite X in Hw. cbn in Hw. lra.
  - exact (fun _ x => above_val _ x ellipk_above_cut).
  - rewrite EG in E'. injection E' as ->. exact A.
Qed.
Print Assumptions C71_triangular.
Theorem C71_bcc : forall (ellipk : C -> result C) (D e : R), computes_K ellipk -> (0 < D)%R -> e <> 0%R ->
  exists d, bcc_dos ellipk e D = Ok d /\ spectral (fun z => is_bz_average3 (fun k => 1 / (z - band3 body_centered (D / 8) k))) e d.
Proof.
  intros ek D e HK HD N0. destruct (bcc_boundary ek e D (elliptic_like_K ek HK) HD N0) as (g & B & E).
  eexists. split; [exact E|]. apply (spectral_bd _ _ _ _ _ B).
  intros w G Hw EG. destruct (bcc_average ek D w HK HD ltac:(left; lra)) as (G' & E' & A). rewrite EG in E'. injection E' as ->. exact A.
Qed.
Print Assumptions C71_bcc.
(** outside of the interval |3 e / D| < small in which the code replaces the density by an expansion *)
Theorem C71_sc : forall (ellipk : C -> result C) (D e small : R), computes_K ellipk -> (0 < D)%R -> e <> 0%R -> (small <= 3 / D * Rabs e)%R ->
  exists d, sc_dos ellipk small e D = Ok d /\ spectral (fun z => is_bz_average3 (fun k => 1 / (z - band3 simple_cubic (D / 6) k))) e d.
Proof.
  intros ek D e small HK HD N0 N1. destruct (sc_bd ek D e small HK HD N0 N1) as (g & B & E). eexists. split; [exact E|]. apply (spectral_bd _ _ _ _ _ B).
  intros w G Hw EG. destruct (sc_average ek D w HK HD ltac:(left; lra)) as (G' & E' & A). rewrite EG in E'. injection E' as ->. exact A.
Qed.
Print Assumptions C71_sc.
(** the side of the branch cut matters at a single energy *)
Theorem C71_fcc : forall (ellipk : C -> result C) (D e : R), computes_K ellipk -> (0 < D)%R -> e <> (- (1 / 2) * D)%R ->
  (e = (1 / 2 * D)%R -> cut_from_above ellipk \/ cut_from_below ellipk) ->
  exists d, fcc_dos ellipk e D = Ok d /\ spectral (fun z => is_bz_average3 (fun k => 1 / (z - band3 face_centered (D / 8) k))) e d.
Proof.
  intros ek D e HK HD N0 NC. assert (X : exists g, boundary (fcc_gf_z ellipk_above) e D g /\ fcc_dos ek e D = Ok (- snd g / PI)%R).
  { destruct (Req_EM_T e (3 / 2 * D)) as [->|N1]; [exact (fcc_bd_edge ek D HD)|exact (fcc_bd ek D HK HD e N0 N1 NC)]. }
  destruct X as (g & B & E). eexists. split; [exact E|]. apply (spectral_bd _ _ _ _ _ B).
  intros w G Hw EG. destruct (fcc_average_above ellipk_above D w ellipk_above_K ellipk_above_cut HD ltac:(left; lra)) as (G' & E' & A). rewrite EG in E'. injection E' as ->. exact A.
Qed.
Print Assumptions C71_fcc.
(** several sites in the unit cell: the average over the sites; the flat bands at e = 0 and e = -2/3 D are the delta peaks
    which the densities of states leave out *)
Theorem C71_lieb : forall (ellipkm1 : R -> result R) (D e : R), computes_Km1 ellipkm1 -> (0 < D)%R -> e <> 0%R -> (2 * (e * e) <> D * D)%R -> Rabs e <> D ->
  exists d, lieb_dos (square_dos ellipkm1) e D = Ok d /\ spectral (is_lattice_gf 3 lieb (D / sqrt 8)) e d.
Proof.
  intros km1 D e HM HD N0 N1 N2. set (x0 := (8 * ((e / D) * (e / D)) - 4)%R). assert (Ex : (x0 * (D * D) = 8 * (e * e) - 4 * (D * D))%R) by (unfold x0; field; lra). assert (DD : (0 < D * D)%R) by nra.
  assert (X0 : x0 <> 0%R) by (intros X; rewrite X in Ex; apply N1; lra).
  assert (X4 : Rabs x0 <> 4%R).
  { intros X. unfold Rabs in X. destruct (Rcase_abs x0) as [L|L].
    - replace x0 with (-4)%R in Ex by lra. apply N0. nra.
    - rewrite X in Ex. apply N2. assert (Q : (e * e = D * D)%R) by lra. destruct (Rcase_abs e) as [S|S]; [rewrite Rabs_left by lra|rewrite Rabs_right by lra]; nra. }
  destruct (square_bd ellipk_above km1 4 x0) as (g & B & E); try assumption; try exact ellipk_above_K; try lra.
  destruct (lieb_boundary (square_gf_z ellipk_above) (square_dos km1) D e g HD N0 (square_reflects ellipk_above ellipk_above_K 4 ltac:(lra)) (square_dos_scales km1) B E) as (g' & B' & E').
  eexists. split; [exact E'|]. apply (spectral_bd _ _ _ _ _ B'). intros w G Hw EG. exact (lieb_lat ellipk_above ellipk_above_K D w G HD Hw EG).
Qed.
Print Assumptions C71_lieb.
Theorem C71_honeycomb : forall (ellipkm1 : R -> result R) (D e : R), computes_Km1 ellipkm1 -> (0 < D)%R -> e <> 0%R -> Rabs e <> (D / 3)%R -> Rabs e <> D ->
  exists d, honeycomb_dos (triangular_dos ellipkm1) e D = Ok d /\ spectral (is_lattice_gf 2 honeycomb (2 * D / 3 / 2)) e d.
Proof.
  intros km1 D e HM HD N0 N1 N2. set (x0 := (2 * ((e / (D / (3 / 2))) * (e / (D / (3 / 2)))) - 3 / 2)%R). destruct (hc_arg D e HD N0 N1 N2) as (X1 & X2 & X3).
  destruct (tri_bd ellipk_above km1 (9 / 4) ellipk_above_K ellipk_above_cut HM ltac:(lra) x0) as (g & B & E); try (unfold x0; lra).
  destruct (honeycomb_boundary (triangular_gf_z ellipk_above) (triangular_dos km1) D e g HD N0 (tri_reflects ellipk_above (9 / 4) ltac:(lra)) B E) as (g' & B' & E').
  eexists. split; [exact E'|]. apply (spectral_bd _ _ _ _ _ B'). intros w G Hw EG. exact (honeycomb_lat ellipk_above ellipk_above_K ellipk_above_cut D w G HD Hw EG).
Qed.
Print Assumptions C71_honeycomb.
Theorem C71_kagome : forall (ellipkm1 : R -> result R) (D e : R), computes_Km1 ellipkm1 -> (0 < D)%R ->
  e <> (- (2 / 3) * D)%R -> e <> 0%R -> e <> (D / 3)%R -> e <> (2 / 3 * D)%R -> e <> (4 / 3 * D)%R ->
  exists d, kagome_dos (triangular_dos ellipkm1) e D = Ok d /\ spectral (is_lattice_gf 3 kagome (2 * D / 3 / 2)) e d.
Proof.
  intros km1 D e HM HD N0 N1 N2 N3 N4. set (x0 := (2 * (((e - D / 3) / (D / (3 / 2))) * ((e - D / 3) / (D / (3 / 2)))) - 3 / 2)%R).
  destruct (hc_arg D (e - D / 3) HD) as (X1 & X2 & X3); [lra|unfold Rabs; destruct (Rcase_abs _); lra|unfold Rabs; destruct (Rcase_abs _); lra|].
  destruct (tri_bd ellipk_above km1 (9 / 4) ellipk_above_K ellipk_above_cut HM ltac:(lra) x0) as (g & B & E); try (unfold x0; lra).
  destruct (kagome_boundary (triangular_gf_z ellipk_above) (triangular_dos km1) D e g HD N2 ltac:(lra) (tri_reflects ellipk_above (9 / 4) ltac:(lra)) B E) as (g' & B' & E').
  eexists. split; [exact E'|]. apply (spectral_bd _ _ _ _ _ B'). intros w G Hw EG. exact (kagome_lat ellipk_above ellipk_above_K ellipk_above_cut D w G HD Hw EG).
Qed.
Print Assumptions C71_kagome.

(** Legendre's integral as oracle, inside of the bands *)
Definition km1_legendre (p : R) : result R := Ok (fst (Kf (RtoC (1 - p)))).
Lemma km1_legendre_ok : computes_Km1 km1_legendre.
Proof.
  intros p Hp. eexists. split; [reflexivity|]. assert (O : offK (RtoC (1 - p))) by (right; cbn; lra). replace (RtoC (fst (Kf (RtoC (1 - p))))) with (Kf (RtoC (1 - p))); [apply Kf_is, O|].
  apply C_ext; cbn [fst snd RtoC]; [reflexivity|]. apply Kf_im_R. lra.
Qed.
(** half_bandwidth 1, energy 1/2; the simple cubic lattice with the threshold 10^-5 of the code *)
Example C71_example :
  (exists d, square_dos km1_legendre (1 / 2) 1 = Ok d /\ spectral (fun z => is_bz_average (fun k => 1 / (z - bloch square (1 / 4) k 0 0))) (1 / 2) d) /\
  (exists d, rectangular_dos ellipk_above (1 / 1000000) (1 / 2) 1 2 = Ok d /\ spectral (fun z => is_bz_average (fun k => 1 / (z - rectangular_band (1 / (1 + 2) / 2) 2 k))) (1 / 2) d) /\
  (exists d, triangular_dos km1_legendre (1 / 2) 1 = Ok d /\ spectral (fun z => is_bz_average (fun k => 1 / (z - bloch triangular (1 * 4 / 9 / 2) k 0 0))) (1 / 2) d) /\
  (exists d, bcc_dos ellipk_legendre (1 / 2) 1 = Ok d /\ spectral (fun z => is_bz_average3 (fun k => 1 / (z - band3 body_centered (1 / 8) k))) (1 / 2) d) /\
  (exists d, sc_dos ellipk_legendre (1 / 100000) (1 / 2) 1 = Ok d /\ spectral (fun z => is_bz_average3 (fun k => 1 / (z - band3 simple_cubic (1 / 6) k))) (1 / 2) d) /\
  (exists d, fcc_dos ellipk_above (1 / 2) 1 = Ok d /\ spectral (fun z => is_bz_average3 (fun k => 1 / (z - band3 face_centered (1 / 8) k))) (1 / 2) d) /\
  (exists d, lieb_dos (square_dos km1_legendre) (1 / 2) 1 = Ok d /\ spectral (is_lattice_gf 3 lieb (1 / sqrt 8)) (1 / 2) d) /\
  (exists d, honeycomb_dos (triangular_dos km1_legendre) (1 / 2) 1 = Ok d /\ spectral (is_lattice_gf 2 honeycomb (2 * 1 / 3 / 2)) (1 / 2) d) /\
  (exists d, kagome_dos (triangular_dos km1_legendre) (1 / 2) 1 = Ok d /\ spectral (is_lattice_gf 3 kagome (2 * 1 / 3 / 2)) (1 / 2) d).
Proof.
  assert (HM := km1_legendre_ok). assert (A : Rabs (1 / 2) = (1 / 2)%R) by (apply Rabs_pos_eq; lra).
  split; [apply C71_square; try rewrite A; try assumption; lra|]. split; [apply C71_rectangular; try rewrite A; try rewrite (Rabs_right (2 - 1)) by lra; try exact ellipk_above_K; try (left; exact ellipk_above_cut); lra|]. split; [apply C71_triangular; try assumption; lra|].
  split; [apply C71_bcc; try exact legendre_K_ok; lra|]. split; [apply C71_sc; try exact legendre_K_ok; try rewrite A; lra|].
  split; [apply C71_fcc; try exact ellipk_above_K; try lra; intros _; left; exact ellipk_above_cut|]. split; [apply C71_lieb; try rewrite A; try assumption; lra|].
  split; [apply C71_honeycomb; try rewrite A; try assumption; lra|]. apply C71_kagome; try assumption; lra.
Qed.
