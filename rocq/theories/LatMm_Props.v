(** * C73: the moments of the densities of states are the tabulated ones *)
From Coq Require Import Reals Lra Lia List ZArith.
From Coquelicot Require Import Coquelicot.
From Verif Require Import Base CBase Lattice_Model LatMom_Spec LatMom_Model LatMom_Props LatDer_Spec LatDer_Model LatEll_Model LatInt_Spec LatInt_Legendre LatInt_Local LatBz_Spec Fourier_Filon LatTri_Main LatRect_Main LatSc_Red LatBcc_Main LatFcc_Red LatSpf_Spec LatSpf_Props
  LatHil_Spec LatHil_Poisson LatHil_Avg LatHil_Cor LatHil_Props LatMm_Spec LatMm_Trace LatMm_Walk LatMm_Inst LatMm_Chain LatInt_Props.
Import ListNotations.
Local Open Scope C_scope.

(** the m-th moment of the density d in the band with the listed singular points *)
Definition has_moment (d : R -> R) (p : R) (ps : list R) (m : nat) (M : R) : Prop := is_band_integral (fun e => RtoC (d e) * RtoC (e ^ m)) p ps (RtoC M).

(** every moment is t^m times the number of closed walks of m steps per site *)
Theorem C73_square_walks : forall (ellipkm1 : R -> result R) (D : R) (d : R -> R) (m : nat), computes_Km1 ellipkm1 -> (0 < D)%R -> (forall e, ~ In e [- D; 0; D]%R -> square_dos ellipkm1 e D = Ok (d e)) ->
  has_moment d (- D) [0; D]%R m (dos_moment_of square [origin 0] (D / 4) m).
Proof.
  intros ellipkm1 D d m HK HD Hd. destruct (C72_square ellipkm1 D HK HD) as (d' & Hd' & H).
  apply (dist_ext _ _ _ d) in H; [|cbn; lra|intros e He; assert (X := Hd e He); rewrite (Hd' e He) in X; injection X as X; exact X].
  apply single_moment; [apply bravais_inv|exact square_cl|intros [k1 k2]; rewrite square_band; reflexivity|exact H].
Qed.
Print Assumptions C73_square_walks.
Theorem C73_triangular_walks : forall (ellipkm1 : R -> result R) (D : R) (d : R -> R) (m : nat), computes_Km1 ellipkm1 -> (0 < D)%R -> (forall e, ~ In e [- (2 / 3) * D; - (4 / 9) * D; 4 / 3 * D]%R -> triangular_dos ellipkm1 e D = Ok (d e)) ->
  has_moment d (- (2 / 3) * D) [- (4 / 9) * D; 4 / 3 * D]%R m (dos_moment_of triangular [origin 0] (D * 4 / 9 / 2) m).
Proof.
  intros ellipkm1 D d m HK HD Hd. destruct (C72_triangular ellipkm1 D HK HD) as (d' & Hd' & H).
  apply (dist_ext _ _ _ d) in H; [|cbn; lra|intros e He; assert (X := Hd e He); rewrite (Hd' e He) in X; injection X as X; exact X].
  apply single_moment; [apply bravais_inv|exact triangular_cl|intros [k1 k2]; rewrite tri_band; reflexivity|exact H].
Qed.
Print Assumptions C73_triangular_walks.
Theorem C73_bcc_walks : forall (ellipk : C -> result C) (D : R) (d : R -> R) (m : nat), computes_K ellipk -> (0 < D)%R -> (forall e, ~ In e [- D; 0; D]%R -> bcc_dos ellipk e D = Ok (d e)) ->
  has_moment d (- D) [0; D]%R m (dos_moment_of body_centered [origin 0] (D / 8) m).
Proof.
  intros ellipk D d m HK HD Hd. destruct (C72_bcc ellipk D HK HD) as (d' & Hd' & H).
  apply (dist_ext _ _ _ d) in H; [|cbn; lra|intros e He; assert (X := Hd e He); rewrite (Hd' e He) in X; injection X as X; exact X].
  apply single_moment3; [apply bravais_inv|apply bravais_cl|apply bravais_band3|intros [[k1 k2] k3]; rewrite bcc_band; reflexivity|exact H].
Qed.
Print Assumptions C73_bcc_walks.
Theorem C73_sc_walks : forall (ellipk : C -> result C) (D : R) (d : R -> R) (m : nat), computes_K ellipk -> (0 < D)%R -> (forall small e, ~ In e [- D; 0; D]%R -> (small <= 3 / D * Rabs e)%R -> sc_dos ellipk small e D = Ok (d e)) ->
  has_moment d (- D) [0; D]%R m (dos_moment_of simple_cubic [origin 0] (D / 6) m).
Proof.
  intros ellipk D d m HK HD Hd. destruct (C72_sc ellipk D HK HD) as (d' & Hd' & H).
  apply (dist_ext _ _ _ d) in H; [|cbn; lra|intros e He; assert (L : (3 / D * Rabs e <= 3 / D * Rabs e)%R) by lra; assert (X := Hd _ e He L); rewrite (Hd' _ e He L) in X; injection X as X; exact X].
  apply single_moment3; [apply bravais_inv|apply bravais_cl|apply bravais_band3|intros [[k1 k2] k3]; rewrite sc_band; reflexivity|exact H].
Qed.
Print Assumptions C73_sc_walks.
Theorem C73_fcc_walks : forall (ellipk : C -> result C) (D : R) (d : R -> R) (m : nat), computes_K ellipk -> (0 < D)%R -> (forall e, ~ In e [- (1 / 2) * D; 1 / 2 * D; 3 / 2 * D]%R -> fcc_dos ellipk e D = Ok (d e)) ->
  has_moment d (- (1 / 2) * D) [1 / 2 * D; 3 / 2 * D]%R m (dos_moment_of face_centered [origin 0] (D / 8) m).
Proof.
  intros ellipk D d m HK HD Hd. destruct (C72_fcc ellipk D HK HD) as (d' & Hd' & H).
  apply (dist_ext _ _ _ d) in H; [|cbn; lra|intros e He; assert (X := Hd e He); rewrite (Hd' e He) in X; injection X as X; exact X].
  apply single_moment3; [apply bravais_inv|apply bravais_cl|apply bravais_band3|intros [[k1 k2] k3]; rewrite fcc_band; reflexivity|exact H].
Qed.
Print Assumptions C73_fcc_walks.
Theorem C73_honeycomb_walks : forall (ellipkm1 : R -> result R) (D : R) (d : R -> R) (m : nat), computes_Km1 ellipkm1 -> (0 < D)%R -> (forall e, ~ In e [- D; - (D / 3); 0; D / 3; D]%R -> honeycomb_dos (triangular_dos ellipkm1) e D = Ok (d e)) ->
  has_moment d (- D) [- (D / 3); 0; D / 3; D]%R m (dos_moment_of honeycomb [origin 0; origin 1] (2 * D / 3 / 2) m).
Proof.
  intros ellipkm1 D d m HK HD Hd. destruct (C72_honeycomb ellipkm1 D HK HD) as (d' & Hd' & H).
  apply (dists_ext _ _ _ _ d) in H; [|cbn; lra|intros e He; assert (X := Hd e He); rewrite (Hd' e He) in X; injection X as X; exact X].
  assert (B := multi_moment 2 honeycomb _ d _ _ _ m ltac:(lia) honeycomb_inv honeycomb_cl H). unfold has_moment. match type of B with is_band_integral _ _ _ (RtoC ?x) => match goal with |- is_band_integral _ _ _ (RtoC ?y) => replace y with x; [exact B|] end end.
  cbn [cellN seq map fold_right]. unfold Rdiv at 3. rewrite Rmult_0_l. ring.
Qed.
Print Assumptions C73_honeycomb_walks.
Theorem C73_kagome_walks : forall (ellipkm1 : R -> result R) (D : R) (d : R -> R) (m : nat), computes_Km1 ellipkm1 -> (0 < D)%R -> (forall e, ~ In e [- (2 / 3) * D; 0; D / 3; 2 / 3 * D; 4 / 3 * D]%R -> kagome_dos (triangular_dos ellipkm1) e D = Ok (d e)) ->
  has_moment d (- (2 / 3) * D) [0; D / 3; 2 / 3 * D; 4 / 3 * D]%R m (dos_moment_of kagome [origin 0; origin 1; origin 2] (2 * D / 3 / 2) m - (- (2 / 3) * D) ^ m / 3).
Proof.
  intros ellipkm1 D d m HK HD Hd. destruct (C72_kagome ellipkm1 D HK HD) as (d' & Hd' & H).
  apply (dists_ext _ _ _ _ d) in H; [|cbn; lra|intros e He; assert (X := Hd e He); rewrite (Hd' e He) in X; injection X as X; exact X].
  assert (B := multi_moment 3 kagome _ d _ _ _ m ltac:(lia) kagome_inv kagome_cl H). unfold has_moment. match type of B with is_band_integral _ _ _ (RtoC ?x) => match goal with |- is_band_integral _ _ _ (RtoC ?y) => replace y with x; [exact B|] end end.
  cbn [cellN seq map fold_right]. replace (INR 3) with 3%R by (cbn; ring). f_equal. f_equal. ring.
Qed.
Print Assumptions C73_kagome_walks.
Theorem C73_lieb_walks : forall (ellipkm1 : R -> result R) (D : R) (d : R -> R) (m : nat), computes_Km1 ellipkm1 -> (0 < D)%R -> (forall e, ~ In e [- D; - (D / sqrt 2); 0; D / sqrt 2; D]%R -> lieb_dos (square_dos ellipkm1) e D = Ok (d e)) ->
  has_moment d (- D) [- (D / sqrt 2); 0; D / sqrt 2; D]%R m (dos_moment_of lieb [origin 0; origin 1; origin 2] (D / sqrt 8) m - 0 ^ m / 3).
Proof.
  intros ellipkm1 D d m HK HD Hd. destruct (C72_lieb ellipkm1 D HK HD) as (d' & Hd' & H).
  assert (S2 : (1 < sqrt 2)%R) by (rewrite <- sqrt_1; apply sqrt_lt_1; lra). assert (H2 : (0 < D / sqrt 2)%R) by (apply Rdiv_lt_0_compat; lra).
  assert (H3 : (D / sqrt 2 < D)%R) by (apply Rmult_lt_reg_r with (sqrt 2); [lra|]; replace (D / sqrt 2 * sqrt 2)%R with D by (field; lra); nra).
  apply (dists_ext _ _ _ _ d) in H; [|cbn; lra|intros e He; assert (X := Hd e He); rewrite (Hd' e He) in X; injection X as X; exact X].
  assert (B := multi_moment 3 lieb _ d _ _ _ m ltac:(lia) lieb_inv lieb_cl H). unfold has_moment. match type of B with is_band_integral _ _ _ (RtoC ?x) => match goal with |- is_band_integral _ _ _ (RtoC ?y) => replace y with x; [exact B|] end end.
  cbn [cellN seq map fold_right]. replace (INR 3) with 3%R by (cbn; ring). f_equal. f_equal. ring.
Qed.
Print Assumptions C73_lieb_walks.

(** every order accepted by dos_moment gives the integral of eps^m dos(eps), up to the digits printed in the table; for the kagome
    and the Lieb lattice it includes the flat band, which dos omits *)
Theorem C73_square : forall (ellipkm1 : R -> result R) (D : R) (d : R -> R) (m : Z) (v : R), computes_Km1 ellipkm1 -> (0 < D)%R -> (forall e, ~ In e [- D; 0; D]%R -> square_dos ellipkm1 e D = Ok (d e)) ->
  (0 <= m)%Z -> square_dos_moment m D = Ok v -> exists M, has_moment d (- D) [0; D]%R (Z.to_nat m) M /\ (Rabs (v - M) <= 4 / 10 ^ 15 * M)%R.
Proof.
  intros ellipkm1 D d m v HK HD Hd Hm E. exists (dos_moment_of square [origin 0] (D / 4) (Z.to_nat m)). split; [apply (C73_square_walks ellipkm1 D d (Z.to_nat m) HK HD Hd)|].
  exact (C50_square m D v Hm HD E).
Qed.
Print Assumptions C73_square.
Theorem C73_triangular : forall (ellipkm1 : R -> result R) (D : R) (d : R -> R) (m : Z) (v : R), computes_Km1 ellipkm1 -> (0 < D)%R -> (forall e, ~ In e [- (2 / 3) * D; - (4 / 9) * D; 4 / 3 * D]%R -> triangular_dos ellipkm1 e D = Ok (d e)) ->
  (0 <= m)%Z -> triangular_dos_moment m D = Ok v -> exists M, has_moment d (- (2 / 3) * D) [- (4 / 9) * D; 4 / 3 * D]%R (Z.to_nat m) M /\ (Rabs (v - M) <= 4 / 10 ^ 15 * M)%R.
Proof.
  intros ellipkm1 D d m v HK HD Hd Hm E. exists (dos_moment_of triangular [origin 0] (D * 4 / 9 / 2) (Z.to_nat m)). split; [apply (C73_triangular_walks ellipkm1 D d (Z.to_nat m) HK HD Hd)|].
  replace (D * 4 / 9 / 2)%R with (4 * D / 9 / 2)%R by field. exact (C50_triangular m D v Hm HD E).
Qed.
Print Assumptions C73_triangular.
Theorem C73_bcc : forall (ellipk : C -> result C) (D : R) (d : R -> R) (m : Z) (v : R), computes_K ellipk -> (0 < D)%R -> (forall e, ~ In e [- D; 0; D]%R -> bcc_dos ellipk e D = Ok (d e)) ->
  (0 <= m)%Z -> bcc_dos_moment m D = Ok v -> exists M, has_moment d (- D) [0; D]%R (Z.to_nat m) M /\ (Rabs (v - M) <= 4 / 10 ^ 15 * M)%R.
Proof.
  intros ellipk D d m v HK HD Hd Hm E. exists (dos_moment_of body_centered [origin 0] (D / 8) (Z.to_nat m)). split; [apply (C73_bcc_walks ellipk D d (Z.to_nat m) HK HD Hd)|].
  exact (C50_bcc m D v Hm HD E).
Qed.
Print Assumptions C73_bcc.
Theorem C73_sc : forall (ellipk : C -> result C) (D : R) (d : R -> R) (m : Z) (v : R), computes_K ellipk -> (0 < D)%R -> (forall small e, ~ In e [- D; 0; D]%R -> (small <= 3 / D * Rabs e)%R -> sc_dos ellipk small e D = Ok (d e)) ->
  (0 <= m)%Z -> sc_dos_moment m D = Ok v -> exists M, has_moment d (- D) [0; D]%R (Z.to_nat m) M /\ (Rabs (v - M) <= 4 / 10 ^ 15 * M)%R.
Proof.
  intros ellipk D d m v HK HD Hd Hm E. exists (dos_moment_of simple_cubic [origin 0] (D / 6) (Z.to_nat m)). split; [apply (C73_sc_walks ellipk D d (Z.to_nat m) HK HD Hd)|].
  exact (C50_sc m D v Hm HD E).
Qed.
Print Assumptions C73_sc.
Theorem C73_fcc : forall (ellipk : C -> result C) (D : R) (d : R -> R) (m : Z) (v : R), computes_K ellipk -> (0 < D)%R -> (forall e, ~ In e [- (1 / 2) * D; 1 / 2 * D; 3 / 2 * D]%R -> fcc_dos ellipk e D = Ok (d e)) ->
  (0 <= m)%Z -> fcc_dos_moment m D = Ok v -> exists M, has_moment d (- (1 / 2) * D) [1 / 2 * D; 3 / 2 * D]%R (Z.to_nat m) M /\ (Rabs (v - M) <= 4 / 10 ^ 15 * M)%R.
Proof.
  intros ellipk D d m v HK HD Hd Hm E. exists (dos_moment_of face_centered [origin 0] (D / 8) (Z.to_nat m)). split; [apply (C73_fcc_walks ellipk D d (Z.to_nat m) HK HD Hd)|].
  exact (C50_fcc m D v Hm HD E).
Qed.
Print Assumptions C73_fcc.
Theorem C73_honeycomb : forall (ellipkm1 : R -> result R) (D : R) (d : R -> R) (m : Z) (v : R), computes_Km1 ellipkm1 -> (0 < D)%R -> (forall e, ~ In e [- D; - (D / 3); 0; D / 3; D]%R -> honeycomb_dos (triangular_dos ellipkm1) e D = Ok (d e)) ->
  (0 <= m)%Z -> honeycomb_dos_moment m D = Ok v -> exists M, has_moment d (- D) [- (D / 3); 0; D / 3; D]%R (Z.to_nat m) M /\ (Rabs (v - M) <= 4 / 10 ^ 15 * M)%R.
Proof.
  intros ellipkm1 D d m v HK HD Hd Hm E. exists (dos_moment_of honeycomb [origin 0; origin 1] (2 * D / 3 / 2) (Z.to_nat m)). split; [apply (C73_honeycomb_walks ellipkm1 D d (Z.to_nat m) HK HD Hd)|].
  exact (C50_honeycomb m D v Hm HD E).
Qed.
Print Assumptions C73_honeycomb.
Theorem C73_kagome : forall (ellipkm1 : R -> result R) (D : R) (d : R -> R) (m : Z) (v : R), computes_Km1 ellipkm1 -> (0 < D)%R -> (forall e, ~ In e [- (2 / 3) * D; 0; D / 3; 2 / 3 * D; 4 / 3 * D]%R -> kagome_dos (triangular_dos ellipkm1) e D = Ok (d e)) ->
  (0 <= m)%Z -> kagome_dos_moment m D = Ok v -> exists M, has_moment d (- (2 / 3) * D) [0; D / 3; 2 / 3 * D; 4 / 3 * D]%R (Z.to_nat m) (M - (- (2 / 3) * D) ^ Z.to_nat m / 3) /\ (Rabs (v - M) <= 4 / 10 ^ 15 * M)%R.
Proof.
  intros ellipkm1 D d m v HK HD Hd Hm E. exists (dos_moment_of kagome [origin 0; origin 1; origin 2] (2 * D / 3 / 2) (Z.to_nat m)). split; [apply (C73_kagome_walks ellipkm1 D d (Z.to_nat m) HK HD Hd)|].
  exact (C50_kagome m D v Hm HD E).
Qed.
Print Assumptions C73_kagome.
Theorem C73_lieb : forall (ellipkm1 : R -> result R) (D : R) (d : R -> R) (m : Z) (v : R), computes_Km1 ellipkm1 -> (0 < D)%R -> (forall e, ~ In e [- D; - (D / sqrt 2); 0; D / sqrt 2; D]%R -> lieb_dos (square_dos ellipkm1) e D = Ok (d e)) ->
  (0 <= m)%Z -> lieb_dos_moment m D = Ok v -> exists M, has_moment d (- D) [- (D / sqrt 2); 0; D / sqrt 2; D]%R (Z.to_nat m) (M - 0 ^ Z.to_nat m / 3) /\ (Rabs (v - M) <= 4 / 10 ^ 15 * M)%R.
Proof.
  intros ellipkm1 D d m v HK HD Hd Hm E. exists (dos_moment_of lieb [origin 0; origin 1; origin 2] (D / sqrt 8) (Z.to_nat m)). split; [apply (C73_lieb_walks ellipkm1 D d (Z.to_nat m) HK HD Hd)|].
  exact (C50_lieb m D v Hm HD E).
Qed.
Print Assumptions C73_lieb.

(** ** the chain *)
Theorem C72_onedim : forall D : R, (0 < D)%R ->
  exists d, (forall e, ~ In e [- D; D]%R -> onedim_dos e D = Ok (d e)) /\ distribution is_chain_average (chain_band (D / 2)) d (- D) [D].
Proof. intros D HD. exists (cd D). split; [intros e He; apply (cd_ok D HD e He)|exact (chain_dist D HD)]. Qed.
Print Assumptions C72_onedim.
Lemma onedim_dist (D : R) (d : R -> R) : (0 < D)%R -> (forall e, ~ In e [- D; D]%R -> onedim_dos e D = Ok (d e)) -> distribution is_chain_average (chain_band (D / 2)) d (- D) [D].
Proof.
  intros HD Hd. destruct (C72_onedim D HD) as (d' & Hd' & H). apply (dist_ext _ _ d'); [cbn; lra|intros e He; assert (X := Hd e He); rewrite (Hd' e He) in X; injection X as X; exact X|exact H].
Qed.
Theorem C72_onedim_gf : forall (D : R) (d : R -> R) (z : C), (0 < D)%R -> (forall e, ~ In e [- D; D]%R -> onedim_dos e D = Ok (d e)) -> snd z <> 0%R \/ (D < Rabs (fst z))%R ->
  exists G, onedim_gf_z z D = Ok G /\ is_band_integral (fun e => RtoC (d e) * (1 / (z - RtoC e))) (- D) [D] G.
Proof.
  intros D d z HD Hd O. destruct (C64_onedim D z HD O) as (G & E & A). exists G. split; [exact E|]. assert (H := onedim_dist D d HD Hd).
  apply (dist_gf _ _ _ _ _ _ chain_uniq) with (2 := H); [intros k; rewrite chain_band_eq; reflexivity| |].
  - unfold outside. cbn [final]. destruct O as [O|O]; [left; exact O|right]. unfold Rabs in O. destruct (Rcase_abs (fst z)); lra.
  - apply (is_CInt_ext (fun k => 1 / (z - RtoC (D * cos k)))); [intros k _; rewrite chain_band_eq; do 4 f_equal; field|exact A].
Qed.
Print Assumptions C72_onedim_gf.
Theorem C73_onedim_walks : forall (D : R) (d : R -> R) (m : nat), (0 < D)%R -> (forall e, ~ In e [- D; D]%R -> onedim_dos e D = Ok (d e)) -> has_moment d (- D) [D] m (dos_moment_of chain [origin 0] (D / 2) m).
Proof.
  intros D d m HD Hd. apply (dist_val _ _ _ d (- D) [D] chain_uniq (onedim_dist D d HD Hd) (fun e => RtoC (e ^ m)) (fun k => RtoC (fst (chain_band (D / 2) k) ^ m))); [intros; apply pow_cont|reflexivity|apply chain_trace].
Qed.
Print Assumptions C73_onedim_walks.
Theorem C73_onedim : forall (D : R) (d : R -> R) (m : Z) (v : R), (0 < D)%R -> (forall e, ~ In e [- D; D]%R -> onedim_dos e D = Ok (d e)) ->
  (0 <= m)%Z -> onedim_dos_moment m D = Ok v -> exists M, has_moment d (- D) [D] (Z.to_nat m) M /\ (Rabs (v - M) <= 4 / 10 ^ 15 * M)%R.
Proof.
  intros D d m v HD Hd Hm E. exists (dos_moment_of chain [origin 0] (D / 2) (Z.to_nat m)). split; [exact (C73_onedim_walks D d (Z.to_nat m) HD Hd)|exact (C50_onedim m D v Hm HD E)].
Qed.
Print Assumptions C73_onedim.

Example C73_example : exists d v, (forall e, ~ In e [- (1 / 2) * 1; 1 / 2 * 1; 3 / 2 * 1]%R -> fcc_dos ellipk_legendre e 1 = Ok (d e)) /\ fcc_dos_moment 3 1 = Ok v /\
  exists M, has_moment d (- (1 / 2) * 1) [1 / 2 * 1; 3 / 2 * 1]%R 3 M /\ (Rabs (v - M) <= 4 / 10 ^ 15 * M)%R.
Proof.
  destruct (C72_fcc ellipk_legendre 1 legendre_K_ok ltac:(lra)) as (d & Hd & _). eexists d, _. split; [exact Hd|]. split; [reflexivity|].
  apply (C73_fcc ellipk_legendre 1 d 3 _ legendre_K_ok ltac:(lra) Hd); [lia|reflexivity].
Qed.
