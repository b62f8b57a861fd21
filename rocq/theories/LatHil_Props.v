(** * C72: the densities of states of the lattices are the distributions of the energies of their bands *)
From Coq Require Import Reals Lra Lia List FunctionalExtensionality.
From Coquelicot Require Import Coquelicot.
From Verif Require Import Base CBase Fourier_Filon Lattice_Model LatMom_Spec LatDer_Spec LatDer_Model LatEll_Model LatRdos_Model LatInt_Spec LatInt_Proofs LatInt_Local LatInt_Legendre LatInt_Square LatBz_Spec LatTri_Main LatRect_Main LatSc_Red LatSc_Main LatBcc_Main LatFcc_Red LatCut_Spec LatCut_Proofs LatSpf_Spec LatSpf_Der LatSpf_Props LatBz_Props
  LatHil_Spec LatHil_Poisson LatHil_Mean LatHil_Band LatHil_Avg LatHil_Lat LatHil_Inst LatHil_Multi LatHil_Cor.
Import ListNotations.
Local Open Scope C_scope.

Lemma tot_ok (f : R -> result R) e : (exists d, f e = Ok d) -> f e = Ok (tot f e).
Proof. intros (d & E). unfold tot. rewrite E. reflexivity. Qed.
Lemma abs_not (x y : R) : (0 <= y)%R -> x <> y -> x <> (- y)%R -> Rabs x <> y.
Proof. intros Hy A B E. unfold Rabs in E. destruct (Rcase_abs x); lra. Qed.

Theorem C72_square : forall (ellipkm1 : R -> result R) (D : R), computes_Km1 ellipkm1 -> (0 < D)%R ->
  exists d, (forall e, ~ In e [- D; 0; D]%R -> square_dos ellipkm1 e D = Ok (d e)) /\ distribution is_bz_average (fun k => bloch square (D / 4) k 0 0) d (- D) [0; D]%R.
Proof.
  intros km1 D HM HD. assert (Sp : forall e, ~ In e [- D; 0; D]%R -> exists d, square_dos km1 e D = Ok d /\ spectral (fun z => is_bz_average (fun k => 1 / (z - bloch square (D / 4) k 0 0))) e d).
  { intros e He. apply C71_square; try assumption; [intros X; apply He; right; left; lra|]. apply abs_not; [lra|intros X; apply He; right; right; left; lra|intros X; apply He; left; lra]. }
  exists (tot (fun e => square_dos km1 e D)). split; [intros e He; apply (tot_ok (fun e => square_dos km1 e D)); destruct (Sp e He) as (d & E & _); exists d; exact E|exact (square_dist km1 D HD Sp)].
Qed.
Print Assumptions C72_square.
Theorem C72_triangular : forall (ellipkm1 : R -> result R) (D : R), computes_Km1 ellipkm1 -> (0 < D)%R ->
  exists d, (forall e, ~ In e [- (2 / 3) * D; - (4 / 9) * D; 4 / 3 * D]%R -> triangular_dos ellipkm1 e D = Ok (d e)) /\
    distribution is_bz_average (fun k => bloch triangular (D * 4 / 9 / 2) k 0 0) d (- (2 / 3) * D) [- (4 / 9) * D; 4 / 3 * D]%R.
Proof.
  intros km1 D HM HD. assert (Sp : forall e, ~ In e [- (2 / 3) * D; - (4 / 9) * D; 4 / 3 * D]%R -> exists d, triangular_dos km1 e D = Ok d /\ spectral (fun z => is_bz_average (fun k => 1 / (z - bloch triangular (D * 4 / 9 / 2) k 0 0))) e d).
  { intros e He. apply C71_triangular; try assumption; intros X; apply He; rewrite X; cbn; tauto. }
  exists (tot (fun e => triangular_dos km1 e D)). split; [intros e He; apply (tot_ok (fun e => triangular_dos km1 e D)); destruct (Sp e He) as (d & E & _); exists d; exact E|exact (tri_dist km1 D HD Sp)].
Qed.
Print Assumptions C72_triangular.
(** the singular points of the rectangular lattice, of which the inner two coincide for equal amplitudes *)
Definition rect_points (D s : R) : list R := if Req_EM_T s 1 then [0; D]%R else [- (D * Rabs (s - 1) / (1 + s)); D * Rabs (s - 1) / (1 + s); D]%R.
Lemma rect_points_ok (D s : R) : (0 < D)%R -> (0 < s)%R -> incr (- D) (rect_points D s) /\ final (- D) (rect_points D s) = D /\
  forall e, ~ In e (- D :: rect_points D s)%R -> Rabs e <> D /\ ((1 + s) * Rabs e <> D * Rabs (s - 1))%R.
Proof.
  intros HD Hs. unfold rect_points. destruct (Req_EM_T s 1) as [->|N].
  - cbn. split; [lra|]. split; [reflexivity|]. intros e He. split; [apply abs_not; [lra|intros X; apply He; lra|intros X; apply He; lra]|]. replace (1 - 1)%R with 0%R by ring. rewrite Rabs_R0, Rmult_0_r. intros X. apply He. right. left.
    assert (Z : Rabs e = 0%R) by lra. destruct (Req_dec e 0) as [->|Ne]; [reflexivity|]. apply Rabs_pos_lt in Ne. lra.
  - assert (A : (0 < Rabs (s - 1))%R) by (apply Rabs_pos_lt; lra). assert (B : (Rabs (s - 1) < 1 + s)%R) by (unfold Rabs; destruct (Rcase_abs (s - 1)); lra). assert (w0 : (0 < D * Rabs (s - 1) / (1 + s))%R) by (apply Rdiv_lt_0_compat; [apply Rmult_lt_0_compat; lra|lra]).
    assert (w1 : (D * Rabs (s - 1) / (1 + s) * (1 + s) = D * Rabs (s - 1))%R) by (field; lra). set (w := (D * Rabs (s - 1) / (1 + s))%R) in *. assert (w2 : (w < D)%R) by nra.
    cbn. split; [lra|]. split; [reflexivity|]. intros e He. split; [apply abs_not; [lra|intros X; apply He; lra|intros X; apply He; lra]|]. rewrite <- w1. intros X. assert (Y : Rabs e = w) by nra. revert Y. apply abs_not; [lra|intros Y; apply He; lra|intros Y; apply He; lra].
Qed.
Theorem C72_rectangular : forall (ellipk : C -> result C) (feps D scale : R), computes_K ellipk -> cut_from_above ellipk \/ cut_from_below ellipk -> (0 < D)%R -> (0 < scale)%R ->
  exists d, (forall e, ~ In e (- D :: rect_points D scale)%R -> rectangular_dos ellipk feps e D scale = Ok (d e)) /\
    distribution is_bz_average (rectangular_band (D / (1 + scale) / 2) scale) d (- D) (rect_points D scale).
Proof.
  intros ek feps D s HK HC HD Hs. destruct (rect_points_ok D s HD Hs) as (Inc & Ef & Pt).
  assert (Sp : forall e, ~ In e (- D :: rect_points D s)%R -> exists d, rectangular_dos ek feps e D s = Ok d /\ spectral (fun z => is_bz_average (fun k => 1 / (z - rectangular_band (D / (1 + s) / 2) s k))) e d).
  { intros e He. destruct (Pt e He) as [A B]. apply C71_rectangular; assumption. }
  exists (tot (fun e => rectangular_dos ek feps e D s)). split; [intros e He; apply (tot_ok (fun e => rectangular_dos ek feps e D s)); destruct (Sp e He) as (d & E & _); exists d; exact E|].
  exact (rect_dist ek D feps s HD Hs (- D) (rect_points D s) eq_refl Ef Inc Sp).
Qed.
Print Assumptions C72_rectangular.
Theorem C72_bcc : forall (ellipk : C -> result C) (D : R), computes_K ellipk -> (0 < D)%R ->
  exists d, (forall e, ~ In e [- D; 0; D]%R -> bcc_dos ellipk e D = Ok (d e)) /\ distribution is_bz_average3 (band3 body_centered (D / 8)) d (- D) [0; D]%R.
Proof.
  intros ek D HK HD. assert (Sp : forall e, ~ In e [- D; 0; D]%R -> exists d, bcc_dos ek e D = Ok d /\ spectral (fun z => is_bz_average3 (fun k => 1 / (z - band3 body_centered (D / 8) k))) e d).
  { intros e He. apply C71_bcc; try assumption. intros X; apply He; right; left; lra. }
  exists (tot (fun e => bcc_dos ek e D)). split; [intros e He; apply (tot_ok (fun e => bcc_dos ek e D)); destruct (Sp e He) as (d & E & _); exists d; exact E|exact (bcc_dist ek D HD Sp)].
Qed.
Print Assumptions C72_bcc.
(** the density outside of the interval in which the code replaces it by an expansion, for every threshold *)
Lemma sc_small (ellipk : C -> result C) (D small e : R) : (0 < D)%R -> (small <= 3 / D * Rabs e)%R -> sc_dos ellipk small e D = sc_dos ellipk 0 e D.
Proof.
  intros HD Hs. unfold sc_dos. rewrite Bethe_Proofs.rdiv_ok by lra. cbn [bind]. assert (P : (0 < 3 / D)%R) by (apply Rdiv_lt_0_compat; lra). assert (E : (Rabs (3 / D * e) = 3 / D * Rabs e)%R) by (rewrite Rabs_mult, (Rabs_pos_eq (3 / D)); lra).
  assert (Q := Rabs_pos (3 / D * e)). destruct (Rlt_dec (Rabs (3 / D * e)) small) as [L|L]; [lra|]. destruct (Rlt_dec (Rabs (3 / D * e)) 0) as [L'|L']; [lra|]. reflexivity.
Qed.
Theorem C72_sc : forall (ellipk : C -> result C) (D : R), computes_K ellipk -> (0 < D)%R ->
  exists d, (forall small e, ~ In e [- D; 0; D]%R -> (small <= 3 / D * Rabs e)%R -> sc_dos ellipk small e D = Ok (d e)) /\ distribution is_bz_average3 (band3 simple_cubic (D / 6)) d (- D) [0; D]%R.
Proof.
  intros ek D HK HD. assert (Sp : forall e, ~ In e [- D; 0; D]%R -> exists d, sc_dos ek 0 e D = Ok d /\ spectral (fun z => is_bz_average3 (fun k => 1 / (z - band3 simple_cubic (D / 6) k))) e d).
  { intros e He. apply C71_sc; try assumption; [intros X; apply He; right; left; lra|]. apply Rmult_le_pos; [left; apply Rdiv_lt_0_compat; lra|apply Rabs_pos]. }
  exists (tot (fun e => sc_dos ek 0 e D)). split; [|exact (sc_dist ek D HD Sp)]. intros small e He Hs. rewrite sc_small by assumption. apply (tot_ok (fun e => sc_dos ek 0 e D)). destruct (Sp e He) as (d & E & _). exists d. exact E.
Qed.
Print Assumptions C72_sc.
Theorem C72_fcc : forall (ellipk : C -> result C) (D : R), computes_K ellipk -> (0 < D)%R ->
  exists d, (forall e, ~ In e [- (1 / 2) * D; 1 / 2 * D; 3 / 2 * D]%R -> fcc_dos ellipk e D = Ok (d e)) /\
    distribution is_bz_average3 (band3 face_centered (D / 8)) d (- (1 / 2) * D) [1 / 2 * D; 3 / 2 * D]%R.
Proof.
  intros ek D HK HD. assert (Sp : forall e, ~ In e [- (1 / 2) * D; 1 / 2 * D; 3 / 2 * D]%R -> exists d, fcc_dos ek e D = Ok d /\ spectral (fun z => is_bz_average3 (fun k => 1 / (z - band3 face_centered (D / 8) k))) e d).
  { intros e He. apply C71_fcc; try assumption; [intros X; apply He; left; lra|intros X; exfalso; apply He; right; left; lra]. }
  exists (tot (fun e => fcc_dos ek e D)). split; [intros e He; apply (tot_ok (fun e => fcc_dos ek e D)); destruct (Sp e He) as (d & E & _); exists d; exact E|exact (fcc_dist ek D HD Sp)].
Qed.
Print Assumptions C72_fcc.
(** several sites in the unit cell *)
Theorem C72_honeycomb : forall (ellipkm1 : R -> result R) (D : R), computes_Km1 ellipkm1 -> (0 < D)%R ->
  exists d, (forall e, ~ In e [- D; - (D / 3); 0; D / 3; D]%R -> honeycomb_dos (triangular_dos ellipkm1) e D = Ok (d e)) /\
    distributions 2 honeycomb (2 * D / 3 / 2) d (- D) [- (D / 3); 0; D / 3; D]%R [].
Proof.
  intros km1 D HM HD. assert (Sp : forall e, ~ In e [- D; - (D / 3); 0; D / 3; D]%R -> exists d, honeycomb_dos (triangular_dos km1) e D = Ok d /\ spectral (is_lattice_gf 2 honeycomb (2 * D / 3 / 2)) e d).
  { intros e He. cbn in He. apply C71_honeycomb; try assumption; [intros X; apply He; lra| |]; (apply abs_not; [lra|intros X; apply He; lra|intros X; apply He; lra]). }
  exists (tot (fun e => honeycomb_dos (triangular_dos km1) e D)). split; [intros e He; apply (tot_ok (fun e => honeycomb_dos (triangular_dos km1) e D)); destruct (Sp e He) as (d & E & _); exists d; exact E|exact (hc_dist km1 D HD Sp)].
Qed.
Print Assumptions C72_honeycomb.
(** the flat band at - 2/3 half_bandwidth takes a third of the states *)
Theorem C72_kagome : forall (ellipkm1 : R -> result R) (D : R), computes_Km1 ellipkm1 -> (0 < D)%R ->
  exists d, (forall e, ~ In e [- (2 / 3) * D; 0; D / 3; 2 / 3 * D; 4 / 3 * D]%R -> kagome_dos (triangular_dos ellipkm1) e D = Ok (d e)) /\
    distributions 3 kagome (2 * D / 3 / 2) d (- (2 / 3) * D) [0; D / 3; 2 / 3 * D; 4 / 3 * D]%R [- (2 / 3) * D]%R.
Proof.
  intros km1 D HM HD. assert (Sp : forall e, ~ In e [- (2 / 3) * D; 0; D / 3; 2 / 3 * D; 4 / 3 * D]%R -> exists d, kagome_dos (triangular_dos km1) e D = Ok d /\ spectral (is_lattice_gf 3 kagome (2 * D / 3 / 2)) e d).
  { intros e He. cbn in He. apply C71_kagome; try assumption; intros X; apply He; lra. }
  exists (tot (fun e => kagome_dos (triangular_dos km1) e D)). split; [intros e He; apply (tot_ok (fun e => kagome_dos (triangular_dos km1) e D)); destruct (Sp e He) as (d & E & _); exists d; exact E|exact (kg_dist km1 D HD Sp)].
Qed.
Print Assumptions C72_kagome.
Theorem C72_lieb : forall (ellipkm1 : R -> result R) (D : R), computes_Km1 ellipkm1 -> (0 < D)%R ->
  exists d, (forall e, ~ In e [- D; - (D / sqrt 2); 0; D / sqrt 2; D]%R -> lieb_dos (square_dos ellipkm1) e D = Ok (d e)) /\
    distributions 3 lieb (D / sqrt 8) d (- D) [- (D / sqrt 2); 0; D / sqrt 2; D]%R [0%R].
Proof.
  intros km1 D HM HD. assert (S2 : (0 < sqrt 2)%R) by (apply sqrt_lt_R0; lra). assert (Q2 := sqrt_sqrt 2 ltac:(lra)). assert (Sp : forall e, ~ In e [- D; - (D / sqrt 2); 0; D / sqrt 2; D]%R -> exists d, lieb_dos (square_dos km1) e D = Ok d /\ spectral (is_lattice_gf 3 lieb (D / sqrt 8)) e d).
  { intros e He. cbn in He. apply C71_lieb; try assumption; [intros X; apply He; lra| |apply abs_not; [lra|intros X; apply He; lra|intros X; apply He; lra]].
    intros X. assert (W : (D / sqrt 2 * sqrt 2 = D)%R) by (field; lra). set (w := (D / sqrt 2)%R) in *. assert (Z : ((e - w) * (e + w) = 0)%R) by nra. apply Rmult_integral in Z. apply He. destruct Z; lra. }
  exists (tot (fun e => lieb_dos (square_dos km1) e D)). split; [intros e He; apply (tot_ok (fun e => lieb_dos (square_dos km1) e D)); destruct (Sp e He) as (d & E & _); exists d; exact E|exact (lb_dist km1 D HD Sp)].
Qed.
Print Assumptions C72_lieb.

(** ** Consequences, for every density which has the values of the code away from the singular points *)
Lemma dist_ext {T} (av : (T -> C) -> C -> Prop) band d d' p ps : incr p ps -> (forall e, ~ In e (p :: ps) -> d e = d' e) -> distribution av band d p ps -> distribution av band d' p ps.
Proof. intros Inc E H phi Cp. destruct (H phi Cp) as (l & A & B). exists l. split; [exact A|]. apply (bint_ext (fun e => RtoC (d e) * phi e) _ p ps l Inc); [intros e He; rewrite (E e He); reflexivity|exact B]. Qed.
Lemma dists_ext N nbrs t d d' p ps fl : incr p ps -> (forall e, ~ In e (p :: ps) -> d e = d' e) -> distributions N nbrs t d p ps fl -> distributions N nbrs t d' p ps fl.
Proof. intros Inc E (es & S & Rg & H). exists es. split; [exact S|]. split; [exact Rg|]. intros phi Cp. destruct (H phi Cp) as (l & A & B). exists l. split; [exact A|]. apply (bint_ext (fun e => RtoC (d e) * phi e) _ p ps _ Inc); [intros e He; rewrite (E e He); reflexivity|exact B]. Qed.

(** the Green's function is the Hilbert transform of the density of states *)
Theorem C72_square_gf : forall (ellipk : C -> result C) (ellipkm1 : R -> result R) (D : R) (d : R -> R) (z : C), computes_K ellipk -> computes_Km1 ellipkm1 -> (0 < D)%R ->
  (forall e, ~ In e [- D; 0; D]%R -> square_dos ellipkm1 e D = Ok (d e)) -> snd z <> 0%R \/ (D < Rabs (fst z))%R ->
  exists G, square_gf_z ellipk z D = Ok G /\ is_band_integral (fun e => RtoC (d e) * (1 / (z - RtoC e))) (- D) [0; D]%R G.
Proof.
  intros ek km1 D d z HK HM HD Hd O. destruct (square_average D HD ek HK z O) as (G & E & A). exists G. split; [exact E|]. destruct (C72_square km1 D HM HD) as (d' & Hd' & H).
  apply (dist_ext _ _ _ d) in H; [|cbn; lra|intros e He; assert (X := Hd e He); rewrite (Hd' e He) in X; injection X as X; exact X].
  apply (dist_gf _ _ _ _ _ _ bz_uniq) with (2 := H) (4 := A); [intros [k1 k2]; rewrite square_band; reflexivity|]. unfold outside. cbn [final]. destruct O as [O|O]; [left; exact O|right]. unfold Rabs in O. destruct (Rcase_abs (fst z)); lra.
Qed.
Print Assumptions C72_square_gf.
Theorem C72_rectangular_gf : forall (ellipk : C -> result C) (feps D scale : R) (d : R -> R) (z : C), computes_K ellipk -> cut_from_above ellipk \/ cut_from_below ellipk -> (0 < D)%R -> (0 < scale)%R ->
  (forall e, ~ In e (- D :: rect_points D scale)%R -> rectangular_dos ellipk feps e D scale = Ok (d e)) -> snd z <> 0%R \/ (D < Rabs (fst z))%R ->
  exists G, rectangular_gf_z ellipk z D scale = Ok G /\ is_band_integral (fun e => RtoC (d e) * (1 / (z - RtoC e))) (- D) (rect_points D scale) G.
Proof.
  intros ek feps D s d z HK HC HD Hs Hd O. destruct (C70_rectangular ek D s z HK HD ltac:(lra) O) as (G & E & A). exists G. split; [exact E|]. destruct (C72_rectangular ek feps D s HK HC HD Hs) as (d' & Hd' & H). destruct (rect_points_ok D s HD Hs) as (Inc & Ef & _).
  apply (dist_ext _ _ _ d) in H; [|exact Inc|intros e He; assert (X := Hd e He); rewrite (Hd' e He) in X; injection X as X; exact X].
  apply (dist_gf _ _ _ _ _ _ bz_uniq) with (2 := H) (4 := A); [intros [k1 k2]; rewrite rect_band; reflexivity|]. unfold outside. rewrite Ef. destruct O as [O|O]; [left; exact O|right]. unfold Rabs in O. destruct (Rcase_abs (fst z)); lra.
Qed.
Print Assumptions C72_rectangular_gf.
Theorem C72_triangular_gf : forall (ellipk : C -> result C) (ellipkm1 : R -> result R) (D : R) (d : R -> R) (z : C), computes_K ellipk -> computes_Km1 ellipkm1 -> (0 < D)%R ->
  (forall e, ~ In e [- (2 / 3) * D; - (4 / 9) * D; 4 / 3 * D]%R -> triangular_dos ellipkm1 e D = Ok (d e)) ->
  snd z <> 0%R \/ (fst z < - (2 / 3 * D))%R \/ (4 / 3 * D < fst z)%R -> z <> - (1) -> ~ tri_cut (z / RtoC (D * 4 / 9)) \/ cut_from_above ellipk ->
  exists G, triangular_gf_z ellipk z D = Ok G /\ is_band_integral (fun e => RtoC (d e) * (1 / (z - RtoC e))) (- (2 / 3) * D) [- (4 / 9) * D; 4 / 3 * D]%R G.
Proof.
  intros ek km1 D d z HK HM HD Hd O N NC. assert (X : exists G, triangular_gf_z ek z D = Ok G /\ is_bz_average (fun k => 1 / (z - bloch triangular (D * 4 / 9 / 2) k 0 0)) G) by (destruct NC as [NC|HA]; [apply C70_triangular|apply C70_triangular_above]; assumption).
  destruct X as (G & E & A). exists G. split; [exact E|]. destruct (C72_triangular km1 D HM HD) as (d' & Hd' & H).
  apply (dist_ext _ _ _ d) in H; [|cbn; lra|intros e He; assert (X := Hd e He); rewrite (Hd' e He) in X; injection X as X; exact X].
  apply (dist_gf _ _ _ _ _ _ bz_uniq) with (2 := H) (4 := A); [intros [k1 k2]; rewrite tri_band; reflexivity|]. unfold outside. cbn [final]. destruct O as [O|O]; [left; exact O|right; lra].
Qed.
Print Assumptions C72_triangular_gf.
Theorem C72_bcc_gf : forall (ellipk : C -> result C) (D : R) (d : R -> R) (z : C), computes_K ellipk -> (0 < D)%R ->
  (forall e, ~ In e [- D; 0; D]%R -> bcc_dos ellipk e D = Ok (d e)) -> snd z <> 0%R \/ (D < Rabs (fst z))%R ->
  exists G, bcc_gf_z ellipk z D = Ok G /\ is_band_integral (fun e => RtoC (d e) * (1 / (z - RtoC e))) (- D) [0; D]%R G.
Proof.
  intros ek D d z HK HD Hd O. destruct (C70_bcc ek D z HK HD O) as (G & E & A). exists G. split; [exact E|]. destruct (C72_bcc ek D HK HD) as (d' & Hd' & H).
  apply (dist_ext _ _ _ d) in H; [|cbn; lra|intros e He; assert (X := Hd e He); rewrite (Hd' e He) in X; injection X as X; exact X].
  apply (dist_gf _ _ _ _ _ _ bz3_uniq) with (2 := H) (4 := A); [intros [[k1 k2] k3]; rewrite bcc_band; reflexivity|]. unfold outside. cbn [final]. destruct O as [O|O]; [left; exact O|right]. unfold Rabs in O. destruct (Rcase_abs (fst z)); lra.
Qed.
Print Assumptions C72_bcc_gf.
Theorem C72_sc_gf : forall (ellipk : C -> result C) (D : R) (d : R -> R) (z : C), computes_K ellipk -> (0 < D)%R ->
  (forall small e, ~ In e [- D; 0; D]%R -> (small <= 3 / D * Rabs e)%R -> sc_dos ellipk small e D = Ok (d e)) -> snd z <> 0%R \/ (D < Rabs (fst z))%R ->
  exists G, sc_gf_z ellipk z D = Ok G /\ is_band_integral (fun e => RtoC (d e) * (1 / (z - RtoC e))) (- D) [0; D]%R G.
Proof.
  intros ek D d z HK HD Hd O. destruct (C70_sc ek D z HK HD O) as (G & E & A). exists G. split; [exact E|]. destruct (C72_sc ek D HK HD) as (d' & Hd' & H).
  apply (dist_ext _ _ _ d) in H; [|cbn; lra|intros e He; assert (L : (3 / D * Rabs e <= 3 / D * Rabs e)%R) by lra; assert (X := Hd _ e He L); rewrite (Hd' _ e He L) in X; injection X as X; exact X].
  apply (dist_gf _ _ _ _ _ _ bz3_uniq) with (2 := H) (4 := A); [intros [[k1 k2] k3]; rewrite sc_band; reflexivity|]. unfold outside. cbn [final]. destruct O as [O|O]; [left; exact O|right]. unfold Rabs in O. destruct (Rcase_abs (fst z)); lra.
Qed.
Print Assumptions C72_sc_gf.
Theorem C72_fcc_gf : forall (ellipk : C -> result C) (D : R) (d : R -> R) (z : C), computes_K ellipk -> (0 < D)%R ->
  (forall e, ~ In e [- (1 / 2) * D; 1 / 2 * D; 3 / 2 * D]%R -> fcc_dos ellipk e D = Ok (d e)) ->
  snd z <> 0%R \/ (fst z < - (D / 2))%R \/ (3 / 2 * D < fst z)%R -> ~ fcc_cut (z / RtoC (D / 2)) \/ cut_from_above ellipk ->
  exists G, fcc_gf_z ellipk z D = Ok G /\ is_band_integral (fun e => RtoC (d e) * (1 / (z - RtoC e))) (- (1 / 2) * D) [1 / 2 * D; 3 / 2 * D]%R G.
Proof.
  intros ek D d z HK HD Hd O NC. assert (X : exists G, fcc_gf_z ek z D = Ok G /\ is_bz_average3 (fun k => 1 / (z - band3 face_centered (D / 8) k)) G) by (destruct NC as [NC|HA]; [apply C70_fcc|apply C70_fcc_above]; assumption).
  destruct X as (G & E & A). exists G. split; [exact E|]. destruct (C72_fcc ek D HK HD) as (d' & Hd' & H).
  apply (dist_ext _ _ _ d) in H; [|cbn; lra|intros e He; assert (X := Hd e He); rewrite (Hd' e He) in X; injection X as X; exact X].
  apply (dist_gf _ _ _ _ _ _ bz3_uniq) with (2 := H) (4 := A); [intros [[k1 k2] k3]; rewrite fcc_band; reflexivity|]. unfold outside. cbn [final]. destruct O as [O|O]; [left; exact O|right; lra].
Qed.
Print Assumptions C72_fcc_gf.
(** the lattices with several sites: the flat bands are the poles of the Green's function which the densities leave out *)
Theorem C72_honeycomb_gf : forall (ellipk : C -> result C) (ellipkm1 : R -> result R) (D : R) (d : R -> R) (z : C), computes_K ellipk -> cut_from_above ellipk -> computes_Km1 ellipkm1 -> (0 < D)%R ->
  (forall e, ~ In e [- D; - (D / 3); 0; D / 3; D]%R -> honeycomb_dos (triangular_dos ellipkm1) e D = Ok (d e)) -> snd z <> 0%R \/ (D < Rabs (fst z))%R ->
  exists G, honeycomb_gf_z (triangular_gf_z ellipk) z D = Ok G /\ is_band_integral (fun e => RtoC (d e) * (1 / (z - RtoC e))) (- D) [- (D / 3); 0; D / 3; D]%R G.
Proof.
  intros ek km1 D d z HK HA HM HD Hd Hz'. assert (Hz := out_abs D z Hz'). destruct (res2_ex honeycomb (2 * D / 3 / 2) _ z (fun k => LatDer_Proofs.hc00 k _) (fun k => LatDer_Proofs.hc11 k _) (hc_spectrum D) (fun k => hc_out_es D z k HD Hz)) as (G0 & Rs).
  assert (E := C70_honeycomb_above ek D z G0 HK HA HD Rs). set (g := bz_mean _) in E. exists g. split; [exact E|]. assert (L := honeycomb_lat_off ek HK HA D z g HD (fun k => hc_out_sq D z k HD Hz) E).
  destruct (C72_honeycomb km1 D HM HD) as (d' & Hd' & H). apply (dists_ext _ _ _ _ d) in H; [|cbn; lra|intros e He; assert (X := Hd e He); rewrite (Hd' e He) in X; injection X as X; exact X].
  assert (B := dists_gf _ _ _ _ _ _ _ H z g Hz L). cbn [map fold_right] in B. replace (g - 0 / RtoC (INR 2)) with g in B; [exact B|]. unfold Cdiv. rewrite Cmult_0_l. ring.
Qed.
Print Assumptions C72_honeycomb_gf.
Theorem C72_kagome_gf : forall (ellipk : C -> result C) (ellipkm1 : R -> result R) (D : R) (d : R -> R) (z : C), computes_K ellipk -> cut_from_above ellipk -> computes_Km1 ellipkm1 -> (0 < D)%R ->
  (forall e, ~ In e [- (2 / 3) * D; 0; D / 3; 2 / 3 * D; 4 / 3 * D]%R -> kagome_dos (triangular_dos ellipkm1) e D = Ok (d e)) ->
  snd z <> 0%R \/ (fst z < - (2 / 3) * D)%R \/ (4 / 3 * D < fst z)%R ->
  exists G, kagome_gf_z (triangular_gf_z ellipk) z D = Ok (G + 1 / (3 * (z + RtoC (2 / 3 * D)))) /\ is_band_integral (fun e => RtoC (d e) * (1 / (z - RtoC e))) (- (2 / 3) * D) [0; D / 3; 2 / 3 * D; 4 / 3 * D]%R G.
Proof.
  intros ek km1 D d z HK HA HM HD Hd Hz. assert (Hy := kg_shift D z Hz). assert (Nf : z <> RtoC (- (2 / 3) * D)) by (apply (out_off (- (2 / 3) * D) (4 / 3 * D)); [exact Hz|lra]). assert (N : z + RtoC (2 / 3 * D) <> 0) by (intros E; apply Nf; replace z with (z + RtoC (2 / 3 * D) - RtoC (2 / 3 * D)) by ring; rewrite E; apply C_ext; cbn; ring).
  destruct (res3_ex kagome (2 * D / 3 / 2) _ z (kg_spectrum D)) as (G0 & Rs).
  { intros k e [<-|[<-|[<-|[]]]]; [| |exact Nf]; intros E; [apply (hc_out_es D _ k HD Hy (0 + sqrt (hE D (k2 k)))%R)|apply (hc_out_es D _ k HD Hy (0 - sqrt (hE D (k2 k)))%R)]; try (cbn; tauto); rewrite E; apply C_ext; cbn; ring. }
  assert (E := C70_kagome_above ek D z G0 HK HA HD Rs). set (g := bz_mean _) in E. exists (g - 1 / (3 * (z + RtoC (2 / 3 * D)))). split; [rewrite E; f_equal; ring|]. assert (L := kagome_lat_off ek HK HA D z g HD ltac:(intros E'; apply N; rewrite <- E'; apply C_ext; cbn; field) (fun k => hc_out_sq D _ k HD Hy) E).
  destruct (C72_kagome km1 D HM HD) as (d' & Hd' & H). apply (dists_ext _ _ _ _ d) in H; [|cbn; lra|intros e He; assert (X := Hd e He); rewrite (Hd' e He) in X; injection X as X; exact X].
  assert (B := dists_gf _ _ _ _ _ _ _ H z g Hz L). cbn [map fold_right] in B. match type of B with is_band_integral _ _ _ (g - ?x) => replace x with (1 / (3 * (z + RtoC (2 / 3 * D)))) in B; [exact B|] end.
  replace (RtoC (INR 3)) with (RtoC 3) by (f_equal; cbn; ring). replace (z - RtoC (- (2 / 3) * D)) with (z + RtoC (2 / 3 * D)) by (apply C_ext; cbn; ring). assert (N3 : RtoC 3 <> 0) by (apply Bethe_Proofs.RtoC_neq0; lra). field. split; assumption.
Qed.
Print Assumptions C72_kagome_gf.
Theorem C72_lieb_gf : forall (ellipk : C -> result C) (ellipkm1 : R -> result R) (D : R) (d : R -> R) (z : C), computes_K ellipk -> computes_Km1 ellipkm1 -> (0 < D)%R ->
  (forall e, ~ In e [- D; - (D / sqrt 2); 0; D / sqrt 2; D]%R -> lieb_dos (square_dos ellipkm1) e D = Ok (d e)) -> snd z <> 0%R \/ (D < Rabs (fst z))%R ->
  exists G, lieb_gf_z (square_gf_z ellipk) z D = Ok (G + 1 / (3 * z)) /\ is_band_integral (fun e => RtoC (d e) * (1 / (z - RtoC e))) (- D) [- (D / sqrt 2); 0; D / sqrt 2; D]%R G.
Proof.
  intros ek km1 D d z HK HM HD Hd Hz'. assert (Hz := out_abs D z Hz'). assert (N : z <> 0) by (apply (out_off (- D) D); [exact Hz|lra]). destruct (res3_ex lieb (D / sqrt 8) _ z (lb_spectrum D HD) (fun k => lb_out_es D z k HD Hz)) as (G0 & Rs).
  assert (E := LatDer_Proofs.lieb_bloch bz_mean (square_gf_z ek) (square_averages 4 ltac:(lra)) (square_local 4 ltac:(lra) ek HK) D z HD _ Rs). set (g := bz_mean _) in E. exists (g - 1 / (3 * z)). split; [rewrite E; f_equal; ring|]. assert (L := lieb_lat_off ek HK D z g HD N (fun k => lb_out_sq D z k HD Hz) E).
  destruct (C72_lieb km1 D HM HD) as (d' & Hd' & H). assert (S2 : (1 < sqrt 2)%R) by (rewrite <- sqrt_1; apply sqrt_lt_1; lra). assert (H2 : (0 < D / sqrt 2)%R) by (apply Rdiv_lt_0_compat; lra).
  assert (H3 : (D / sqrt 2 < D)%R) by (apply Rmult_lt_reg_r with (sqrt 2); [lra|]; replace (D / sqrt 2 * sqrt 2)%R with D by (field; lra); nra).
  apply (dists_ext _ _ _ _ d) in H; [|cbn; lra|intros e He; assert (X := Hd e He); rewrite (Hd' e He) in X; injection X as X; exact X].
  assert (B := dists_gf _ _ _ _ _ _ _ H z g Hz L). cbn [map fold_right] in B. match type of B with is_band_integral _ _ _ (g - ?x) => replace x with (1 / (3 * z)) in B; [exact B|] end.
  replace (RtoC (INR 3)) with (RtoC 3) by (f_equal; cbn; ring). replace (z - RtoC 0) with z by (apply C_ext; cbn; ring). assert (N3 : RtoC 3 <> 0) by (apply Bethe_Proofs.RtoC_neq0; lra). field. split; assumption.
Qed.
Print Assumptions C72_lieb_gf.
(** the densities are normalised; a third of the states of the kagome and the Lieb lattice is in the flat band *)
Theorem C72_normalised : forall (ellipk : C -> result C) (ellipkm1 : R -> result R) (feps D : R), computes_K ellipk -> cut_from_above ellipk \/ cut_from_below ellipk -> computes_Km1 ellipkm1 -> (0 < D)%R ->
  (forall d, (forall e, ~ In e [- D; 0; D]%R -> square_dos ellipkm1 e D = Ok (d e)) -> is_band_integral (fun e => RtoC (d e) * 1) (- D) [0; D]%R 1) /\
  (forall s d, (0 < s)%R -> (forall e, ~ In e (- D :: rect_points D s)%R -> rectangular_dos ellipk feps e D s = Ok (d e)) -> is_band_integral (fun e => RtoC (d e) * 1) (- D) (rect_points D s) 1) /\
  (forall d, (forall e, ~ In e [- (2 / 3) * D; - (4 / 9) * D; 4 / 3 * D]%R -> triangular_dos ellipkm1 e D = Ok (d e)) -> is_band_integral (fun e => RtoC (d e) * 1) (- (2 / 3) * D) [- (4 / 9) * D; 4 / 3 * D]%R 1) /\
  (forall d, (forall e, ~ In e [- D; 0; D]%R -> bcc_dos ellipk e D = Ok (d e)) -> is_band_integral (fun e => RtoC (d e) * 1) (- D) [0; D]%R 1) /\
  (forall d, (forall e, ~ In e [- D; 0; D]%R -> sc_dos ellipk 0 e D = Ok (d e)) -> is_band_integral (fun e => RtoC (d e) * 1) (- D) [0; D]%R 1) /\
  (forall d, (forall e, ~ In e [- (1 / 2) * D; 1 / 2 * D; 3 / 2 * D]%R -> fcc_dos ellipk e D = Ok (d e)) -> is_band_integral (fun e => RtoC (d e) * 1) (- (1 / 2) * D) [1 / 2 * D; 3 / 2 * D]%R 1) /\
  (forall d, (forall e, ~ In e [- D; - (D / 3); 0; D / 3; D]%R -> honeycomb_dos (triangular_dos ellipkm1) e D = Ok (d e)) -> is_band_integral (fun e => RtoC (d e) * 1) (- D) [- (D / 3); 0; D / 3; D]%R 1) /\
  (forall d, (forall e, ~ In e [- (2 / 3) * D; 0; D / 3; 2 / 3 * D; 4 / 3 * D]%R -> kagome_dos (triangular_dos ellipkm1) e D = Ok (d e)) -> is_band_integral (fun e => RtoC (d e) * 1) (- (2 / 3) * D) [0; D / 3; 2 / 3 * D; 4 / 3 * D]%R (RtoC (2 / 3))) /\
  (forall d, (forall e, ~ In e [- D; - (D / sqrt 2); 0; D / sqrt 2; D]%R -> lieb_dos (square_dos ellipkm1) e D = Ok (d e)) -> is_band_integral (fun e => RtoC (d e) * 1) (- D) [- (D / sqrt 2); 0; D / sqrt 2; D]%R (RtoC (2 / 3))).
Proof.
  intros ek km1 feps D HK HC HM HD. assert (B1 := bz2_const 1). assert (B3 := bz3_const 1). assert (T3 : RtoC 1 - RtoC (INR 1) / RtoC (INR 3) = RtoC (2 / 3)) by (rewrite <- RtoC_div by (cbn; lra); rewrite <- RtoC_minus; f_equal; cbn; field).
  assert (S2 : (1 < sqrt 2)%R) by (rewrite <- sqrt_1; apply sqrt_lt_1; lra). assert (H2 : (0 < D / sqrt 2)%R) by (apply Rdiv_lt_0_compat; lra).
  assert (H3 : (D / sqrt 2 < D)%R) by (apply Rmult_lt_reg_r with (sqrt 2); [lra|]; replace (D / sqrt 2 * sqrt 2)%R with D by (field; lra); nra).
  assert (DX : forall (T : Type) (av : (T -> C) -> C -> Prop) (band : T -> C) d d' p ps (f : R -> result R), (forall g l l', av g l -> av g l' -> l = l') -> av (fun _ => RtoC 1) (RtoC 1) -> incr p ps -> (forall e, ~ In e (p :: ps) -> f e = Ok (d e)) -> (forall e, ~ In e (p :: ps) -> f e = Ok (d' e)) -> distribution av band d' p ps -> is_band_integral (fun e => RtoC (d e) * 1) p ps 1).
  { intros T av band d d' p ps f Uq A Inc Hd Hd' H. apply (dist_norm T av band d p ps Uq); [|exact A]. apply (dist_ext av band d' d p ps Inc); [|exact H]. intros e He. assert (X := Hd e He). rewrite (Hd' e He) in X. injection X as X. exact X. }
  assert (DM : forall N nbrs t d d' p ps fl (f : R -> result R), (0 < N)%nat -> incr p ps -> (forall e, ~ In e (p :: ps) -> f e = Ok (d e)) -> (forall e, ~ In e (p :: ps) -> f e = Ok (d' e)) -> distributions N nbrs t d' p ps fl -> is_band_integral (fun e => RtoC (d e) * 1) p ps (1 - RtoC (INR (length fl)) / RtoC (INR N))).
  { intros N nbrs t d d' p ps fl f Np Inc Hd Hd' H. apply (dists_norm N nbrs t d p ps fl); [|exact Np]. apply (dists_ext N nbrs t d' d p ps fl Inc); [|exact H]. intros e He. assert (X := Hd e He). rewrite (Hd' e He) in X. injection X as X. exact X. }
  split; [intros d Hd; destruct (C72_square km1 D HM HD) as (d' & Hd' & H); apply (DX _ _ _ d d' _ _ _ bz_uniq B1) with (4 := H) (2 := Hd) (3 := Hd'); cbn; lra|].
  split; [intros s d Hs Hd; destruct (C72_rectangular ek feps D s HK HC HD Hs) as (d' & Hd' & H); apply (DX _ _ _ d d' _ _ _ bz_uniq B1) with (4 := H) (2 := Hd) (3 := Hd'); apply (rect_points_ok D s HD Hs)|].
  split; [intros d Hd; destruct (C72_triangular km1 D HM HD) as (d' & Hd' & H); apply (DX _ _ _ d d' _ _ _ bz_uniq B1) with (4 := H) (2 := Hd) (3 := Hd'); cbn; lra|].
  split; [intros d Hd; destruct (C72_bcc ek D HK HD) as (d' & Hd' & H); apply (DX _ _ _ d d' _ _ _ bz3_uniq B3) with (4 := H) (2 := Hd) (3 := Hd'); cbn; lra|].
  split. { intros d Hd; destruct (C72_sc ek D HK HD) as (d' & Hd' & H). assert (Hd2 : forall e, ~ In e [- D; 0; D]%R -> sc_dos ek 0 e D = Ok (d' e)) by (intros e He; apply Hd'; [exact He|]; apply Rmult_le_pos; [left; apply Rdiv_lt_0_compat; lra|apply Rabs_pos]). apply (DX _ _ _ d d' _ _ _ bz3_uniq B3) with (4 := H) (2 := Hd) (3 := Hd2); cbn; lra. }
  split; [intros d Hd; destruct (C72_fcc ek D HK HD) as (d' & Hd' & H); apply (DX _ _ _ d d' _ _ _ bz3_uniq B3) with (4 := H) (2 := Hd) (3 := Hd'); cbn; lra|].
  split. { intros d Hd; destruct (C72_honeycomb km1 D HM HD) as (d' & Hd' & H). assert (Inc : incr (- D) [- (D / 3); 0; D / 3; D]%R) by (cbn; lra). assert (B := DM 2%nat _ _ d d' _ _ _ (fun e => honeycomb_dos (triangular_dos km1) e D) ltac:(lia) Inc Hd Hd' H). cbn [length] in B. replace (1 - RtoC (INR 0) / RtoC (INR 2)) with (RtoC 1) in B; [exact B|]. change (INR 0) with 0%R. unfold Cdiv. rewrite Cmult_0_l. apply C_ext; cbn; ring. }
  split. { intros d Hd; destruct (C72_kagome km1 D HM HD) as (d' & Hd' & H). assert (Inc : incr (- (2 / 3) * D) [0; D / 3; 2 / 3 * D; 4 / 3 * D]%R) by (cbn; lra). assert (B := DM 3%nat _ _ d d' _ _ _ (fun e => kagome_dos (triangular_dos km1) e D) ltac:(lia) Inc Hd Hd' H). cbn [length] in B. rewrite T3 in B. exact B. }
  intros d Hd; destruct (C72_lieb km1 D HM HD) as (d' & Hd' & H). assert (Inc : incr (- D) [- (D / sqrt 2); 0; D / sqrt 2; D]%R) by (cbn; lra). assert (B := DM 3%nat _ _ d d' _ _ _ (fun e => lieb_dos (square_dos km1) e D) ltac:(lia) Inc Hd Hd' H). cbn [length] in B. rewrite T3 in B. exact B.
Qed.
Print Assumptions C72_normalised.
Example C72_example :
  (exists d, (forall e, ~ In e [- (2); 0; 2]%R -> square_dos km1_legendre e 2 = Ok (d e)) /\
     (exists l, is_bz_average (fun k => RtoC (fst (bloch square (2 / 4) k 0 0) ^ 2)) l /\ is_band_integral (fun e => RtoC (d e) * RtoC (e ^ 2)) (- (2)) [0; 2]%R l) /\
     (exists G, square_gf_z ellipk_legendre Ci 2 = Ok G /\ is_band_integral (fun e => RtoC (d e) * (1 / (Ci - RtoC e))) (- (2)) [0; 2]%R G) /\
     is_band_integral (fun e => RtoC (d e) * 1) (- (2)) [0; 2]%R 1) /\
  (exists d, (forall e, ~ In e [- (2 / 3) * 1; 0; 1 / 3; 2 / 3 * 1; 4 / 3 * 1]%R -> kagome_dos (triangular_dos km1_legendre) e 1 = Ok (d e)) /\
     (exists G, kagome_gf_z (triangular_gf_z ellipk_above) Ci 1 = Ok (G + 1 / (3 * (Ci + RtoC (2 / 3 * 1)))) /\
        is_band_integral (fun e => RtoC (d e) * (1 / (Ci - RtoC e))) (- (2 / 3) * 1) [0; 1 / 3; 2 / 3 * 1; 4 / 3 * 1]%R G) /\
     is_band_integral (fun e => RtoC (d e) * 1) (- (2 / 3) * 1) [0; 1 / 3; 2 / 3 * 1; 4 / 3 * 1]%R (RtoC (2 / 3))).
Proof.
  assert (HM := km1_legendre_ok). split.
  - destruct (C72_square km1_legendre 2 HM ltac:(lra)) as (d & Hd & H). exists d. split; [exact Hd|]. split; [|split].
    + apply (H (fun e => RtoC (e ^ 2))). intros x _. split; cbn [fst snd RtoC].
      * apply (continuous_ext (fun y => Rmult y y)); [intros y; cbn; ring|]. apply (continuous_mult (fun y : R => y) (fun y : R => y)); apply continuous_id.
      * apply continuous_const.
    + apply (C72_square_gf ellipk_legendre km1_legendre 2 d Ci legendre_K_ok HM ltac:(lra) Hd). left. cbn. lra.
    + assert (N := C72_normalised ellipk_above km1_legendre (1 / 1000000) 2 ellipk_above_K (or_introl ellipk_above_cut) HM ltac:(lra)). repeat match goal with X : _ /\ _ |- _ => destruct X end. match goal with X : forall d, _ |- _ => exact (X d Hd) end.
  - destruct (C72_kagome km1_legendre 1 HM ltac:(lra)) as (d & Hd & H). exists d. split; [exact Hd|]. split.
    + apply (C72_kagome_gf ellipk_above km1_legendre 1 d Ci ellipk_above_K ellipk_above_cut HM ltac:(lra) Hd). left. cbn. lra.
    + assert (N := C72_normalised ellipk_above km1_legendre (1 / 1000000) 1 ellipk_above_K (or_introl ellipk_above_cut) HM ltac:(lra)). repeat match goal with X : _ /\ _ |- _ => destruct X end. match goal with X : forall d, _ |- _ => exact (X d Hd) end.
Qed.
