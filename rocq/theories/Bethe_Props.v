(** * C46, C47, C48, C49, C53: lattices with closed forms *)
From Coq Require Import Reals Lra Psatz Field.
From Coquelicot Require Import Coquelicot.
From Verif Require Import Base CBase CExp CSqrt Lattice_Model Bethe_Proofs Bethe_Main LatDos_Proofs LatBox_Proofs Dimer_Spec Dimer_Proofs.
Local Open Scope C_scope.

(** ** C46 *)
(** G solves the semi-circular self-consistency equation and gf_z_inv recovers z: for every z where gf_z is finite *)
Theorem C46_equation : forall (z G : C) (D : R), (0 < D)%R -> bethe_gf_z z D = Ok G ->
  (D / 2) * (D / 2) * (G * G) - z * G + 1 = 0 /\ bethe_gf_z_inv G D = Ok z.
Proof. intros z G D HD. apply bethe_equation. exact HD. Qed.
Print Assumptions C46_equation.
(** it is finite except at z = 0 *)
Theorem C46_finite : forall (z : C) (D : R), (0 < D)%R -> (exists G, bethe_gf_z z D = Ok G) <-> z <> 0.
Proof.
  intros z D HD. split.
  - intros [G H]. exact (proj1 (bethe_inv D HD z G H)).
  - intros H. eexists. apply (bethe_ok D HD z H).
Qed.
Print Assumptions C46_finite.
(** physical branch: the imaginary part has the sign opposite to z, the modulus is bounded *)
Theorem C46_branch : forall (z G : C) (D : R), (0 < D)%R -> bethe_gf_z z D = Ok G ->
  ((0 < snd z)%R -> (snd G < 0)%R) /\ ((snd z < 0)%R -> (0 < snd G)%R) /\ (Cmod G <= 2 / D)%R.
Proof. intros z G D HD H. destruct (bethe_im D HD z G H). split; [assumption|]. split; [assumption|]. exact (bethe_bound D HD z G H). Qed.
Print Assumptions C46_branch.
(** all values of modulus below 2/D are attained and gf_z_inv gives the frequency *)
Theorem C46_inverse : forall (G : C) (D : R), (0 < D)%R -> G <> 0 -> (Cmod G < 2 / D)%R ->
  exists z, bethe_gf_z_inv G D = Ok z /\ bethe_gf_z z D = Ok G.
Proof. intros G D HD. apply bethe_inv_left. exact HD. Qed.
Print Assumptions C46_inverse.
(** z = 3i/4: G = -i *)
Example C46_ex : bethe_gf_z (0%R, (3 / 4)%R) 1 = Ok (0%R, (-1)%R) /\ bethe_gf_z_inv (0%R, (-1)%R) 1 = Ok (0%R, (3 / 4)%R).
Proof.
  assert (N : ((0%R, (3 / 4)%R) : C) <> 0) by (intros E; injection E as E; lra).
  assert (E1 : bethe_gf_z (0%R, (3 / 4)%R) 1 = Ok (0%R, (-1)%R)).
  { rewrite (bethe_ok 1 ltac:(lra)) by exact N. f_equal. unfold uu, sq.
    assert (W : (0%R, (3 / 4)%R) / RtoC 1 = (0%R, (3 / 4)%R)) by (field; exact C1_neq0). rewrite W.
    assert (S : csqrt (1 - 1 / ((0%R, (3 / 4)%R) * (0%R, (3 / 4)%R))) = RtoC (5 / 3)).
    { apply csqrt_unique; [|cbn; lra]. apply C_ext; cbn; field. }
    rewrite S. apply C_ext; cbn; field. }
  split; [exact E1|]. exact (proj2 (C46_equation _ _ 1 ltac:(lra) E1)).
Qed.

(** ** C47: for every function that agrees with gf_z off the band, gf_d1_z is its complex derivative, and likewise gf_d2_z *)
Theorem C47_d1 : forall (D : R) (z : C) (g : C -> C), (0 < D)%R -> snd z <> 0%R \/ (D < Rabs (fst z))%R ->
  (forall x : C, snd x <> 0%R \/ (D < Rabs (fst x))%R -> bethe_gf_z x D = Ok (g x)) ->
  exists d, bethe_gf_d1_z z D = Ok d /\ is_cderive g z d.
Proof. intros D z g HD. exact (bethe_d1_derive D HD z g). Qed.
Print Assumptions C47_d1.
Theorem C47_d2 : forall (D : R) (z : C) (g : C -> C), (0 < D)%R -> snd z <> 0%R \/ (D < Rabs (fst z))%R ->
  (forall x : C, snd x <> 0%R \/ (D < Rabs (fst x))%R -> bethe_gf_d1_z x D = Ok (g x)) ->
  exists d, bethe_gf_d2_z z D = Ok d /\ is_cderive g z d.
Proof. intros D z g HD. exact (bethe_d2_derive D HD z g). Qed.
Print Assumptions C47_d2.
(** such g exist, and at z = 5/4 (D = 1) the derivative is -4/3 *)
Example C47_ex : (exists g : C -> C, forall x : C, snd x <> 0%R \/ (1 < Rabs (fst x))%R -> bethe_gf_z x 1 = Ok (g x))
  /\ (exists g : C -> C, forall x : C, snd x <> 0%R \/ (1 < Rabs (fst x))%R -> bethe_gf_d1_z x 1 = Ok (g x))
  /\ bethe_gf_d1_z (RtoC (5 / 4)) 1 = Ok (RtoC (-4 / 3)).
Proof.
  assert (H1 : (0 < 1)%R) by lra. split; [|split].
  - exists (fun z => 2 / 1 * uu (z / 1)). intros x Hx. apply (bethe_ok 1 H1), (off_band_neq0 1 H1), Hx.
  - exists (fun z => 2 / (1 * 1) * (1 - 1 / sq (z / 1))). intros x Hx. destruct (bethe_d1 1 H1 x Hx) as (d & E & _). rewrite E. f_equal. exact (bethe_d1_val 1 H1 x d Hx E).
  - unfold bethe_gf_d1_z. rewrite cdiv_ok by (apply RtoC_neq0; lra). cbn [bind]. rewrite cdiv_ok by (apply Cmult_neq_0; exact C1_neq0). cbn [bind].
    assert (S : csqrt (1 - RtoC 1 / RtoC (5 / 4) * (RtoC 1 / RtoC (5 / 4))) = RtoC (3 / 5)) by (apply csqrt_unique; [apply C_ext; cbn; field|cbn; lra]).
    rewrite S, cdiv_ok by (apply RtoC_neq0; lra). cbn [bind]. f_equal. apply C_ext; cbn; field.
Qed.

(** ** C48 *)
Theorem C48_chain : forall (z : C) (D : R), (0 < D)%R -> bethez_gf_z z D 2 = onedim_gf_z z D.
Proof. intros z D HD. apply bethez_2. exact HD. Qed.
Print Assumptions C48_chain.
Theorem C48_bethe_limit : forall (z G : C) (D : R), (0 < D)%R -> bethe_gf_z z D = Ok G -> forall eps, (0 < eps)%R -> exists Z0, forall Z, (Z0 < Z)%R ->
  exists GZ, bethez_gf_z z D Z = Ok GZ /\ (Cmod (GZ - G)%C < eps)%R.
Proof. intros z G D HD. apply bethez_limit. exact HD. Qed.
Print Assumptions C48_bethe_limit.
(** cavity construction: the branch g couples to Z-1 further branches, a site to Z branches, hopping t with D = 2 t sqrt(Z-1) *)
Theorem C48_cavity : forall (z : C) (D Z t : R) (g G : C), (0 < D)%R -> (1 < Z)%R -> (4 * (Z - 1) * (t * t) = D * D)%R ->
  bethe_gf_z z D = Ok g -> bethez_gf_z z D Z = Ok G ->
  g * (z - (Z - 1) * (t * t) * g) = 1 /\ G * (z - Z * (t * t) * g) = 1.
Proof. intros z D Z t g G HD. apply bethez_cavity. exact HD. Qed.
Print Assumptions C48_cavity.
Theorem C48_dos_chain : forall (eps D : R), (0 < D)%R -> bethez_dos eps D 2 = onedim_dos eps D.
Proof.
  intros eps D HD. assert (HP := PI_RGT_0). unfold bethez_dos, onedim_dos. destruct (Rlt_dec 1 2) as [_|]; [|lra]. rewrite rdiv_ok by lra. cbn [bind]. set (e := (eps / D)%R).
  destruct (Rle_dec (Rabs e) 1) as [He|]; [|reflexivity]. rewrite !rdiv_ok by nra. cbn [bind].
  assert (Hp : (0 <= 1 - e * e)%R). { assert (e * e <= 1)%R; [|lra]. rewrite <- (Rabs_pos_eq (e * e)), Rabs_mult by nra. assert (H0 := Rabs_pos e). nra. }
  assert (Q := sqrt_sqrt _ Hp). assert (Q0 := sqrt_pos (1 - e * e)). set (q := sqrt (1 - e * e)) in *.
  replace (2 * 2 - 4 * (2 - 1) * (e * e))%R with (4 * (q * q))%R by (rewrite Q; ring). destruct (Req_dec q 0) as [E|E].
  - rewrite E. unfold rdiv. destruct (Req_EM_T (4 * (0 * 0)) 0) as [|N]; [|lra]. destruct (Req_EM_T 0 0) as [|N]; [reflexivity|lra].
  - rewrite !rdiv_ok by nra. f_equal. field. repeat split; lra.
Qed.
Print Assumptions C48_dos_chain.
(** gf_z accepts every Z > 1 but for Z < 2 it has a pole outside of the band, with no weight in dos *)
Theorem C48_low_coordination_refuted : exists (z : C) (D Z : R), (0 < D)%R /\ (1 < Z)%R /\ snd z = 0%R /\ (D < fst z)%R /\ bethez_gf_z z D Z = Err NonFinite.
Proof.
  assert (S := sqrt_sqrt (9 / 8) ltac:(lra)). assert (S0 := sqrt_lt_R0 (9 / 8) ltac:(lra)). set (x := sqrt (9 / 8)) in *.
  exists (RtoC x), 1%R, (3 / 2)%R. assert (Hx : (1 < x)%R) by nra. repeat split; [lra|lra|exact Hx|].
  unfold bethez_gf_z. destruct (Rlt_dec 1 (3 / 2)) as [_|]; [|lra]. rewrite cdiv_ok by (apply RtoC_neq0; lra). cbn [bind]. rewrite cdiv_ok by exact C1_neq0. cbn [bind].
  assert (Q : csqrt (1 - RtoC 1 / RtoC x * (RtoC 1 / RtoC x)) = RtoC (1 / 3)).
  { apply csqrt_unique; [|cbn; lra]. rewrite <- RtoC_div by lra. rewrite <- !RtoC_mult, <- RtoC_minus. f_equal.
    replace (1 / x * (1 / x))%R with (1 / (x * x))%R by (field; lra). rewrite S. field. }
  rewrite Q. unfold cdiv. destruct (Ceq_dec _ 0) as [|N]; [reflexivity|]. exfalso. apply N. rewrite <- RtoC_minus, <- RtoC_mult, <- RtoC_plus. f_equal. field.
Qed.
Print Assumptions C48_low_coordination_refuted.
(** Z = 2, z = 5/4: both give 4/3 *)
Example C48_ex : onedim_gf_z (RtoC (5 / 4)) 1 = Ok (RtoC (4 / 3)) /\ bethez_gf_z (RtoC (5 / 4)) 1 2 = Ok (RtoC (4 / 3)).
Proof.
  assert (E : onedim_gf_z (RtoC (5 / 4)) 1 = Ok (RtoC (4 / 3))).
  { unfold onedim_gf_z. rewrite cdiv_ok by (apply RtoC_neq0; lra). cbn [bind]. rewrite cdiv_ok by exact C1_neq0. cbn [bind].
    assert (S : csqrt (1 - RtoC 1 / RtoC (5 / 4) * (RtoC 1 / RtoC (5 / 4))) = RtoC (3 / 5)) by (apply csqrt_unique; [apply C_ext; cbn; field|cbn; lra]).
    rewrite S, cdiv_ok by (apply RtoC_neq0; lra). f_equal. apply C_ext; cbn; field. }
  split; [exact E|]. rewrite C48_chain by lra. exact E.
Qed.

(** ** C49: dos(eps) is the limit of -Im gf_z(eps + i h)/pi for h -> 0+ *)
Theorem C49_bethe : forall eps D : R, (0 < D)%R -> exists d, bethe_dos eps D = Ok d /\
  forall t, (0 < t)%R -> exists r, (0 < r)%R /\ forall h, (0 < h < r)%R -> exists G, bethe_gf_z (eps, h) D = Ok G /\ (Rabs (- snd G / PI - d) < t)%R.
Proof. intros eps D HD. exact (bethe_spectral D HD eps). Qed.
Print Assumptions C49_bethe.
(** onedim diverges at the band edges; elsewhere *)
Theorem C49_onedim : forall eps D : R, (0 < D)%R -> Rabs (eps / D) <> 1%R -> exists d, onedim_dos eps D = Ok d /\
  forall t, (0 < t)%R -> exists r, (0 < r)%R /\ forall h, (0 < h < r)%R -> exists G, onedim_gf_z (eps, h) D = Ok G /\ (Rabs (- snd G / PI - d) < t)%R.
Proof. intros eps D HD. exact (onedim_spectral D HD eps). Qed.
Print Assumptions C49_onedim.
Theorem C49_bethez : forall eps D Z : R, (0 < D)%R -> (2 <= Z)%R -> (2 < Z)%R \/ Rabs (eps / D) <> 1%R -> exists d, bethez_dos eps D Z = Ok d /\
  forall t, (0 < t)%R -> exists r, (0 < r)%R /\ forall h, (0 < h < r)%R -> exists G, bethez_gf_z (eps, h) D Z = Ok G /\ (Rabs (- snd G / PI - d) < t)%R.
Proof. intros eps D Z HD. exact (bethez_spectral D HD eps Z). Qed.
Print Assumptions C49_bethez.
Theorem C49_box : forall eps D : R, (0 < D)%R -> Rabs eps <> D -> exists d, box_dos eps D = Ok d /\
  forall t, (0 < t)%R -> exists r, (0 < r)%R /\ forall h, (0 < h < r)%R -> exists G, box_gf_z (eps, h) D = Ok G /\ (Rabs (- snd G / PI - d) < t)%R.
Proof. intros eps D HD. exact (box_spectral D eps HD). Qed.
Print Assumptions C49_box.

(** non-negative, even, zero outside of the band *)
Definition dos_shape (dos : R -> R -> result R) : Prop := forall eps D d, (0 < D)%R -> dos eps D = Ok d ->
  (0 <= d)%R /\ dos (- eps)%R D = Ok d /\ ((D < Rabs eps)%R -> d = 0%R).
Lemma scaled_abs eps D : (0 < D)%R -> (D < Rabs eps)%R -> (1 < Rabs (eps / D))%R.
Proof.
  intros HD H. unfold Rdiv. rewrite Rabs_mult, (Rabs_pos_eq (/ D)) by (left; apply Rinv_0_lt_compat; lra).
  apply (Rmult_lt_reg_r D); [lra|]. rewrite Rmult_assoc, Rinv_l by lra. lra.
Qed.
Lemma neg_scale eps D : (0 < D)%R -> (- eps / D = - (eps / D))%R. Proof. intros. field. lra. Qed.
Theorem C49_shape : dos_shape bethe_dos /\ dos_shape onedim_dos /\ (forall Z, (1 < Z)%R -> dos_shape (fun eps D => bethez_dos eps D Z)) /\ dos_shape box_dos.
Proof.
  assert (HP := PI_RGT_0). repeat apply conj.
  - intros eps D d HD. unfold bethe_dos. rewrite !rdiv_ok by lra. cbn [bind]. rewrite neg_scale by lra. set (e := (eps / D)%R). rewrite Rabs_Ropp. replace (- e * - e)%R with (e * e)%R by ring.
    intros [= <-]. split; [|split; [reflexivity|]].
    + destruct (Rlt_dec (Rabs e) 1); [|lra]. apply Rmult_le_pos; [apply Rdiv_le_0_compat; nra|apply sqrt_pos].
    + intros Ho. apply scaled_abs in Ho; [|exact HD]. fold e in Ho. destruct (Rlt_dec (Rabs e) 1); lra.
  - intros eps D d HD. unfold onedim_dos. rewrite !(rdiv_ok _ D) by lra. cbn [bind]. rewrite neg_scale by lra. set (e := (eps / D)%R). rewrite Rabs_Ropp. replace (- e * - e)%R with (e * e)%R by ring.
    rewrite !rdiv_ok by nra. cbn [bind]. intros H. split; [|split; [exact H|]].
    + destruct (Rle_dec (Rabs e) 1); [|injection H as <-; lra]. unfold rdiv in H. destruct (Req_EM_T _ 0) as [|N]; [discriminate|]. injection H as <-. assert (S := sqrt_pos (1 - e * e)).
      apply Rdiv_le_0_compat; [apply Rdiv_le_0_compat; nra|lra].
    + intros Ho. apply scaled_abs in Ho; [|exact HD]. fold e in Ho. destruct (Rle_dec (Rabs e) 1); [lra|]. now injection H.
  - intros Z HZ eps D d HD. unfold bethez_dos. destruct (Rlt_dec 1 Z); [|lra]. rewrite !(rdiv_ok _ D) by lra. cbn [bind]. rewrite neg_scale by lra. set (e := (eps / D)%R). rewrite Rabs_Ropp. replace (- e * - e)%R with (e * e)%R by ring.
    rewrite !(rdiv_ok _ (D * PI)%R) by nra. cbn [bind]. intros H. split; [|split; [exact H|]].
    + destruct (Rle_dec (Rabs e) 1) as [He|]; [|injection H as <-; lra]. unfold rdiv in H. destruct (Req_EM_T _ 0) as [|N]; [discriminate|]. injection H as <-.
      assert (e * e <= 1)%R. { rewrite <- (Rabs_pos_eq (e * e)), Rabs_mult by nra. assert (H0 := Rabs_pos e). nra. }
      assert (0 <= Z * Z - 4 * (Z - 1) * (e * e))%R by (assert (X := Rle_0_sqr (Z - 2)); unfold Rsqr in X; nra).
      apply Rdiv_le_0_compat; [|lra]. apply Rmult_le_pos; [apply Rdiv_le_0_compat; nra|apply sqrt_pos].
    + intros Ho. apply scaled_abs in Ho; [|exact HD]. fold e in Ho. destruct (Rle_dec (Rabs e) 1); [lra|]. now injection H.
  - intros eps D d HD. unfold box_dos. rewrite rdiv_ok by lra. cbn [bind]. rewrite Rabs_Ropp. intros [= <-]. split; [|split; [reflexivity|]].
    + destruct (Rlt_dec (Rabs eps) D); [apply Rdiv_le_0_compat; lra|lra].
    + intros Ho. destruct (Rlt_dec (Rabs eps) D); lra.
Qed.
Print Assumptions C49_shape.
Example C49_ex : bethe_dos (3 / 5) 1 = Ok (8 / (5 * PI))%R /\ onedim_dos (3 / 5) 1 = Ok (5 / (4 * PI))%R /\ box_dos (3 / 5) 1 = Ok (1 / 2)%R.
Proof.
  assert (HP := PI_RGT_0). assert (S : sqrt (1 - 3 / 5 / 1 * (3 / 5 / 1)) = (4 / 5)%R). { replace (1 - 3 / 5 / 1 * (3 / 5 / 1))%R with (4 / 5 * (4 / 5))%R by field. apply sqrt_square. lra. }
  assert (A : Rabs (3 / 5 / 1) = (3 / 5)%R) by (rewrite Rabs_pos_eq; lra). assert (A2 : Rabs (3 / 5) = (3 / 5)%R) by (rewrite Rabs_pos_eq; lra).
  unfold bethe_dos, onedim_dos, box_dos. rewrite !rdiv_ok by lra. cbn [bind]. rewrite A, A2, S. destruct (Rlt_dec (3 / 5) 1); [|lra]. destruct (Rle_dec (3 / 5) 1); [|lra]. rewrite !rdiv_ok by lra. cbn [bind]. rewrite ?rdiv_ok by lra.
  repeat split; f_equal; field; lra.
Qed.

(** ** C53 *)
(** the surface of a semi-infinite chain with hopping t; any energy shift *)
Theorem C53_surface : forall (z eps : C) (t : R) (g : C), (0 < t)%R -> surface_gf_zeps z eps t = Ok g ->
  t * t * (g * g) - (z - eps) * g + 1 = 0 /\ ((0 < snd (z - eps)%C)%R -> (snd g < 0)%R) /\ (Cmod g <= 1 / t)%R.
Proof. exact surface_equation. Qed.
Print Assumptions C53_surface.
Theorem C53_hubbard_I : forall z U n S : C, hubbard_I_self_z z U n = Ok S -> z <> 0 -> z <> U ->
  z - S <> 0 /\ 1 / (z - S) = (1 - n) / z + n / (z - U).
Proof. exact hubbard_I_atomic. Qed.
Print Assumptions C53_hubbard_I.
(** The dimer Green's function is the one of exact diagonalisation: a ground state of the documented Hamiltonian on the
    full Fock space at half filling, Green's function of (c_1 +- c_2)/sqrt 2, either spin. *)
Theorem C53_dimer : forall (z G : C) (t U : R) (kind up : bool), t <> 0%R \/ (0 < U)%R -> hubbard_dimer_gf_z z t U kind = Ok G ->
  exists E v, ground_state t U E v /\ lehmann t U E v up (if kind then 1%R else (-1)%R) z G.
Proof. intros z G t U kind up H HG. destruct (dimer_lehmann t U H z G kind up HG) as (v & A & B). eexists. exists v. split; [exact A|exact B]. Qed.
Print Assumptions C53_dimer.
Theorem C53_dimer_particle_hole : forall (z : C) (t U : R) (kind : bool) (G : C), hubbard_dimer_gf_z z t U kind = Ok G ->
  hubbard_dimer_gf_z (RtoC U - z) t U (negb kind) = Ok (- G).
Proof. exact dimer_particle_hole. Qed.
Print Assumptions C53_dimer_particle_hole.
(** spectral weight one: z G(z) -> 1 *)
Theorem C53_dimer_weight : forall (t U : R) (kind : bool), t <> 0%R \/ U <> 0%R -> forall e, (0 < e)%R -> exists r, forall z : C, (r < Cmod z)%R ->
  exists G, hubbard_dimer_gf_z z t U kind = Ok G /\ (Cmod (z * G - 1)%C < e)%R.
Proof. exact dimer_weight. Qed.
Print Assumptions C53_dimer_weight.
(** t = 1, U = 3: W = 5/2, E0 = -1; at z = 1, 9/10/(1-0) + 1/10/(1-5) *)
Example C53_ex : hubbard_dimer_gf_z 1 1 3 true = Ok (RtoC (35 / 40)) /\ hubbard_I_self_z 2 3 (RtoC (1 / 2)) = Ok (RtoC 6).
Proof.
  split.
  - unfold hubbard_dimer_gf_z. assert (S : sqrt (1 / 4 * 3 * 3 + 4 * 1 * 1) = (5 / 2)%R) by (replace (1 / 4 * 3 * 3 + 4 * 1 * 1)%R with (5 / 2 * (5 / 2))%R by field; apply sqrt_square; lra).
    rewrite S, rdiv_ok by lra. cbn [bind].
    rewrite cdiv_ok by (rewrite <- RtoC_minus; apply RtoC_neq0; lra). cbn [bind]. rewrite cdiv_ok by (rewrite <- RtoC_minus; apply RtoC_neq0; lra). cbn [bind].
    f_equal. rewrite <- !RtoC_minus, <- !RtoC_div, <- RtoC_plus by lra. f_equal. field.
  - unfold hubbard_I_self_z. rewrite <- !RtoC_mult, <- RtoC_minus, <- RtoC_plus. rewrite cdiv_ok by (apply RtoC_neq0; lra). f_equal. rewrite <- RtoC_div by lra. f_equal. field.
Qed.
