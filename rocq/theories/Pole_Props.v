(** * Properties of the pole basis: C19 - C23, C59 *)
From Coq Require Import List Arith ZArith QArith Qcanon Reals Lia Lra Bool.
From Coquelicot Require Import Coquelicot.
From Verif Require Import Base FSum CBase CExp Stat_Model Stat_Proofs Linalg_Model Linalg_Proofs Mat Pole_Model Pole_Proofs Pole_Proofs2 Pole_Time Pole_Spec Pole_Bridge.
Import ListNotations.
Local Open Scope R_scope.

(** C19: the moments are the 1/z expansion, with the exact remainder, over any field *)
Theorem C19_moments_expansion : forall (K : Fld) (z : K) poles weights n, z <> F0 -> ~ In z poles ->
  exists g, gf_z z poles weights = Ok g /\
    Fsub g (nsum n (fun k => Fdiv (moments poles weights (S k)) (fpow z (S k))))
    = Fdiv (lsum (map (fun pw => Fdiv (Fmul (snd pw) (fpow (fst pw) n)) (Fsub z (fst pw))) (combine poles weights))) (fpow z n).
Proof. exact pole_moments_expansion. Qed.
Print Assumptions C19_moments_expansion.
(** ... and as an asymptotic expansion: the error of n terms is O(|z|^-(n+1)) *)
Theorem C19_moments_asymptotic : forall (poles weights : list C) n,
  exists M R0, 0 < R0 /\ forall z, R0 <= Cmod z ->
    exists g, gf_z (K := CF) z poles weights = Ok g /\
      Cmod (Cminus g (nsum (K := CF) n (fun k => Cdiv (moments (K := CF) poles weights (S k)) (fpow (K := CF) z (S k))))) <= M / Cmod z ^ (S n).
Proof. exact pole_moments_asymptotic. Qed.
Print Assumptions C19_moments_asymptotic.
Theorem C19_gf_z_at_pole : forall (K : Fld) (z : K) poles weights, In z poles -> gf_z z poles weights = Err NonFinite.
Proof. exact gf_z_pole. Qed.
Print Assumptions C19_gf_z_at_pole.
Example C19_example :
  show (do g <- gf_z (K := QcF) (qc 4) [qc 1; qc (-2)] [qc 3; qc 6]; Ok g) = Ok (2 # 1)%Q /\
  show (Ok (moments (K := QcF) [qc 1; qc (-2)] [qc 3; qc 6] 3)) = Ok (27 # 1)%Q.
Proof. split; vm_compute; reflexivity. Qed.

(** C20 *)
Theorem C20_from_moments : forall (K : Fld) (absK : K -> R) (ofR : R -> K) solve,
  (forall x y, ofR x = ofR y -> x = y) -> solve_spec K solve ->
  forall (moms : list K) width, moms <> [] -> width <> Some 0 ->
  exists poles resid, gf_from_moments absK ofR solve moms width = Ok (poles, resid) /\
    length poles = length moms /\ length resid = length moms /\ NoDup poles /\
    (forall w, width = Some w -> forall p, In p poles -> Rabs p <= Rabs w) /\
    forall k, (k < length moms)%nat -> moment (map ofR poles) resid k = nth k moms F0.
Proof. intros K. rewrite moment_fn. exact (gf_from_moments_spec K). Qed.
Print Assumptions C20_from_moments.
Theorem C20_width_None : forall (K : Fld) (absK : K -> R) (ofR : R -> K) solve (moms : list K) poles resid,
  (2 <= length moms)%nat -> 1 / 10 <= absK (nth 1 moms F0) ->
  gf_from_moments absK ofR solve moms None = Ok (poles, resid) ->
  In (absK (nth 1 moms F0)) poles /\ forall p, In p poles -> Rabs p <= absK (nth 1 moms F0).
Proof. exact gf_from_moments_None. Qed.
Print Assumptions C20_width_None.
Theorem C20_no_moments : forall (K : Fld) (absK : K -> R) (ofR : R -> K) solve width, gf_from_moments absK ofR solve [] width = Ok ([], []).
Proof. exact gf_from_moments_empty. Qed.
Print Assumptions C20_no_moments.
Theorem C20_width_zero : forall (K : Fld) (absK : K -> R) (ofR : R -> K) solve, solve_spec K solve ->
  forall (moms : list K), (2 <= length moms)%nat -> gf_from_moments absK ofR solve moms (Some 0) = Err LinAlgError.
Proof. exact gf_from_moments_width0. Qed.
Print Assumptions C20_width_zero.
Theorem C20_single_moment : forall (K : Fld) (absK : K -> R) (ofR : R -> K) solve, solve_spec K solve ->
  forall (m : K) w, exists r, gf_from_moments absK ofR solve [m] (Some w) = Ok ([0], [r]) /\ r = m.
Proof. exact gf_from_moments_single. Qed.
Print Assumptions C20_single_moment.
(** the contract of np.linalg.solve is satisfiable over every field *)
Theorem C20_solve_exists : forall K : Fld, solve_spec K (mat_solve K).
Proof. exact mat_solve_spec. Qed.
Print Assumptions C20_solve_exists.
Example C20_example : exists poles resid,
  gf_from_moments (K := RF) Rabs (fun x => x) (mat_solve RF) [1; 1/2; 3] None = Ok (poles, resid) /\
  moment (K := RF) (map (fun x => x) poles) resid 2 = 3 /\ In (1/2) poles.
Proof.
  destruct (C20_from_moments RF Rabs (fun x => x) (mat_solve RF) (fun x y E => E) (mat_solve_spec RF) [1; 1/2; 3] None)
    as (p & r & E & _ & _ & _ & _ & HM); [discriminate|discriminate|].
  exists p, r. split; [exact E|]. split; [apply (HM 2%nat); cbn; lia|].
  assert (A : Rabs (nth 1 [1; 1/2; 3] 0) = 1/2) by (cbn [nth]; apply Rabs_right; lra).
  destruct (C20_width_None RF Rabs (fun x => x) (mat_solve RF) [1; 1/2; 3] p r) as (H & _); [cbn; lia| |exact E|].
  - change (1 / 10 <= Rabs (nth 1 [1; 1/2; 3] 0)). rewrite A. lra.
  - change (In (Rabs (nth 1 [1; 1/2; 3] 0)) p) in H. now rewrite A in H.
Qed.

(** C21 *)
Theorem C21_formula : forall tau poles weights beta, 0 <= tau <= beta ->
  gf_tau tau poles weights beta = Ok (green_tau tau poles weights beta).
Proof. exact gf_tau_spec. Qed.
Print Assumptions C21_formula.
Theorem C21_out_of_range : forall tau poles weights beta, ~ 0 <= tau <= beta -> gf_tau tau poles weights beta = Err AssertionError.
Proof. exact gf_tau_range. Qed.
Print Assumptions C21_out_of_range.
Theorem C21_at_beta : forall poles weights beta, 0 <= beta ->
  gf_tau beta poles weights beta
  = Ok (- lsum (K := RF) (map (fun pw => snd pw * / (exp (beta * fst pw) + 1)) (combine poles weights))).
Proof.
  intros poles weights beta H. rewrite gf_tau_beta by exact H. unfold pole_occ. apply (f_equal Ok). f_equal. f_equal.
  apply map_ext. intros [p w]. cbn [fst snd]. now rewrite fermi_def.
Qed.
Print Assumptions C21_at_beta.
Theorem C21_boundary : forall poles weights beta, length poles = length weights -> 0 <= beta ->
  exists g0 gb, gf_tau 0 poles weights beta = Ok g0 /\ gf_tau beta poles weights beta = Ok gb /\ g0 + gb = - lsum (K := RF) weights.
Proof. exact gf_tau_boundary. Qed.
Print Assumptions C21_boundary.
Theorem C21_nonpositive : forall tau poles weights beta g,
  gf_tau tau poles weights beta = Ok g -> List.Forall (fun w => 0 <= w) weights -> g <= 0.
Proof. exact gf_tau_nonpos. Qed.
Print Assumptions C21_nonpositive.
(** equation of motion (-d/dtau - eps) g = 0 of each pole *)
Theorem C21_equation_of_motion : forall tau p beta,
  is_derive (fun t => single_pole_gf_tau t p beta) tau (- p * single_pole_gf_tau tau p beta).
Proof. exact single_pole_derive. Qed.
Print Assumptions C21_equation_of_motion.
(** complex poles with a non-zero real part *)
Theorem C21_complex_pole : forall tau (p : C) beta f, fst p <> 0 -> fermi_fct_c p beta = Ok f ->
  single_pole_gf_tau_c tau p beta = Ok (Cmult (Copp (Cminus 1 f)) (cexp (Cmult (RtoC (- tau)) p))).
Proof. exact single_pole_c_formula. Qed.
Print Assumptions C21_complex_pole.
(** purely imaginary poles: np.sign is 0 and the Fermi factor is lost *)
Theorem C21_complex_pole_refuted : exists tau (p : C) beta f g, 0 <= tau <= beta /\
  fermi_fct_c p beta = Ok f /\ single_pole_gf_tau_c tau p beta = Ok g /\
  g <> Cmult (Copp (Cminus 1 f)) (cexp (Cmult (RtoC (- tau)) p)).
Proof.
  destruct single_pole_c_imaginary as (H1 & H2). exists 0, (0, 1/2), PI, (1/2, -1/2), (RtoC (-1/2)).
  assert (P := PI_RGT_0). split; [lra|]. split; [exact H2|]. split; [exact H1|].
  replace (Cmult (RtoC (- 0)) (0, 1/2)) with (RtoC 0) by (apply C_ext; cbn; ring).
  rewrite cexp_0. intros E. apply (f_equal snd) in E. cbn in E. lra.
Qed.
Print Assumptions C21_complex_pole_refuted.
Example C21_example : gf_tau 0 [0; 0] [1; 3] 5 = Ok (-2).
Proof.
  rewrite C21_formula by lra. apply (f_equal Ok). cbn [green_tau]. rewrite !Rmult_0_r, Ropp_0, exp_0. lra.
Qed.

(** C22, pole functions *)
Theorem C22_ret_negative_time : forall tt poles weights, tt < 0 -> gf_ret_t tt poles weights = RtoC 0.
Proof. exact gf_ret_t_neg. Qed.
Print Assumptions C22_ret_negative_time.
Theorem C22_ret_positive_time : forall tt poles weights, 0 <= tt ->
  gf_ret_t tt poles weights
  = Cmult (Copp Ci) (lsum (K := CF) (map (fun pw => Cmult (snd pw) (cexp (Cmult (Copp Ci) (Cmult (RtoC tt) (fst pw))))) (combine poles weights))).
Proof. exact gf_ret_t_pos. Qed.
Print Assumptions C22_ret_positive_time.
Theorem C22_gr_minus_le : forall tt pole beta, 0 <= tt ->
  Cminus (single_pole_gf_gr_t tt pole beta) (single_pole_gf_le_t tt pole beta) = single_pole_gf_ret_t tt (RtoC pole).
Proof. exact single_gr_le_ret. Qed.
Print Assumptions C22_gr_minus_le.
Theorem C22_fluctuation_dissipation : forall tt pole beta,
  single_pole_gf_le_t tt pole beta = Cmult (RtoC (- exp (- (beta * pole)))) (single_pole_gf_gr_t tt pole beta).
Proof. exact single_fdt. Qed.
Print Assumptions C22_fluctuation_dissipation.
Example C22_example : gf_ret_t 0 [Ci; RtoC 2] [RtoC 1; RtoC 3] = Cmult (RtoC (-4)) Ci /\ gf_ret_t (-1) [RtoC 1] [RtoC 1] = 0.
Proof.
  split; [|apply C22_ret_negative_time; lra]. rewrite C22_ret_positive_time by lra.
  cbn [combine map fst snd]. rewrite !(lsum_cons CF). cbn [lsum fold_right map].
  replace (Cmult (Copp Ci) (Cmult 0 Ci)) with (RtoC 0) by ring. replace (Cmult (Copp Ci) (Cmult 0 2)) with (RtoC 0) by ring.
  rewrite cexp_0. apply C_ext; cbn; ring.
Qed.

(** C23 *)
Theorem C23_derivative : forall (poles weights : list C) (z : C), ~ In z poles ->
  exists d, gf_d1_z (K := CF) z poles weights = Ok d /\
    is_cderive (fun w => match gf_z (K := CF) w poles weights with Ok g => g | Err _ => RtoC 0 end) z d.
Proof. exact gf_z_derive. Qed.
Print Assumptions C23_derivative.
Example C23_example : show (gf_d1_z (K := QcF) (qc 3) [qc 1; qc 5] [qc 2; qc 8]) = Ok (-(5 # 2))%Q.
Proof. vm_compute. reflexivity. Qed.

(** C59: bosonic imaginary-time pole functions (pole_gf_tau_b) *)
Theorem C59_formula : forall tau poles weights beta, 0 <= tau <= beta -> 0 < beta -> List.Forall (fun p => 0 < p) poles ->
  pole_gf_tau_b tau poles weights beta
  = Ok (lsum (K := RF) (map (fun pw => - snd pw * (1 + / (exp (beta * fst pw) - 1)) * exp (- tau * fst pw)) (combine poles weights))).
Proof. exact pole_gf_tau_b_formula. Qed.
Print Assumptions C59_formula.
Theorem C59_negative_pole : forall tau poles weights beta p, 0 <= tau <= beta -> In p poles -> p < 0 ->
  pole_gf_tau_b tau poles weights beta = Err ValueError.
Proof. exact pole_gf_tau_b_negative. Qed.
Print Assumptions C59_negative_pole.
(** The documentation promises ValueError for every pole <= 0; a pole at 0 divides by zero instead. *)
Theorem C59_zero_pole_refuted : exists tau poles weights beta p, 0 <= tau <= beta /\ 0 < beta /\ In p poles /\ p <= 0 /\
  pole_gf_tau_b tau poles weights beta <> Err ValueError.
Proof.
  exists 0, [0], [1], 1, 0. repeat split; try lra; [now left|]. rewrite pole_gf_tau_b_zero by lra. discriminate.
Qed.
Print Assumptions C59_zero_pole_refuted.
Theorem C59_boundary : forall poles weights beta, length poles = length weights -> 0 < beta -> List.Forall (fun p => 0 < p) poles ->
  exists g0 gb, pole_gf_tau_b 0 poles weights beta = Ok g0 /\ pole_gf_tau_b beta poles weights beta = Ok gb /\
    g0 - gb = - lsum (K := RF) weights.
Proof. exact pole_gf_tau_b_boundary. Qed.
Print Assumptions C59_boundary.
(** the zeroth bosonic Matsubara frequency: the integral over tau is the static susceptibility *)
Theorem C59_integral : forall poles weights beta, 0 < beta -> List.Forall (fun p => 0 < p) poles ->
  is_RInt (fun tau => match pole_gf_tau_b tau poles weights beta with Ok g => g | Err _ => 0 end) 0 beta
    (- lsum (K := RF) (map (fun pw => snd pw / fst pw) (combine poles weights))).
Proof. exact pole_gf_tau_b_integral. Qed.
Print Assumptions C59_integral.
Example C59_example : pole_gf_tau_b 0 [ln 2] [3] 1 = Ok (-6).
Proof.
  assert (L : 0 < ln 2) by (rewrite <- ln_1; apply ln_increasing; lra).
  rewrite C59_formula; [|lra|lra|repeat constructor; exact L]. apply (f_equal Ok).
  cbn [combine map fst snd]. rewrite (lsum_cons RF). cbn [lsum Fadd RF fold_right map].
  replace (1 * ln 2) with (ln 2) by ring. replace (- 0 * ln 2) with 0 by ring. rewrite exp_ln, exp_0 by lra.
  cbn. field.
Qed.
