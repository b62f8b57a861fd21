(** * The Matsubara series of pole functions converge to what the code computes: C21, C59, C31, C62, C45 *)
From Coq Require Import List Arith ZArith Reals Lia Lra Psatz Bool.
From Coquelicot Require Import Coquelicot.
From Verif Require Import Base FSum CBase CExp Stat_Model Linalg_Model Linalg_Proofs Mat Backend Pole_Model Pole_Time Pole_Proofs2 Pole_Spec Pole_Bridge Pole_Props Density_Model Density_Proofs Density_Props
  Fourier_Model Fourier_Dft FourierMom_Model FourierMom_Props Matsu_Lim Matsu_Ser Matsu_Sum Matsu_Main.
Import ListNotations.
Local Open Scope R_scope.

(** C21: for 0 < tau < beta, pole_gf_tau is the sum over all Matsubara frequencies; the terms of n and -n-1 are conjugate *)
Theorem C21_matsubara : forall tau poles weights beta, 0 < tau < beta ->
  exists g, gf_tau tau poles weights beta = Ok g /\
    is_lim_seq (fun N => 2 / beta * nsum (K := RF) N (fun n => fst (green_z (iw beta n) poles weights * cexp (- (iw beta n * RtoC tau)))%C)) g.
Proof.
  intros tau poles weights beta H. exists (green_tau tau poles weights beta). split; [apply C21_formula; lra|]. apply (matsubara_inside poles weights beta tau); lra.
Qed.
Print Assumptions C21_matsubara.
(** at equal times the symmetric series gives the mean of the limits from both sides *)
Theorem C21_equal_time : forall poles weights beta, 0 < beta -> length poles = length weights ->
  exists g0 gb, gf_tau 0 poles weights beta = Ok g0 /\ gf_tau beta poles weights beta = Ok gb /\
    is_lim_seq (fun N => 2 / beta * nsum (K := RF) N (fun n => fst (green_z (iw beta n) poles weights))) ((g0 - gb) / 2).
Proof.
  intros P W beta Hb HL. exists (green_tau 0 P W beta), (green_tau beta P W beta). split; [apply C21_formula; lra|]. split; [apply C21_formula; lra|].
  rewrite green_tau_0, green_tau_beta by exact HL.
  match goal with |- is_lim_seq _ ?l => replace l with (Finite (occupation P W beta - lsum (K := RF) W / 2)) by (apply f_equal; set (l' := lsum (K := RF) W); change (car RF) with R in l'; clearbody l'; field) end.
  refine (is_lim_seq_ext _ _ _ _ (matsubara_equal P W beta Hb HL)). intros N. unfold msum. f_equal. apply nsum_ext_R. intros n. replace (- (iw beta n * RtoC 0))%C with (RtoC 0) by ring. rewrite cexp_0. cbn. ring.
Qed.
Print Assumptions C21_equal_time.
(** the pole at 0: sum over odd numbers of sin((2n+1) pi tau)/(2n+1), the square wave *)
Example C21_matsubara_example : is_lim_seq (fun N => 2 * nsum (K := RF) N (fun n => fst (green_z (iw 1 n) [0] [1] * cexp (- (iw 1 n * RtoC (1 / 4))))%C)) (- (1 / 2)).
Proof.
  destruct (C21_matsubara (1/4) [0] [1] 1 ltac:(lra)) as (g & E & L). rewrite C21_formula in E by lra. injection E as <-. cbn [green_tau] in L. rewrite !Rmult_0_r, Ropp_0, exp_0 in L.
  refine (is_lim_seq_ext _ _ _ _ (eq_rect _ (fun l => is_lim_seq _ (Finite l)) L _ _)); [intros N; cbv beta; f_equal; field|field].
Qed.

(** C59: the same for bosons with the frequencies -N..N *)
Theorem C59_matsubara : forall tau poles weights beta, 0 < tau < beta -> List.Forall (fun p => 0 < p) poles ->
  exists g, pole_gf_tau_b tau poles weights beta = Ok g /\
    is_lim_seq (fun N => / beta * (fst (green_z (iv beta 0) poles weights) + 2 * nsum (K := RF) N (fun n => fst (green_z (iv beta (S n)) poles weights * cexp (- (iv beta (S n) * RtoC tau)))%C))) g.
Proof.
  intros tau P W beta Ht HP. eexists. split; [apply C59_formula; [lra|lra|exact HP]|].
  match goal with |- is_lim_seq _ (Finite ?l) => assert (E : l = green_tau_b tau P W beta) end.
  { clear - HP Ht. revert W. induction HP as [|p P Hp HP IH]; intros [|r W]; try reflexivity. cbn [combine map lsum green_tau_b fst snd]. rewrite <- IH. change (@Fadd RF) with Rplus. apply (f_equal2 Rplus); [|reflexivity].
    rewrite (exp_Ropp (beta * p)). assert (X : 1 < exp (beta * p)) by (rewrite <- exp_0; apply exp_increasing; nra). replace (- tau * p) with (- (tau * p)) by ring. set (y := exp (- (tau * p))). field. lra. }
  rewrite E. apply (matsubara_bose P W beta tau); [lra|exact Ht|]. intros H0. rewrite Forall_forall in HP. specialize (HP 0 H0). lra.
Qed.
Print Assumptions C59_matsubara.
Example C59_matsubara_example : exists g, pole_gf_tau_b (1/2) [2] [3] 1 = Ok g /\ g <> 0.
Proof.
  destruct (C59_matsubara (1/2) [2] [3] 1 ltac:(lra) ltac:(constructor; [lra|constructor])) as (g & E & _). exists g. split; [exact E|]. rewrite (C59_formula (1/2) [2] [3] 1 ltac:(lra) ltac:(lra) ltac:(constructor; [lra|constructor])) in E. injection E as <-. cbn [combine map lsum fst snd].
  change (@Fadd RF) with Rplus. change (@F0 RF) with 0. assert (X : 1 < exp (1 * 2)) by (rewrite <- exp_0 at 1; apply exp_increasing; lra). assert (Y := exp_pos (- (1/2) * 2)). assert (Z : 0 < / (exp (1 * 2) - 1)) by (apply Rinv_0_lt_compat; lra). nra.
Qed.

(** C31: with the weights 1 and the first moment known, density_iw converges to the occupation for every pole function *)
Theorem C31_limit : forall qr tri lstsq allclose0 solve, solve_spec RF solve ->
  forall beta (moms P W : list R), 0 < beta -> moms <> [] -> length P = length W -> lsum (K := RF) W = nth 0 moms 0 ->
  exists d : nat -> R,
    (forall N, let iws := map (iw beta) (seq 0 N) in density_iw lstsq (EC qr tri lstsq allclose0) solve iws (map (fun z => green_z z P W) iws) beta (repeat 1 N) moms 0 = Ok (d N)) /\
    is_lim_seq d (occupation P W beta).
Proof. exact density_iw_lim. Qed.
Print Assumptions C31_limit.
Example C31_limit_example : forall qr tri lstsq allclose0, exists d : nat -> R,
  (forall N, let iws := map (iw 1) (seq 0 N) in density_iw lstsq (EC qr tri lstsq allclose0) (mat_solve RF) iws (map (fun z => green_z z [1; -1; 2] [1/4; 1/2; 1/4]) iws) 1 (repeat 1 N) [1; 1/4] 0 = Ok (d N)) /\
  is_lim_seq d (occupation [1; -1; 2] [1/4; 1/2; 1/4] 1).
Proof. intros qr tri lstsq allclose0. apply C31_limit; [apply mat_solve_spec|lra|discriminate|reflexivity|cbn; field]. Qed.

(** C62: the values of iw2tau_dft converge inside of the interval, b (M + 1) frequencies, tau = beta a/b *)
Theorem C62_iw2tau_converges : forall (P W : list R) beta a b, 0 < beta -> (0 < a < b)%nat ->
  exists T : nat -> R, (forall M, exists tau, iw2tau_dft (map (fun j => green_z (iw beta j) P W) (seq 0 (b * S M))) beta = Ok tau /\ nth (2 * a * S M) tau 0 = T M) /\
    is_lim_seq T (green_tau (beta * (INR a / INR b)) P W beta).
Proof. exact iw2tau_dft_lim. Qed.
Print Assumptions C62_iw2tau_converges.
(** not so at the ends: whatever the number of frequencies, the error stays half the jump *)
Theorem C62_iw2tau_ends : forall (P W : list R) beta, 0 < beta -> List.length P = List.length W ->
  exists T0 T1 : nat -> R, (forall M, exists tau, iw2tau_dft (map (fun j => green_z (iw beta j) P W) (seq 0 (S M))) beta = Ok tau /\ nth 0 tau 0 = T0 M /\ nth (2 * S M) tau 0 = T1 M) /\
    is_lim_seq T0 ((green_tau 0 P W beta - green_tau beta P W beta) / 2) /\ is_lim_seq T1 ((green_tau beta P W beta - green_tau 0 P W beta) / 2).
Proof. exact iw2tau_dft_ends. Qed.
Print Assumptions C62_iw2tau_ends.
(** iw2tau_dft does not converge to the function at tau = 0 *)
Theorem C62_iw2tau_ends_refuted : exists (P W : list R) beta (T0 : nat -> R), 0 < beta /\
  (forall M, exists tau, iw2tau_dft (map (fun j => green_z (iw beta j) P W) (seq 0 (S M))) beta = Ok tau /\ nth 0 tau 0 = T0 M) /\
  ~ is_lim_seq T0 (green_tau 0 P W beta).
Proof.
  destruct (C62_iw2tau_ends [0] [1] 1 ltac:(lra) eq_refl) as (T0 & T1 & H & L & _). exists [0], [1], 1, T0. split; [lra|]. split; [intros M; destruct (H M) as (tau & E & X & _); eauto|].
  intros L'. assert (E := is_lim_seq_unique _ _ L). rewrite (is_lim_seq_unique _ _ L') in E. injection E as E. cbn [green_tau] in E. rewrite !Rmult_0_r, Ropp_0, exp_0 in E. lra.
Qed.
Print Assumptions C62_iw2tau_ends_refuted.
Example C62_iw2tau_example : exists T : nat -> R, (forall M, exists tau, iw2tau_dft (map (fun j => green_z (iw 1 j) [0] [1]) (seq 0 (4 * S M))) 1 = Ok tau /\ nth (2 * 1 * S M) tau 0 = T M) /\ is_lim_seq T (- (1 / 2)).
Proof.
  destruct (C62_iw2tau_converges [0] [1] 1 1 4 ltac:(lra) ltac:(lia)) as (T & H & L). exists T. split; [exact H|]. cbn [green_tau] in L. rewrite !Rmult_0_r, Ropp_0, exp_0 in L. match goal with L : is_lim_seq T (Finite ?l) |- _ => replace (- (1 / 2)) with l by field end. exact L.
Qed.

(** C45: with the first moment given iw2tau converges on the whole interval including its ends *)
Theorem C45_iw2tau_converges : forall lstsq lstsq_ec solve, solve_spec RF solve ->
  forall (P W moms : list R) beta a b, 0 < beta -> moms <> [] -> List.length P = List.length W -> lsum (K := RF) W = nth 0 moms 0 -> (a <= b)%nat -> (0 < b)%nat ->
  exists T : nat -> R, (forall M, exists tau, iw2tau lstsq lstsq_ec solve iw2tau_dft (map (fun j => green_z (iw beta j) P W) (seq 0 (b * S M))) beta moms 0 = Ok tau /\ nth (2 * a * S M) tau 0 = T M) /\
    is_lim_seq T (green_tau (beta * (INR a / INR b)) P W beta).
Proof. exact iw2tau_lim. Qed.
Print Assumptions C45_iw2tau_converges.
(** tau = 0 with two poles of total weight 1 *)
Example C45_iw2tau_converges_example : forall lstsq lstsq_ec, exists T : nat -> R,
  (forall M, exists tau, iw2tau lstsq lstsq_ec (mat_solve RF) iw2tau_dft (map (fun j => green_z (iw 1 j) [1; -1] [1/4; 3/4]) (seq 0 (1 * S M))) 1 [1] 0 = Ok tau /\ nth (2 * 0 * S M) tau 0 = T M) /\
  is_lim_seq T (green_tau (1 * (INR 0 / INR 1)) [1; -1] [1/4; 3/4] 1).
Proof. intros lstsq lstsq_ec. apply C45_iw2tau_converges; [apply mat_solve_spec|lra|discriminate|reflexivity|cbn; field|lia|lia]. Qed.
