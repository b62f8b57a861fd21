(** * Property C79: beta = np.inf is zero temperature, except for states at the Fermi level *)
From Coq Require Import List Arith Reals Lra Lia Bool.
From Coquelicot Require Import Coquelicot.
From Verif Require Import Base FSum CBase CExp Herm_Model Herm_Spec Linalg_Model Stat_Model Stat_Proofs Pole_Model Pole_Time Matrix_Model ZeroT_Model ZeroT_Proofs.
Import ListNotations.
Local Open Scope R_scope.

(** for finite beta the extended arithmetic gives the functions of the other properties *)
Theorem C79_finite : forall (eps tau : R) (poles weights : list R) (b : R),
  xfermi_fct eps (XR b) = XR (fermi_fct eps b) /\
  (forall n, bose_fct (NFlt eps) (NFlt b) = Ok n -> xbose_fct eps (XR b) = XR (nval n)) /\
  xgf_tau tau poles weights (XR b) = match gf_tau tau poles weights b with Ok g => Ok (XR g) | Err e => Err e end /\
  xpole_occ poles weights (XR b) = XR (pole_occ poles weights b) /\
  (forall tt, xsingle_pole_gf_gr_t tt eps (XR b) = Some (single_pole_gf_gr_t tt eps b) /\ xsingle_pole_gf_le_t tt eps (XR b) = Some (single_pole_gf_le_t tt eps b)).
Proof.
  intros eps tau poles weights b. split; [reflexivity|]. split; [exact (xbose_fin eps b)|]. split; [apply xgf_tau_fin|]. split; [apply xocc_fin|]. intros tt. apply gr_le_fin.
Qed.
Print Assumptions C79_finite.

(** the occupation of a state is the step function, the limit of the Fermi and the Bose function *)
Theorem C79_statistics : forall eps : R, eps <> 0 -> let f := if Rlt_dec eps 0 then 1 else 0 in
  xfermi_fct eps XPos = XR f /\ is_lim (fermi_fct eps) p_infty f /\
  xbose_fct eps XPos = XR (- f) /\ is_lim (fun b => match bose_fct (NFlt eps) (NFlt b) with Ok n => nval n | Err _ => 0 end) p_infty (- f).
Proof.
  intros eps H f. split; [now apply xfermi_inf|]. split; [now apply lim_fermi|]. split; [now apply xbose_inf|now apply lim_bose].
Qed.
Print Assumptions C79_statistics.

(** imaginary time Green's function and occupation of pole functions *)
Theorem C79_tau : forall tau poles weights, 0 <= tau -> ~ In 0 poles ->
  exists g, xgf_tau tau poles weights XPos = Ok (XR g) /\
    g = lsum (K := RF) (map (fun pw => snd pw * (if Rlt_dec 0 (fst pw) then - exp (- tau * fst pw) else 0)) (combine poles weights)) /\
    is_lim (fun b => match gf_tau tau poles weights b with Ok v => v | Err _ => 0 end) p_infty g.
Proof. intros tau poles weights Ht H0. destruct (gf_tau_inf tau poles weights Ht H0) as (E & L). eexists. split; [exact E|]. split; [reflexivity|exact L]. Qed.
Print Assumptions C79_tau.
Theorem C79_occ : forall poles weights, ~ In 0 poles ->
  exists n, xpole_occ poles weights XPos = XR n /\
    n = lsum (K := RF) (map (fun pw => snd pw * (if Rlt_dec (fst pw) 0 then 1 else 0)) (combine poles weights)) /\
    is_lim (pole_occ poles weights) p_infty n.
Proof. intros poles weights H0. destruct (occ_inf poles weights H0) as (E & L). eexists. split; [exact E|]. split; [reflexivity|exact L]. Qed.
Print Assumptions C79_occ.
Theorem C79_tau_b : forall tau poles weights, 0 <= tau -> List.Forall (fun p => 0 < p) poles ->
  exists g, xpole_gf_tau_b tau poles weights XPos = Ok (XR g) /\
    g = lsum (K := RF) (map (fun pw => - snd pw * exp (- tau * fst pw)) (combine poles weights)) /\
    is_lim (fun b => match pole_gf_tau_b tau poles weights b with Ok v => v | Err _ => 0 end) p_infty g.
Proof. intros tau poles weights Ht HP. destruct (gf_tau_b_inf tau poles weights Ht HP) as (E & L). eexists. split; [exact E|]. split; [reflexivity|exact L]. Qed.
Print Assumptions C79_tau_b.

(** greater and lesser function of a pole: limits, and greater minus lesser is retarded *)
Theorem C79_gr_le : forall tt pole, pole <> 0 ->
  exists g l : C, xsingle_pole_gf_gr_t tt pole XPos = Some g /\ xsingle_pole_gf_le_t tt pole XPos = Some l /\
    (0 <= tt -> Cminus g l = single_pole_gf_ret_t tt (RtoC pole)) /\
    (is_lim (fun b => fst (single_pole_gf_gr_t tt pole b)) p_infty (fst g) /\ is_lim (fun b => snd (single_pole_gf_gr_t tt pole b)) p_infty (snd g)) /\
    (is_lim (fun b => fst (single_pole_gf_le_t tt pole b)) p_infty (fst l) /\ is_lim (fun b => snd (single_pole_gf_le_t tt pole b)) p_infty (snd l)).
Proof.
  intros tt p H. destruct (gr_inf tt p H) as (E1 & L1). destruct (le_inf tt p H) as (E2 & L2). eexists. eexists. split; [exact E1|]. split; [exact E2|].
  split; [apply gr0_le0|]. split; assumption.
Qed.
Print Assumptions C79_gr_le.

(** the same for the impurity of the SIAM, for every Hamiltonian accepted by the Hermitian check without eigenvalue 0 *)
Theorem C79_siam : forall eigh close0 cast e eb hop ev v tt,
  let ham := hamiltonian_matrix (K := CF) Cconj cast e eb hop in
  allclose0 (K := CF) close0 (msub ham (ctr (K := CF) Cconj ham)) = true -> eigh ham = Ok (ev, v) -> ~ In 0 ev ->
  exists g l : C, xgf0_loc_gr_t eigh close0 cast tt e eb hop XPos = Ok (Some g) /\ xgf0_loc_le_t eigh close0 cast tt e eb hop XPos = Ok (Some l) /\
    (0 <= tt -> gf0_loc_ret_t eigh close0 cast tt e eb hop = Ok (Cminus g l)) /\
    let grt b := match gf0_loc_gr_t eigh close0 cast tt e eb hop b with Ok x => x | Err _ => RtoC 0 end in
    let let_ b := match gf0_loc_le_t eigh close0 cast tt e eb hop b with Ok x => x | Err _ => RtoC 0 end in
    (is_lim (fun b => fst (grt b)) p_infty (fst g) /\ is_lim (fun b => snd (grt b)) p_infty (snd g)) /\
    (is_lim (fun b => fst (let_ b)) p_infty (fst l) /\ is_lim (fun b => snd (let_ b)) p_infty (snd l)).
Proof. intros eigh close0 cast e eb hop ev v tt ham Hh He H0. exact (siam_inf eigh close0 cast e eb hop ev v Hh He tt H0). Qed.
Print Assumptions C79_siam.

(** a state at exactly the Fermi level: NaN everywhere, although the limits exist (1/2 for the Fermi function, -1/2 in
    imaginary time); one such pole or eigenvalue spoils the whole sum, whatever its weight *)
Theorem C79_fermi_level_refuted :
  (xfermi_fct 0 XPos = XNaN /\ is_lim (fermi_fct 0) p_infty (1 / 2)) /\
  (forall tau poles weights w, 0 <= tau -> In (0, w) (combine poles weights) -> xgf_tau tau poles weights XPos = Ok XNaN) /\
  (forall tau, is_lim (single_pole_gf_tau tau 0) p_infty (- 1 / 2)) /\
  (forall tt, xsingle_pole_gf_gr_t tt 0 XPos = None /\ xsingle_pole_gf_le_t tt 0 XPos = None) /\
  (forall eigh close0 cast e eb hop ev v tt, let ham := hamiltonian_matrix (K := CF) Cconj cast e eb hop in
     allclose0 (K := CF) close0 (msub ham (ctr (K := CF) Cconj ham)) = true -> eigh ham = Ok (ev, v) -> In 0 ev ->
     xgf0_loc_gr_t eigh close0 cast tt e eb hop XPos = Ok None /\ xgf0_loc_le_t eigh close0 cast tt e eb hop XPos = Ok None).
Proof.
  split; [split; [exact xfermi_inf_0|exact lim_fermi_0]|]. split; [exact gf_tau_inf_nan|]. split; [exact lim_single_0|]. split; [exact gr_le_nan|].
  intros eigh close0 cast e eb hop ev v tt ham Hh He H0. exact (siam_inf_nan eigh close0 cast e eb hop ev v Hh He tt H0).
Qed.
Print Assumptions C79_fermi_level_refuted.

(** two poles below and one above the Fermi level *)
Example C79_ex :
  xgf_tau 0 [-1; 2; -3] [1/4; 1/2; 1/4] XPos = Ok (XR (- 1 / 2)) /\ xpole_occ [-1; 2; -3] [1/4; 1/2; 1/4] XPos = XR (1 / 2) /\
  xgf_tau 0 [-1; 0] [1; 0] XPos = Ok XNaN.
Proof.
  assert (N : ~ In 0 [-1; 2; -3]) by (cbn; lra). split; [|split].
  - destruct (C79_tau 0 [-1; 2; -3] [1/4; 1/2; 1/4] ltac:(lra) N) as (g & E & Eg & _). rewrite E. do 2 f_equal. rewrite Eg. cbn.
    destruct (Rlt_dec 0 (-1)), (Rlt_dec 0 2), (Rlt_dec 0 (-3)); try lra. replace (-0 * 2) with 0 by ring. rewrite exp_0. lra.
  - destruct (C79_occ [-1; 2; -3] [1/4; 1/2; 1/4] N) as (g & E & Eg & _). rewrite E. f_equal. rewrite Eg. cbn.
    destruct (Rlt_dec (-1) 0), (Rlt_dec 2 0), (Rlt_dec (-3) 0); try lra.
  - apply (proj1 (proj2 C79_fermi_level_refuted) 0 [-1; 0] [1; 0] 0); [lra|]. cbn. tauto.
Qed.
(** one bath site at resonance has the eigenvalues -1 and 1: the hypotheses of C79_siam are met *)
Example C79_ex_siam :
  let ham := hamiltonian_matrix (K := CF) Cconj (fun x => x) (RtoC 0) [RtoC 0] [RtoC 1] in
  let close0 := fun x : C => if Ceq_dec x (RtoC 0) then true else false in
  allclose0 (K := CF) close0 (msub ham (ctr (K := CF) Cconj ham)) = true /\ ~ In 0 [-1; 1].
Proof.
  intros ham close0. split; [|cbn; lra]. unfold allclose0. cbn. unfold close0.
  repeat match goal with |- context [Ceq_dec ?a ?b] => destruct (Ceq_dec a b) as [_|F]; [|exfalso; apply F; apply C_ext; cbn; ring] end. reflexivity.
Qed.
