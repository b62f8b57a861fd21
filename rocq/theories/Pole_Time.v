(** * Proofs about the time-dependent pole functions *)
From Coq Require Import List Arith ZArith Reals Lia Lra Bool Psatz.
From Coquelicot Require Import Coquelicot.
From Verif Require Import Base FSum CBase CExp Stat_Model Stat_Proofs Herm_Proofs LinPred_Burg Linalg_Model Pole_Model.
Import ListNotations.
Local Open Scope R_scope.

Lemma tau_ok_true tau beta : 0 <= tau <= beta -> tau_ok tau beta = true.
Proof. intros H. unfold tau_ok. destruct (Rle_dec 0 tau); [|lra]. destruct (Rle_dec tau beta); [reflexivity|lra]. Qed.
Lemma tau_ok_false tau beta : ~ 0 <= tau <= beta -> tau_ok tau beta = false.
Proof. intros H. unfold tau_ok. destruct (Rle_dec 0 tau); [|reflexivity]. destruct (Rle_dec tau beta); [exfalso; lra|reflexivity]. Qed.

(** f exp(beta eps) = 1 - f *)
Lemma fermi_exp eps beta : fermi_fct eps beta * exp (beta * eps) = 1 - fermi_fct eps beta.
Proof. rewrite fermi_def. assert (H := exp_pos (beta * eps)). field. lra. Qed.
Lemma fermi_exp' eps beta : (1 - fermi_fct eps beta) * exp (- (beta * eps)) = fermi_fct eps beta.
Proof. rewrite <- fermi_exp, Rmult_assoc, <- exp_plus. replace (beta * eps + - (beta * eps)) with 0 by ring. rewrite exp_0. ring. Qed.

Lemma single_pole_formula tau p beta : single_pole_gf_tau tau p beta = - (1 - fermi_fct p beta) * exp (- tau * p).
Proof.
  unfold single_pole_gf_tau, sgn. assert (S := fermi_symmetric p beta).
  destruct (Rlt_dec 0 p) as [H|H].
  - destruct (Rle_dec 0 p); [|lra]. replace (- (1) * p) with (- p) by ring. replace (fermi_fct (- p) beta) with (1 - fermi_fct p beta) by lra. ring.
  - destruct (Rlt_dec p 0) as [H2|H2].
    + destruct (Rle_dec 0 p); [lra|]. replace (- -1 * p) with p by ring.
      replace ((- tau + beta) * p) with (beta * p + - tau * p) by ring. rewrite exp_plus, <- fermi_exp. ring.
    + assert (p = 0) by lra. subst. destruct (Rle_dec 0 0); [|lra]. replace (- 0 * 0) with 0 by ring.
      replace (- 0) with 0 in S by ring. replace (fermi_fct 0 beta) with (1 / 2) by lra. lra.
Qed.

(** ** gf_tau *)
Theorem gf_tau_formula tau poles weights beta : 0 <= tau <= beta ->
  gf_tau tau poles weights beta
  = Ok (lsum (K := RF) (map (fun pw => - snd pw * (1 - fermi_fct (fst pw) beta) * exp (- tau * fst pw)) (combine poles weights))).
Proof.
  intros H. unfold gf_tau. rewrite tau_ok_true by exact H. f_equal. f_equal. apply map_ext. intros [p w]. cbn [fst snd].
  rewrite single_pole_formula. ring.
Qed.
Theorem gf_tau_range tau poles weights beta : ~ 0 <= tau <= beta -> gf_tau tau poles weights beta = Err AssertionError.
Proof. intros H. unfold gf_tau. now rewrite tau_ok_false. Qed.

Lemma lsum_snd_combine (p w : list R) : length p = length w -> lsum (K := RF) (map snd (combine p w)) = lsum (K := RF) w.
Proof.
  revert w; induction p as [|a p IH]; intros [|b w] H; try discriminate; [reflexivity|]. cbn [combine map]. rewrite !(lsum_cons RF). cbn [snd].
  rewrite IH by (injection H; auto). reflexivity.
Qed.

Theorem gf_tau_beta poles weights beta : 0 <= beta -> gf_tau beta poles weights beta = Ok (- pole_occ poles weights beta).
Proof.
  intros H. rewrite gf_tau_formula by lra. f_equal. unfold pole_occ.
  rewrite <- (lsum_map_opp RF). apply (lsum_map_ext RF). intros [p w] _. cbn [fst snd].
  rewrite <- (fermi_exp' p beta) at 2. replace (- beta * p) with (- (beta * p)) by ring. cbn. ring.
Qed.
Theorem gf_tau_boundary poles weights beta : length poles = length weights -> 0 <= beta ->
  exists g0 gb, gf_tau 0 poles weights beta = Ok g0 /\ gf_tau beta poles weights beta = Ok gb /\ g0 + gb = - lsum (K := RF) weights.
Proof.
  intros HL H. rewrite gf_tau_formula, gf_tau_beta by lra. eexists. eexists. split; [reflexivity|]. split; [reflexivity|].
  rewrite <- (lsum_snd_combine poles weights HL). unfold pole_occ.
  induction (combine poles weights) as [|[p w] l IH]; [cbn; ring|].
  cbn [map]. rewrite !(lsum_cons RF). cbn [fst snd]. cbn [Fadd RF] in *. replace (- 0 * p) with 0 by ring. rewrite exp_0.
  match type of IH with ?a + - ?b = - ?c => set (A0 := a) in *; set (B0 := b) in *; set (C0 := c) in * end. 
  transitivity (A0 + - B0 + - w); [ring|]. rewrite IH. ring.
Qed.
Theorem gf_tau_nonpos tau poles weights beta g : gf_tau tau poles weights beta = Ok g -> List.Forall (fun w => 0 <= w) weights -> g <= 0.
Proof.
  unfold gf_tau. destruct (tau_ok tau beta); [|discriminate]. intros [= <-] HW.
  assert (HF : List.Forall (fun pw : R * R => 0 <= snd pw) (combine poles weights)).
  { apply Forall_forall. intros [p w] Hin. apply in_combine_r in Hin. rewrite Forall_forall in HW. now apply HW. }
  induction (combine poles weights) as [|[p w] l IH]; [cbn; lra|]. cbn [map]. rewrite (lsum_cons RF). cbn [fst snd Fadd RF].
  inversion HF as [|? ? H1 H2]; subst. specialize (IH H2). cbn [snd] in H1.
  assert (Hs : single_pole_gf_tau tau p beta <= 0).
  { rewrite single_pole_formula. assert (B := fermi_bounds p beta). assert (E := exp_pos (- tau * p)). nra. }
  set (x := lsum _) in *. set (y := single_pole_gf_tau tau p beta) in *. nra.
Qed.

(** gf_tau solves the equation of motion of a fermionic mode: derivative is -eps G *)
Theorem single_pole_derive tau p beta : is_derive (fun t => single_pole_gf_tau t p beta) tau (- p * single_pole_gf_tau tau p beta).
Proof.
  apply (is_derive_ext (fun t => - (1 - fermi_fct p beta) * exp (- t * p))); [intros; symmetry; apply single_pole_formula|].
  rewrite single_pole_formula. auto_derive; [trivial|]. ring.
Qed.

(** complex poles off the imaginary axis; on the imaginary axis the formula is violated *)
Theorem single_pole_c_formula tau (p : C) beta f : fst p <> 0 -> fermi_fct_c p beta = Ok f ->
  single_pole_gf_tau_c tau p beta = Ok (Cmult (Copp (Cminus 1 f)) (cexp (Cmult (RtoC (- tau)) p))).
Proof.
  intros H HF. apply fermi_c_def in HF. destruct HF as (N & Hf). unfold single_pole_gf_tau_c, sgn.
  set (E := cexp (Cmult (RtoC beta) p)) in *. assert (NE : E <> 0%C) by apply cexp_neq_0.
  destruct (Rlt_dec 0 (fst p)) as [P|P].
  - destruct (Rle_dec 0 (fst p)); [|lra].
    assert (HF2 : fermi_fct_c (Cmult (RtoC (- (1))) p) beta = Ok (Cminus 1 f)).
    { apply fermi_c_def. replace (Cmult (RtoC beta) (Cmult (RtoC (- (1))) p)) with (Copp (Cmult (RtoC beta) p)) by (apply C_ext; cbn; ring).
      rewrite cexp_opp. fold E. split.
      - intros Z. apply N. transitivity (Cmult (/ E + 1) E)%C; [field; exact NE|rewrite Z; ring].
      - rewrite Hf. field. repeat split; try assumption. intros Z. apply N. rewrite <- Z. apply C_ext; cbn; ring. }
    rewrite HF2. cbn [bind]. f_equal. set (x := cexp _). ring.
  - destruct (Rlt_dec (fst p) 0); [|lra]. destruct (Rle_dec 0 (fst p)); [lra|].
    replace (Cmult (RtoC (- -1)) p) with p by (apply C_ext; cbn; ring).
    rewrite (proj2 (fermi_c_def p beta f)) by (split; assumption). cbn [bind]. f_equal.
    replace (Cmult (RtoC (- tau + beta)) p) with (Cplus (Cmult (RtoC beta) p) (Cmult (RtoC (- tau)) p)) by (apply C_ext; cbn; ring).
    rewrite cexp_add. fold E. rewrite Hf. field. exact N.
Qed.
Theorem single_pole_c_imaginary : (* pole i/2, beta = pi *)
  single_pole_gf_tau_c 0 (0, 1 / 2) PI = Ok (RtoC (- 1 / 2)) /\
  fermi_fct_c (0, 1 / 2) PI = Ok ((1 / 2, - 1 / 2) : C).
Proof.
  split.
  - unfold single_pole_gf_tau_c, sgn. cbn [fst]. destruct (Rlt_dec 0 0); [lra|].
    destruct (Rle_dec 0 0); [|lra].
    assert (HF : fermi_fct_c (Cmult (RtoC (- 0)) (0, 1 / 2)) PI = Ok (RtoC (1 / 2))).
    { apply fermi_c_def. replace (Cmult (RtoC PI) (Cmult (RtoC (- 0)) (0, 1 / 2))) with (RtoC 0) by (apply C_ext; cbn; ring).
      rewrite cexp_0. split.
      - intros E. apply (f_equal fst) in E. cbn in E. lra.
      - apply C_ext; cbn; field. }
    rewrite HF. cbn [bind]. f_equal. replace (Cmult (RtoC (- 0)) (0, 1 / 2)) with (RtoC 0) by (apply C_ext; cbn; ring).
    rewrite cexp_0. apply C_ext; cbn; field.
  - apply fermi_c_def. replace (Cmult (RtoC PI) (0, 1 / 2)) with ((0, PI / 2) : C) by (apply C_ext; cbn; field).
    unfold cexp. cbn [fst snd]. rewrite exp_0, cos_PI2, sin_PI2. split.
    + intros E. apply (f_equal fst) in E. cbn in E. lra.
    + apply C_ext; cbn; field.
Qed.

(** ** pole_gf_tau_b *)
Definition bose_term (tau beta : R) (pw : R * R) : R := - snd pw * (1 + / (exp (beta * fst pw) - 1)) * exp (- tau * fst pw).
Lemma exp_m1_pos x : 0 < x -> 0 < exp x - 1.
Proof. intros H. assert (X := exp_increasing 0 x H). rewrite exp_0 in X. lra. Qed.
Theorem pole_gf_tau_b_formula tau poles weights beta : 0 <= tau <= beta -> 0 < beta -> List.Forall (fun p => 0 < p) poles ->
  pole_gf_tau_b tau poles weights beta = Ok (lsum (K := RF) (map (bose_term tau beta) (combine poles weights))).
Proof.
  intros Ht Hb HP. unfold pole_gf_tau_b. rewrite tau_ok_true by exact Ht.
  assert (E : existsb (fun p => if Rlt_dec p 0 then true else false) poles = false).
  { destruct (existsb _ _) eqn:E; [|reflexivity]. apply existsb_exists in E. destruct E as (p & Hin & E).
    rewrite Forall_forall in HP. specialize (HP p Hin). destruct (Rlt_dec p 0); [lra|discriminate]. }
  rewrite E. assert (HF : List.Forall (fun pw : R * R => 0 < fst pw) (combine poles weights)).
  { apply Forall_forall. intros [p w] Hin. apply in_combine_l in Hin. rewrite Forall_forall in HP. now apply HP. }
  clear E HP. induction (combine poles weights) as [|[p w] l IH]; [reflexivity|]. inversion HF as [|? ? H1 H2]; subst. cbn [fst] in H1.
  cbn [fold_right map]. rewrite IH by exact H2. cbn [bind fst snd].
  assert (Hpb : 0 < beta * p) by nra. assert (X := exp_m1_pos _ Hpb). assert (Hne : nval (NFlt (- beta)) * nval (NFlt p) <> 0) by (cbn; nra).
  rewrite bose_float by (try exact Hne; exact I). cbn [bind nval].
  rewrite (lsum_cons RF). cbn [Fadd RF]. apply (f_equal Ok). apply (f_equal (fun x => x + lsum (K := RF) (map (bose_term tau beta) l))).
  unfold bose_term. cbn [fst snd].
  replace (- beta * p) with (- (beta * p)) by ring. rewrite (exp_Ropp (beta * p)).
  assert (XP := exp_pos (beta * p)). field. split; lra.
Qed.
Theorem pole_gf_tau_b_negative tau poles weights beta p : 0 <= tau <= beta -> In p poles -> p < 0 ->
  pole_gf_tau_b tau poles weights beta = Err ValueError.
Proof.
  intros Ht Hin Hp. unfold pole_gf_tau_b. rewrite tau_ok_true by exact Ht.
  rewrite (proj2 (existsb_exists _ _)); [reflexivity|]. exists p. split; [exact Hin|]. destruct (Rlt_dec p 0); [reflexivity|lra].
Qed.
Theorem pole_gf_tau_b_zero tau beta : 0 <= tau <= beta -> pole_gf_tau_b tau [0] [1] beta = Err NonFinite.
Proof.
  intros Ht. unfold pole_gf_tau_b. rewrite tau_ok_true by exact Ht. cbn [existsb]. destruct (Rlt_dec 0 0); [lra|].
  cbn [orb combine fold_right bind fst snd]. rewrite bose_zero by (cbn; ring). reflexivity.
Qed.
Theorem pole_gf_tau_b_boundary poles weights beta : length poles = length weights -> 0 < beta -> List.Forall (fun p => 0 < p) poles ->
  exists g0 gb, pole_gf_tau_b 0 poles weights beta = Ok g0 /\ pole_gf_tau_b beta poles weights beta = Ok gb /\
    g0 - gb = - lsum (K := RF) weights.
Proof.
  intros HL Hb HP. rewrite !pole_gf_tau_b_formula by (try lra; assumption). eexists. eexists. split; [reflexivity|]. split; [reflexivity|].
  rewrite <- (lsum_snd_combine poles weights HL).
  assert (HF : List.Forall (fun pw : R * R => 0 < fst pw) (combine poles weights)).
  { apply Forall_forall. intros [p w] Hin. apply in_combine_l in Hin. rewrite Forall_forall in HP. now apply HP. }
  induction (combine poles weights) as [|[p w] l IH]; [cbn; ring|]. inversion HF as [|? ? H1 H2]; subst. cbn [fst] in H1.
  cbn [map]. rewrite !(lsum_cons RF). specialize (IH H2). cbn [Fadd RF] in *.
  match type of IH with ?a - ?b = - ?c => set (A0 := a) in *; set (B0 := b) in *; set (C0 := c) in * end.
  transitivity (bose_term 0 beta (p, w) - bose_term beta beta (p, w) + (A0 - B0)); [ring|]. rewrite IH.
  unfold bose_term. cbn [fst snd]. replace (- 0 * p) with 0 by ring. rewrite exp_0. replace (- beta * p) with (- (beta * p)) by ring. rewrite exp_Ropp.
  assert (X := exp_m1_pos (beta * p) ltac:(nra)). assert (XP := exp_pos (beta * p)). field. lra.
Qed.
(** the documented integral: -sum w/p *)
Theorem pole_gf_tau_b_integral poles weights beta : 0 < beta -> List.Forall (fun p => 0 < p) poles ->
  is_RInt (fun tau => match pole_gf_tau_b tau poles weights beta with Ok g => g | Err _ => 0 end) 0 beta
    (- lsum (K := RF) (map (fun pw => snd pw / fst pw) (combine poles weights))).
Proof.
  intros Hb HP.
  apply (is_RInt_ext (fun tau => lsum (K := RF) (map (bose_term tau beta) (combine poles weights)))).
  { intros x Hx. rewrite Rmin_left, Rmax_right in Hx by lra. now rewrite pole_gf_tau_b_formula by (try lra; assumption). }
  assert (HF : List.Forall (fun pw : R * R => 0 < fst pw) (combine poles weights)).
  { apply Forall_forall. intros [p w] Hin. apply in_combine_l in Hin. rewrite Forall_forall in HP. now apply HP. }
  induction (combine poles weights) as [|[p w] l IH].
  - change (is_RInt (fun _ : R => 0) 0 beta (- 0)). replace (- 0) with ((beta - 0) * 0) by ring. exact (is_RInt_const (V := R_NormedModule) 0 beta 0).
  - inversion HF as [|? ? H1 H2]; subst. cbn [fst] in H1. specialize (IH H2).
    cbn [map]. rewrite (lsum_cons RF). cbn [fst snd]. set (S := lsum (K := RF) (map (fun pw : R * R => snd pw / fst pw) l)) in *.
    match goal with |- is_RInt _ _ _ ?x => replace x with (plus (- (w / p)) (- S)) by (unfold plus; cbn; ring) end.
    apply (is_RInt_ext (fun tau => plus (bose_term tau beta (p, w)) (lsum (K := RF) (map (bose_term tau beta) l)))); [intros; reflexivity|].
    apply (is_RInt_plus (V := R_NormedModule)); [|exact IH].
    set (F := fun tau => w * (1 + / (exp (beta * p) - 1)) / p * exp (- tau * p)).
    replace (- (w / p)) with (minus (F beta) (F 0)).
    + apply (is_RInt_derive (V := R_CompleteNormedModule)).
      * intros x _. unfold F, bose_term. cbn [fst snd]. auto_derive; [trivial|]. assert (X := exp_m1_pos (beta * p) ltac:(nra)). field. split; lra.
      * intros x _. unfold bose_term. cbn [fst snd]. apply (ex_derive_continuous (V := R_NormedModule)). auto_derive. trivial.
    + unfold minus, plus, opp, F. cbn. replace (- 0 * p) with 0 by ring. rewrite exp_0. replace (- beta * p) with (- (beta * p)) by ring. rewrite exp_Ropp.
      assert (X := exp_m1_pos (beta * p) ltac:(nra)). assert (XP := exp_pos (beta * p)). field. repeat split; lra.
Qed.

(** ** Retarded, greater, lesser *)
Theorem gf_ret_t_neg tt poles weights : tt < 0 -> gf_ret_t tt poles weights = RtoC 0.
Proof.
  intros H. unfold gf_ret_t, single_pole_gf_ret_t. destruct (Rle_dec 0 tt); [lra|].
  generalize (@combine C C poles weights). intros l0.
  induction l0 as [|[p w] l IH]; [reflexivity|]. cbn [map]. rewrite (lsum_cons CF). 
  change (Cplus (Cmult (snd (p, w)) 0) (lsum (K := CF) (map (fun pw => Cmult (snd pw) 0) l)) = 0%C).
  match goal with |- Cplus _ ?x = _ => replace x with (RtoC 0) by (symmetry; exact IH) end. ring.
Qed.
Theorem gf_ret_t_pos tt poles weights : 0 <= tt ->
  gf_ret_t tt poles weights = Cmult (Copp Ci) (lsum (K := CF) (map (fun pw => Cmult (snd pw) (cexp (Cmult (Copp Ci) (Cmult (RtoC tt) (fst pw))))) (combine poles weights))).
Proof.
  intros H. unfold gf_ret_t, single_pole_gf_ret_t. destruct (Rle_dec 0 tt); [|lra].
  rewrite <- (lsum_map_mul_l CF). f_equal. apply map_ext. intros [p w]. cbn [fst snd]. unfold phase.
  replace (Cmult (Cmult (Copp Ci) p) (RtoC tt)) with (Cmult (Copp Ci) (Cmult (RtoC tt) p)) by ring. set (x := cexp _).
  change (Cmult w (Cmult (Copp Ci) x) = Cmult (Copp Ci) (Cmult w x)). ring.
Qed.
Theorem single_gr_le_ret tt pole beta : 0 <= tt ->
  Cminus (single_pole_gf_gr_t tt pole beta) (single_pole_gf_le_t tt pole beta) = single_pole_gf_ret_t tt (RtoC pole).
Proof.
  intros H. unfold single_pole_gf_gr_t, single_pole_gf_le_t, single_pole_gf_ret_t. destruct (Rle_dec 0 tt); [|lra].
  set (e := phase _ _). rewrite RtoC_minus. ring.
Qed.
(** fluctuation-dissipation: le = - exp(-beta eps) gr; particle number: -i le(0) = f *)
Theorem single_fdt tt pole beta : single_pole_gf_le_t tt pole beta = Cmult (RtoC (- exp (- (beta * pole)))) (single_pole_gf_gr_t tt pole beta).
Proof.
  unfold single_pole_gf_gr_t, single_pole_gf_le_t. rewrite <- (fermi_exp' pole beta) at 1. set (e := phase _ _).
  rewrite RtoC_mult, RtoC_opp. ring.
Qed.
