(** * Exactness of the pole subtraction *)
From Coq Require Import List Arith ZArith Reals Lia Lra Bool String Field.
From Coquelicot Require Import Coquelicot.
From Verif Require Import Base FSum CBase CExp Herm_Proofs Stat_Model Stat_Proofs Linalg_Model Linalg_Proofs Mat ExpPoly Backend Cauchy LinPred_Burg Matrix_Time
  Pole_Model Pole_Proofs Pole_Proofs2 Pole_Time Pole_Fit Cpa_Model Cpa_Proofs Fourier_Model Fourier_Dft Fourier_Filon Fourier_Lin Fourier_Series FourierMom_Model.
Import ListNotations.
Local Open Scope R_scope.

(** the imaginary-time Green's function of poles p with residues r *)
Definition ptau (p r : list R) (beta tau : R) : R :=
  nsum (K := RF) (List.length p) (fun j => - nth j r 0 * (1 - fermi_fct (nth j p 0) beta) * exp (- tau * nth j p 0)).
Lemma gf_tau_ptau p r beta tau : List.length r = List.length p -> 0 <= tau <= beta -> gf_tau tau p r beta = Ok (ptau p r beta tau).
Proof.
  intros Hl Ht. rewrite gf_tau_formula by exact Ht. f_equal. unfold ptau.
  exact (lsum_combine2 p r (fun p r => - r * (1 - fermi_fct p beta) * exp (- tau * p)) (List.length p) eq_refl Hl).
Qed.
Lemma gfun_nsum z p r : List.length r = List.length p ->
  gfun z p r = nsum (K := CF) (List.length p) (fun j => Cdiv (RtoC (nth j r 0)) (Cminus z (RtoC (nth j p 0)))).
Proof.
  intros Hl. unfold gfun. rewrite (lsum_nth CF). rewrite map_length, combine_length, Hl, Nat.min_id. apply (nsum_ext CF). intros j Hj.
  rewrite (nth_map_in _ _ _ _ (0, 0)) by (rewrite combine_length; lia). rewrite combine_nth by lia. reflexivity.
Qed.

Lemma linspace_range beta n i : 0 <= beta -> (i < n)%nat -> 0 <= linspace 0 beta n i <= beta.
Proof.
  intros Hb Hi. unfold linspace. destruct (Nat.eq_dec n 1) as [->|N].
  - assert (i = 0)%nat by lia. subst i. cbn. unfold Rdiv. rewrite Rmult_0_l. lra.
  - assert (0 < INR (n - 1)) by (apply lt_0_INR; lia). assert (0 <= INR i) by apply pos_INR. assert (INR i <= INR (n - 1)) by (apply le_INR; lia).
    assert (0 <= INR i / INR (n - 1) <= 1).
    { split; [apply Rmult_le_pos; [lra|left; now apply Rinv_0_lt_compat]|]. apply Rmult_le_reg_r with (INR (n - 1)); [lra|]. unfold Rdiv. rewrite Rmult_assoc, Rinv_l by lra. lra. }
    nra.
Qed.

Lemma iw_grid_nth beta n j : (j < n)%nat -> nth j (iw_grid beta n) (RtoC 0) = matsubara_frequencies (Z.of_nat j) beta.
Proof. intros H. unfold iw_grid. now rewrite nth_map_seq. Qed.
Lemma iw_grid_len beta n : List.length (iw_grid beta n) = n.
Proof. unfold iw_grid. now rewrite map_length, seq_length. Qed.
Lemma iw_not_real beta j p : beta <> 0 -> matsubara_frequencies (Z.of_nat j) beta <> RtoC p.
Proof.
  intros Hb E. assert (N := iw_neq0 j beta Hb). apply N. assert (F : fst (matsubara_frequencies (Z.of_nat j) beta) = 0) by (rewrite iw_R by exact Hb; cbn; ring).
  assert (S := f_equal snd E). cbn in S. apply C_ext; [exact F|]. rewrite E. reflexivity.
Qed.
Lemma iw_imag beta j : beta <> 0 -> snd (matsubara_frequencies (Z.of_nat j) beta) <> 0.
Proof.
  intros Hb E. apply (iw_neq0 j beta Hb). apply C_ext; [rewrite iw_R by exact Hb; cbn; ring|]. exact E.
Qed.
Lemma iw_inj beta i j : beta <> 0 -> matsubara_frequencies (Z.of_nat i) beta = matsubara_frequencies (Z.of_nat j) beta -> i = j.
Proof.
  intros Hb E. rewrite !iw_R in E by exact Hb. apply (f_equal snd) in E. cbn [Ci Cmult RtoC snd fst] in E.
  assert (P := PI_neq0). assert (E2 : IZR (2 * Z.of_nat i + 1) = IZR (2 * Z.of_nat j + 1)).
  { apply (Rmult_eq_reg_l (PI / beta)); [|unfold Rdiv; apply Rmult_integral_contrapositive_currified; [exact P|now apply Rinv_neq_0_compat]]. unfold Rdiv in *. lra. }
  apply eq_IZR in E2. lia.
Qed.
Lemma iw_grid_hits beta n poles : beta <> 0 -> hits_pole (iw_grid beta n) poles = false.
Proof.
  intros Hb. apply hits_pole_false. intros w p Hw _. unfold iw_grid in Hw. apply in_map_iff in Hw. destruct Hw as (j & <- & _). now apply iw_not_real.
Qed.
Lemma eval_z_iw beta n p r : beta <> 0 -> eval_z p r (iw_grid beta n) = Ok (map (fun w => gfun w p r) (iw_grid beta n)).
Proof. intros Hb. unfold eval_z. rewrite iw_grid_hits by exact Hb. reflexivity. Qed.
Lemma mapM_map {A B} (f : A -> result B) (g : A -> B) l : (forall a, In a l -> f a = Ok (g a)) -> mapM f l = Ok (map g l).
Proof. intros H. apply mapM_intro. induction l as [|a l IH]; cbn; constructor; [apply H; now left|apply IH; intros; apply H; now right]. Qed.
Lemma eval_tau_grid beta n p r : 0 <= beta -> List.length r = List.length p ->
  eval_tau p r (tau_grid beta n) beta = Ok (map (ptau p r beta) (tau_grid beta n)).
Proof.
  intros Hb Hl. unfold eval_tau. apply mapM_map. intros t Ht. apply gf_tau_ptau; [exact Hl|]. unfold tau_grid in Ht. apply in_map_iff in Ht. destruct Ht as (i & <- & Hi).
  apply in_seq in Hi. apply linspace_range; [exact Hb|lia].
Qed.

(** ** from moments: add back what is subtracted, for every remainder *)
Section Solve.
Variable lstsq : mat RF -> list R -> list R * list R.
Variable lstsq_ec : mat RF -> list R -> mat RF -> list R -> result (list R).
Variable solve : mat RF -> list R -> result (list R).
Hypothesis HS : solve_spec RF solve.

Theorem iw2tau_moments moms beta : moms <> [] -> 0 < beta ->
  exists p r, List.length p = List.length moms /\ List.length r = List.length moms /\ NoDup p /\
    (forall k, (k < List.length moms)%nat -> moments (K := RF) p r (S k) = nth k moms 0) /\
    forall fourier rest, 
      iw2tau lstsq lstsq_ec solve fourier (map (fun j => (gfun (matsubara_frequencies (Z.of_nat j) beta) p r + nth j rest (RtoC 0))%C) (seq 0 (List.length rest))) beta moms 0
      = do t <- fourier rest beta; Ok (map (fun k => nth k t 0 + ptau p r beta (linspace 0 beta (List.length t) k)) (seq 0 (List.length t))).
Proof.
  intros Hm Hb. destruct (gf_from_moments_spec RF Rabs (fun x => x) solve (fun x y E => E) HS moms None Hm ltac:(discriminate)) as (p & r & E & Lp & Lr & ND & _ & HM).
  exists p, r. split; [exact Lp|]. split; [exact Lr|]. split; [exact ND|]. split; [intros k Hk; rewrite map_id in HM; exact (HM k Hk)|].
  intros fourier rest. unfold iw2tau. destruct (Req_EM_T beta 0) as [|Nb]; [lra|]. cbn [Nat.eqb]. rewrite E. cbn [bind fst snd].
  rewrite map_length, seq_length. rewrite eval_z_iw by exact Nb. cbn [bind].
  set (g := map _ (seq 0 _)).
  assert (Es : csub g (map (fun w => gfun w p r) (iw_grid beta (List.length rest))) = rest).
  { unfold csub, g. rewrite map_length, seq_length. apply (list_ext _ _ (RtoC 0)); [now rewrite map_length, seq_length|]. intros j Hj. rewrite map_length, seq_length in Hj.
    rewrite !nth_map_seq by exact Hj. rewrite (nth_map_in _ _ _ _ (RtoC 0)) by (rewrite iw_grid_len; exact Hj). rewrite iw_grid_nth by exact Hj. ring. }
  rewrite Es. destruct (fourier rest beta) as [t|]; [|reflexivity]. cbn [bind]. rewrite eval_tau_grid; [|lra|exact (eq_trans Lr (eq_sym Lp))]. cbn [bind]. f_equal. unfold radd. apply map_ext_in. intros k Hk. apply in_seq in Hk.
  f_equal. unfold tau_grid. rewrite map_map. rewrite nth_map_seq by lia. reflexivity.
Qed.
End Solve.

(** ** exact recovery by the fits *)
Section Fit.
Variable qr : mat RF -> mat RF * mat RF.
Variable tri : mat RF -> list R -> result (list R).
Variable lstsq : mat RF -> list R -> list R * list R.
Variable allclose0 : list R -> bool.
Hypothesis HB : backend_ok RF (fun x => x) rle qr tri lstsq allclose0.
Notation EC := (Linalg_Model.lstsq_ec (K := RF) (fun x => x) qr tri lstsq allclose0).
Notation from_z := (gf_from_z lstsq EC).
Notation from_tau := (gf_from_tau lstsq EC).

Lemma from_z_poles z gfz n moms width weight p r : (1 <= n)%nat -> from_z z gfz n moms width weight = Ok (p, r) -> p = poles_of (fit_width width moms n) n.
Proof.
  intros Hn H. unfold gf_from_z in H. rewrite pts_ok in H by exact Hn. cbn [bind] in H. fold (fit_width width moms n) in H. fold (poles_of (fit_width width moms n) n) in H.
  match type of H with (do _ <- ?x; _) = _ => destruct x; [|discriminate H] end. cbn [bind] in H. congruence.
Qed.
Lemma from_tau_poles g n beta moms occ width weight p r : (1 <= n)%nat -> from_tau g n beta moms occ width weight = Ok (p, r) -> p = poles_of width n.
Proof.
  intros Hn H. unfold gf_from_tau in H. rewrite pts_ok in H by exact Hn. cbn [bind] in H. fold (poles_of width n) in H.
  destruct (_ && _)%bool; [discriminate H|].
  match type of H with (do _ <- ?x; _) = _ => destruct x; [|discriminate H] end. cbn [bind] in H. congruence.
Qed.

Lemma sum_sq_zero n (f : nat -> R) : nsum (K := RF) n (fun i => f i ^ 2) <= 0 -> forall i, (i < n)%nat -> f i = 0.
Proof.
  induction n as [|n IH]; intros H i Hi; [lia|]. cbn [nsum] in H. cbn [Fadd RF] in H.
  assert (P : 0 <= nsum (K := RF) n (fun i => f i ^ 2)). { clear. induction n as [|n IH]; [cbn; lra|]. cbn [nsum]. cbn [Fadd RF]. assert (0 <= f n ^ 2) by apply pow2_ge_0. lra. }
  assert (Q := pow2_ge_0 (f n)). destruct (Nat.eq_dec i n) as [->|Ne].
  - assert (f n ^ 2 = 0) by lra. destruct (Req_dec (f n) 0) as [|N]; [assumption|]. exfalso. assert (0 < f n ^ 2) by (apply pow2_gt_0; exact N). lra.
  - apply IH; [lra|lia].
Qed.

Theorem from_z_exact z n moms width weight (r : list R) : (n <= List.length z)%nat -> (1 <= n)%nat -> (List.length moms <= n)%nat -> width <> Some 0 -> NoDup z ->
  let p := poles_of (fit_width width moms n) n in
  (forall w x, In w z -> In x p -> w <> RtoC x) -> (forall i, (i < List.length z)%nat -> wt weight i <> 0) ->
  List.length r = n -> (forall k, (k < List.length moms)%nat -> moments (K := RF) p r (S k) = nth k moms 0) ->
  from_z z (map (fun w => gfun w p r) z) n moms width weight = Ok (p, r).
Proof.
  intros Hz Hn Hm Hw ND p Hp Hwt Hr HM. assert (Lp : List.length p = n) by apply poles_of_length.
  destruct (gf_from_z_spec qr tri lstsq allclose0 HB z (map (fun w => gfun w p r) z) n moms width weight (map_length _ _) Hn Hm Hw Hp) as (p' & r' & E & _ & Lr' & _ & _ & HM' & Opt).
  assert (Ep := from_z_poles _ _ _ _ _ _ _ _ Hn E). fold p in Ep. subst p'. rewrite E. f_equal. f_equal.
  specialize (Opt r Hr HM). assert (Z0 : z_cost z (map (fun w => gfun w p r) z) weight p r = 0).
  { unfold z_cost. apply (nsum_0' RF). intros i Hi. cbv beta. rewrite (nth_map_in _ _ _ _ (RtoC 0)) by exact Hi.
    replace (gfun (nth i z (RtoC 0)) p r - gfun (nth i z (RtoC 0)) p r)%C with (RtoC 0) by ring. rewrite Cmod_0. cbn. ring. }
  rewrite Z0 in Opt. unfold z_cost in Opt. assert (D := sum_sq_zero _ _ Opt). cbv beta in D.
  assert (EQ : forall i, (i < List.length z)%nat -> gfun (nth i z (RtoC 0)) p r' = gfun (nth i z (RtoC 0)) p r).
  { intros i Hi. specialize (D i Hi). apply Rmult_integral in D. destruct D as [D|D]; [now elim (Hwt i Hi)|]. apply Cmod_eq_0 in D.
    rewrite (nth_map_in _ _ _ _ (RtoC 0)) in D by exact Hi. transitivity ((gfun (nth i z (RtoC 0)) p r' - gfun (nth i z (RtoC 0)) p r) + gfun (nth i z (RtoC 0)) p r)%C; [ring|]. rewrite D. ring. }
  assert (Hw0 : fit_width width moms n <> 0) by (apply width_nonzero; [exact Hn|lia|exact Hw]).
  apply (list_ext _ _ 0); [congruence|]. rewrite Lr'. intros j Hj.
  assert (CI := cauchy_inj CF n (fun j => RtoC (nth j p 0)) (fun i => nth i z (RtoC 0)) (fun j => RtoC (nth j r' 0 - nth j r 0))).
  assert (X : RtoC (nth j r' 0 - nth j r 0) = RtoC 0).
  { apply CI; [| | | |exact Hj].
    - intros a b Ha Hb0 Eab. apply RtoC_inj in Eab. exact (poles_of_distinct _ _ Hw0 a b Ha Hb0 Eab).
    - intros a b Ha Hb0 Eab. apply (proj1 (NoDup_nth z (RtoC 0)) ND); [lia|lia|exact Eab].
    - intros a b Ha Hb0. apply Hp; apply nth_In; lia.
    - intros i Hi. specialize (EQ i ltac:(lia)). rewrite !gfun_nsum in EQ by congruence. rewrite Lp in EQ.
      rewrite (nsum_ext CF n _ (fun j => @Fsub CF (Cdiv (RtoC (nth j r' 0)) (Cminus (nth i z (RtoC 0)) (RtoC (nth j p 0)))) (Cdiv (RtoC (nth j r 0)) (Cminus (nth i z (RtoC 0)) (RtoC (nth j p 0)))))).
      + rewrite (nsum_sub CF), EQ. cbn [Fsub CF F0]. match goal with |- @eq _ ?a ?b => change (@eq C a b) end. ring.
      + intros k Hk. cbn [Fdiv Fsub CF]. unfold Rminus. rewrite RtoC_plus, RtoC_opp. unfold Cdiv. cring. }
  apply RtoC_inj in X. lra.
Qed.

Theorem from_tau_exact ntau n beta moms width weight (r : list R) : (n <= ntau)%nat -> (2 <= ntau)%nat -> (1 <= n)%nat -> (List.length moms <= n)%nat -> width <> 0 -> 0 < beta ->
  let p := poles_of width n in
  (forall i, (i < ntau)%nat -> wt weight i <> 0) ->
  List.length r = n -> (forall k, (k < List.length moms)%nat -> moments (K := RF) p r (S k) = nth k moms 0) ->
  from_tau (map (ptau p r beta) (tau_grid beta ntau)) n beta moms 0 width weight = Ok (p, r).
Proof.
  intros Hnt H2 Hn Hm Hw Hb p Hwt Hr HM. assert (Lp : List.length p = n) by apply poles_of_length. set (g := map _ _).
  assert (Lg : List.length g = ntau) by (unfold g, tau_grid; now rewrite !map_length, seq_length).
  assert (Eg : forall i, (i < ntau)%nat -> nth i g 0 = ptau p r beta (linspace 0 beta ntau i)).
  { intros i Hi. unfold g, tau_grid. rewrite map_map. now rewrite nth_map_seq. }
  assert (Els : forall i, linspace 0 beta ntau i = beta * (INR i / INR (ntau - 1))) by (intros; unfold linspace; ring).
  destruct (gf_from_tau_moments qr tri lstsq allclose0 HB g n beta moms width weight ltac:(lra) Hn Hm Hw) as (p' & r' & E & _ & Lr' & _ & _ & HM' & Opt).
  assert (Ep := from_tau_poles _ _ _ _ _ _ _ _ _ Hn E). fold p in Ep. subst p'. rewrite E. f_equal. f_equal.
  specialize (Opt r Hr HM).
  assert (Ec : forall s, List.length s = n -> tau_cost g beta weight p s = nsum (K := RF) ntau (fun i => (wt weight i * (ptau p s beta (linspace 0 beta ntau i) - ptau p r beta (linspace 0 beta ntau i))) ^ 2)).
  { intros s Ls. unfold tau_cost. rewrite Lg. apply (nsum_ext RF). intros i Hi. rewrite <- Els. rewrite gf_tau_ptau by (congruence || (apply linspace_range; [lra|lia])). now rewrite Eg. }
  rewrite (Ec r Hr), (Ec r' Lr') in Opt.
  assert (Z0 : nsum (K := RF) ntau (fun i => (wt weight i * (ptau p r beta (linspace 0 beta ntau i) - ptau p r beta (linspace 0 beta ntau i))) ^ 2) = 0).
  { apply (nsum_0' RF). intros i Hi. cbv beta. rewrite Rminus_eq_0, Rmult_0_r. cbn. rring. }
  rewrite Z0 in Opt. assert (D := sum_sq_zero _ _ Opt). cbv beta in D.
  set (h := beta / INR (ntau - 1)). assert (Hh : 0 < h) by (apply Rdiv_lt_0_compat; [exact Hb|apply lt_0_INR; lia]).
  set (c := fun j => - (1 - fermi_fct (nth j p 0) beta)).
  assert (Hc : forall j, c j <> 0). { intros j. unfold c. assert (F := fermi_symmetric (nth j p 0) beta). assert (B := fermi_bounds (nth j p 0) beta). lra. }
  assert (EQ : forall i, (i < ntau)%nat -> nsum (K := RF) n (fun j => fpow (K := RF) (exp (- h * nth j p 0)) i * ((nth j r' 0 - nth j r 0) * c j)) = 0).
  { intros i Hi. specialize (D i Hi). apply Rmult_integral in D. destruct D as [D|D]; [now elim (Hwt i Hi)|]. refine (eq_trans _ D). unfold ptau. rewrite Lp.
    assert (T := nsum_sub RF n). cbn [Fsub RF] in T. rewrite <- T. apply (nsum_ext RF). intros j Hj. unfold c. rewrite Els.
    assert (EX : exp (- (beta * (INR i / INR (ntau - 1))) * nth j p 0) = fpow (K := RF) (exp (- h * nth j p 0)) i).
    { clear. unfold h. induction i as [|i IH]; [cbn [fpow INR]; unfold Rdiv; rewrite Rmult_0_l, Rmult_0_r, Ropp_0, Rmult_0_l, exp_0; reflexivity|].
      cbn [fpow]. rewrite <- IH. cbn [Fmul RF]. rewrite <- exp_plus. f_equal. rewrite S_INR. unfold Rdiv. ring. }
    rewrite EX. match goal with |- @eq _ ?a ?b => change (@eq R a b) end. cbn [Fmul RF]. ring. }
  apply (list_ext _ _ 0); [congruence|]. rewrite Lr'. intros j Hj.
  assert (V := vander_inj RF n (fun j => exp (- h * nth j p 0))).
  assert (DI : distinct RF n (fun j => exp (- h * nth j p 0))).
  { intros a b Ha Hb0 Eab. apply exp_inv in Eab. apply Rmult_eq_reg_l in Eab; [|lra]. exact (poles_of_distinct width n Hw a b Ha Hb0 Eab). }
  specialize (V DI (fun j => (nth j r' 0 - nth j r 0) * c j)).
  assert (X : (nth j r' 0 - nth j r 0) * c j = 0). { apply V; [|exact Hj]. intros i Hi. apply EQ. lia. }
  apply Rmult_integral in X. destruct X as [X|X]; [lra|now elim (Hc j)].
Qed.
End Fit.
