(** * The discrete transforms as truncated series and Riemann sums; limits of the linear-interpolation transforms *)
From Coq Require Import List Arith ZArith Reals Lia Lra Bool String Field.
From Coquelicot Require Import Coquelicot.
From Verif Require Import Base FSum CBase CExp Herm_Proofs LinPred_Burg Matrix_Time Stat_Model Linalg_Model Pole_Model Fourier_Model Fourier_Dft Fourier_Filon Fourier_Lin Fourier_Quad.
Import ListNotations.
Local Open Scope C_scope.

Lemma cexp_grid_neg j k p beta : beta <> 0%R -> (0 < p)%nat ->
  cexp (- (matsubara_frequencies (Z.of_nat j) beta * RtoC (linspace 0 beta (S p) k))) = zeta (2 * p) (- (Z.of_nat (2 * j + 1) * Z.of_nat k)).
Proof.
  intros Hb Hp. rewrite (zeta_opp (2 * p) ltac:(lia)), <- cexp_grid with (beta := beta) by assumption. rewrite Cconj_cexp. f_equal.
  rewrite iw_R by exact Hb. apply C_ext; cbn; ring.
Qed.

(** iw2tau_dft is the truncated Matsubara sum on the grid linspace(0, beta, 2N+1) *)
Theorem iw2tau_dft_series gf beta tau : beta <> 0%R -> iw2tau_dft gf beta = Ok tau ->
  List.length tau = (2 * List.length gf + 1)%nat /\
  forall k, (k < List.length tau)%nat ->
    nth k tau 0%R = (2 / beta * nsum (K := RF) (List.length gf) (fun j =>
      fst (nth j gf (RtoC 0) * cexp (- (matsubara_frequencies (Z.of_nat j) beta * RtoC (linspace 0 beta (List.length tau) k))))%C))%R.
Proof.
  intros Hb H. destruct (list_eq_dec Ceq_dec gf []) as [->|Hgf].
  { unfold iw2tau_dft in H. destruct (Req_EM_T beta 0); [contradiction|]. discriminate H. }
  rewrite (iw2tau_dft_ok gf beta Hgf Hb) in H. match type of H with Ok ?r = _ => assert (Eg : tau = r) by congruence end. subst tau. clear H. rewrite map_length, seq_length. split; [reflexivity|]. intros k Hk. rewrite nth_map_seq by exact Hk.
  unfold iw2tau_at. f_equal. apply (nsum_ext RF). intros j Hj. f_equal. f_equal.
  replace (2 * List.length gf + 1)%nat with (S (2 * List.length gf)) by lia.
  rewrite cexp_grid_neg; [f_equal; lia|exact Hb|]. destruct gf; [contradiction|cbn; lia].
Qed.

(** tau2iw_dft is the left Riemann sum; the last value is not used *)
Theorem tau2iw_dft_riemann g beta giw : beta <> 0%R -> tau2iw_dft g beta = Ok giw ->
  List.length giw = (List.length g / 2)%nat /\
  forall j, (j < List.length giw)%nat ->
    nth j giw (RtoC 0) = RtoC (beta / INR (List.length g - 1)) * nsum (K := CF) (List.length g - 1) (fun k =>
      RtoC (nth k g 0%R) * cexp (matsubara_frequencies (Z.of_nat j) beta * RtoC (linspace 0 beta (List.length g) k))).
Proof.
  intros Hb H. destruct g as [|g0 [|g1 gr]]; [discriminate H|discriminate H|]. set (g := g0 :: g1 :: gr) in *. set (p := S (List.length gr)).
  assert (Lg : List.length g = S p) by reflexivity. assert (Hp : (0 < p)%nat) by (unfold p; lia).
  rewrite tau2iw_dft_ok in H by (rewrite Lg; lia). match type of H with Ok ?r = _ => assert (Eg : giw = r) by congruence end. subst giw. clear H. rewrite map_length, seq_length. split; [reflexivity|]. intros j Hj. rewrite nth_map_seq by exact Hj.
  rewrite Lg. replace (S p - 1)%nat with p by lia.
  assert (E : nsum (K := CF) (2 * p) (fun k => RtoC (nth k (full_range g) 0%R) * zeta (2 * p) (Z.of_nat (2 * j + 1) * Z.of_nat k))
     = nsum (K := CF) (2 * p) (fun k => RtoC (nth k (removelast (full_range g)) 0%R) * zeta (2 * p) (Z.of_nat (2 * j + 1) * Z.of_nat k))).
  { apply (nsum_ext CF). intros k Hk. rewrite nth_removelast; [reflexivity|]. rewrite full_len, Lg. lia. }
  rewrite E, (full_sum g p j Lg Hp). set (A := nsum (K := CF) p (fun k => zeta _ _ * _)).
  assert (EA : nsum (K := CF) p (fun k => RtoC (nth k g 0%R) * cexp (matsubara_frequencies (Z.of_nat j) beta * RtoC (linspace 0 beta (S p) k))) = A).
  { apply (nsum_ext CF). intros k Hk. rewrite cexp_grid by assumption. cring. }
  rewrite EA. rewrite RtoC_div by (apply not_0_INR; lia). rewrite mult_INR, RtoC_mult. assert (HpC := INR_C_neq p Hp). change (INR 2) with (1 + 1)%R. rewrite RtoC_plus.
  assert (H2 : RtoC 1 + RtoC 1 <> 0) by (rewrite <- RtoC_plus; apply RtoC_neq; lra). clearbody A. match goal with |- @eq _ ?a ?b => change (@eq C a b) end. field. split; assumption.
Qed.
(** the value at tau = beta is not used *)
Corollary tau2iw_dft_last g x y beta : tau2iw_dft (g ++ [x]) beta = tau2iw_dft (g ++ [y]) beta.
Proof.
  unfold tau2iw_dft, full_range. rewrite !removelast_last. rewrite !app_assoc, !removelast_last. reflexivity.
Qed.

(** tau2iv_dft: positive frequencies are left Riemann sums, frequency zero the trapezoidal sum *)
Theorem tau2iv_dft_riemann g beta giv : beta <> 0%R -> tau2iv_dft g beta = Ok giv ->
  List.length giv = ((List.length g - 1) / 2 + 1)%nat /\
  nth 0 giv (RtoC 0) = RtoC (nsum (K := RF) (List.length g - 1) (fun k => beta / INR (List.length g - 1) * (nth (S k) g 0 + nth k g 0) / 2)%R) /\
  forall m, (0 < m < List.length giv)%nat ->
    nth m giv (RtoC 0) = RtoC (beta / INR (List.length g - 1)) * nsum (K := CF) (List.length g - 1) (fun k =>
      RtoC (nth k g 0%R) * cexp (matsubara_frequencies_b (Z.of_nat m) beta * RtoC (linspace 0 beta (List.length g) k))).
Proof.
  intros Hb H. unfold tau2iv_dft in H. destruct (Nat.eqb_spec (List.length g) 1) as [|N1]; [discriminate H|].
  destruct g as [|g0 [|g1 gr]]; [discriminate H|now elim N1|]. set (g := g0 :: g1 :: gr) in *. set (p := S (List.length gr)).
  assert (Lg : List.length g = S p) by reflexivity. assert (Hp : (0 < p)%nat) by (unfold p; lia).
  set (mean := trapz_dx g _) in H. set (x := map (fun g => (g - mean)%R) (removelast g)) in H.
  assert (Lx : List.length x = p) by (unfold x; rewrite map_length, removelast_len, Lg; lia).
  assert (Nx : x <> []) by (intros E; rewrite E in Lx; cbn in Lx; lia). rewrite (ihfft_ok x Nx) in H. cbn [bind] in H. rewrite Lx in H. replace (p / 2 + 1)%nat with (S (p / 2)) in H by lia.
  cbn [seq map tl] in H. match type of H with Ok ?r = _ => assert (Eg : giv = r) by congruence end. subst giv. clear H. rewrite Lg. replace (S p - 1)%nat with p by lia. cbn [List.length]. rewrite !map_length, seq_length. split; [lia|]. split.
  { cbn [nth]. unfold mean, trapz_dx. rewrite Lg. replace (S p - 1)%nat with p by lia. reflexivity. }
  intros m Hm. destruct m as [|m]; [lia|]. cbn [nth]. rewrite nth_scal. rewrite <- seq_shift, map_map. rewrite nth_map_seq by lia. cbv beta.
  rewrite (nsum_ext CF p _ (fun k => @Fadd CF (RtoC (nth k g 0%R) * zeta p (Z.of_nat (S m) * Z.of_nat k)) (Copp (RtoC mean) * zeta p (Z.of_nat (S m) * Z.of_nat k)))).
  2:{ intros k Hk. unfold x. rewrite (nth_map_in _ _ k _ 0%R) by (rewrite removelast_len, Lg; lia). rewrite nth_removelast by (rewrite Lg; lia). unfold Rminus. rewrite RtoC_plus, RtoC_opp. cring. }
  rewrite (nsum_add CF). assert (T := nsum_mul_l CF p (Copp (RtoC mean))). cbn [Fmul CF] in T. rewrite T.
  assert (Z0 : nsum (K := CF) p (fun k => zeta p (Z.of_nat (S m) * Z.of_nat k)) = RtoC 0).
  { rewrite (zeta_orth p Hp). destruct (Z.eqb_spec (Z.of_nat (S m) mod Z.of_nat p) 0) as [E|_]; [exfalso|reflexivity].
    assert (p / 2 < p)%nat by (apply Nat.div_lt; lia). rewrite Z.mod_small in E by lia. lia. }
  rewrite Z0. rewrite (nsum_ext CF p (fun k => RtoC (nth k g 0%R) * cexp _) (fun k => RtoC (nth k g 0%R) * zeta p (Z.of_nat (S m) * Z.of_nat k))).
  2:{ intros k Hk. now rewrite cexp_grid_b. }
  set (A := nsum (K := CF) p _). rewrite RtoC_div by (apply not_0_INR; lia). assert (HpC := INR_C_neq p Hp). cbn [Fadd CF]. clearbody A.
  match goal with |- @eq _ ?a ?b => change (@eq C a b) end. field. exact HpC.
Qed.

(** iw2tau_dft_soft: the truncated sum of the smoothly extended data, on linspace(0, beta, 2N+1) *)
Theorem iw2tau_dft_soft_series gf beta tau : beta <> 0%R -> iw2tau_dft_soft gf beta = Ok tau ->
  let N := List.length gf in
  List.length tau = (2 * N + 1)%nat /\
  forall k, (k < List.length tau)%nat ->
    nth k tau 0%R = (2 / beta * nsum (K := RF) (2 * N) (fun j =>
      fst ((if (j <? N)%nat then nth j gf (RtoC 0) else RtoC ((1 + cos (PI * INR (j - N + 1) / INR N)) / 2) * nth (N - 1) gf (RtoC 0))
           * cexp (- (matsubara_frequencies (Z.of_nat j) beta * RtoC (linspace 0 beta (2 * N + 1) k))))%C))%R.
Proof.
  intros Hb H N. unfold iw2tau_dft_soft in H. set (ex := gf ++ _) in H. destruct (iw2tau_dft ex beta) as [t|] eqn:E; [|discriminate H]. cbn [bind] in H. injection H as <-.
  destruct (iw2tau_dft_series ex beta t Hb E) as [Lt Ht].
  assert (Le : List.length ex = (2 * N)%nat) by (unfold ex; rewrite app_length, map_length; unfold soft_tail; rewrite map_length, seq_length; fold N; lia).
  assert (HN : (0 < N)%nat). { destruct (Nat.eq_dec N 0) as [E0|]; [|lia]. exfalso. assert (ex = []) as Ee by (apply length_zero_iff_nil; lia). rewrite Ee in E.
    unfold iw2tau_dft in E. destruct (Req_EM_T beta 0); [contradiction|]. discriminate E. }
  rewrite Le in Lt, Ht. assert (Lev : List.length (evens 0%R t) = (2 * N + 1)%nat).
  { unfold evens. rewrite map_length, seq_length, Lt. replace (2 * (2 * N) + 1 + 1)%nat with ((2 * N + 1) * 2)%nat by lia. apply Nat.div_mul. lia. }
  rewrite Lev. split; [reflexivity|]. intros k Hk. unfold evens. unfold evens in Lev. rewrite map_length, seq_length in Lev. rewrite nth_map_seq by lia. rewrite Ht by lia. f_equal.
  apply (nsum_ext RF). intros j Hj. f_equal. f_equal.
  - unfold ex. destruct (Nat.ltb_spec j N) as [Hlt|Hge]; [now rewrite app_nth1|]. rewrite app_nth2 by (fold N; lia).
    fold N. rewrite (nth_map_in _ _ _ _ 0%R) by (unfold soft_tail; rewrite map_length, seq_length; lia). unfold soft_tail. rewrite nth_map_seq by lia. f_equal.
    + f_equal. replace (S (j - N)) with (j - N + 1)%nat by lia. field.
    + fold N. clear -HN. unfold N in *. destruct (exists_last (l := gf)) as (l & a & ->); [intros ->; cbn in HN; lia|]. rewrite last_last, app_length. cbn [List.length]. replace (List.length l + 1 - 1)%nat with (List.length l) by lia.
      rewrite app_nth2 by lia. now rewrite Nat.sub_diag.
  - f_equal. f_equal. f_equal. f_equal. rewrite Lt. unfold linspace. replace (2 * (2 * N) + 1 - 1)%nat with (2 * (2 * N))%nat by lia. replace (2 * N + 1 - 1)%nat with (2 * N)%nat by lia.
    rewrite (mult_INR 2 k), (mult_INR 2 (2 * N)). change (INR 2) with 2%R. assert (INR (2 * N) <> 0)%R by (apply not_0_INR; lia). field. assumption.
Qed.

(** ** Exactness of tau2iw_ft_lin needs the absence of a jump *)
Lemma weight2_neq0 (th : R) : th <> 0%R -> weight2 (Ci * RtoC th) <> 0.
Proof.
  intros Hth E. assert (Hd : Ci * RtoC th <> 0) by (apply Cmult_neq_0; [exact Ci_neq|now apply RtoC_neq]). unfold weight2, weight1 in E. set (d := Ci * RtoC th) in *.
  assert (E1 : cexp d * (1 - d) = 1).
  { transitivity (1 - (d * d) * ((cexp d - 1 + 1 - (cexp d - 1) / d) / d)); [field; exact Hd|]. rewrite E. ring. }
  apply (f_equal Cmod) in E1. rewrite Cmod_mult, Cmod_1, Cmod_cexp in E1. unfold d in E1. replace (fst (Ci * RtoC th)) with 0%R in E1 by (cbn; ring). rewrite exp_0, Rmult_1_l in E1.
  assert (E2 : ((Cmod (1 - Ci * RtoC th)%C) ^ 2 = 1 + th * th)%R). { unfold Cmod. rewrite pow2_sqrt; [cbn; ring|]. cbn. nra. }
  rewrite E1 in E2. assert (0 < th * th)%R by nra. lra.
Qed.
Theorem tau2iw_ft_lin_iff gf_tau beta giw : beta <> 0%R -> tau2iw_ft_lin gf_tau beta = Ok giw ->
  forall j f, (j < List.length giw)%nat ->
    interpolates f (linspace 0 beta (List.length gf_tau)) (fun k => RtoC (nth k gf_tau 0%R)) (List.length gf_tau - 1) ->
    is_CInt (fun tau => cexp (matsubara_frequencies (Z.of_nat j) beta * RtoC tau) * f tau) 0 beta (nth j giw (RtoC 0))
    <-> (nth 0 gf_tau 0 + nth (List.length gf_tau - 1) gf_tau 0 = 0)%R.
Proof.
  intros Hb H j f Hj Hf. destruct (tau2iw_ft_lin_exact _ _ _ Hb H) as [L T]. split.
  - intros T2. specialize (T j f Hj Hf). assert (J := is_CInt_unique _ _ _ _ _ T2 T). set (v := nth j giw (RtoC 0)) in *.
    assert (J0 : jump_term gf_tau beta j = 0). { transitivity ((v + jump_term gf_tau beta j) - v); [ring|]. rewrite <- J. ring. }
    assert (Hl : (1 < List.length gf_tau)%nat). { rewrite L in Hj. destruct (List.length gf_tau) as [|[|]]; [cbn in Hj; lia|cbn in Hj; lia|lia]. }
    assert (Hh : INR (List.length gf_tau - 1) <> 0%R) by (apply not_0_INR; lia).
    unfold jump_term in J0. set (h := (beta / INR (List.length gf_tau - 1))%R) in J0. assert (Hh0 : h <> 0%R). { unfold h, Rdiv. apply Rmult_integral_contrapositive_currified; [exact Hb|now apply Rinv_neq_0_compat]. }
    destruct (Ceq_dec (RtoC (/ 2 * h * (nth 0 gf_tau 0%R + nth (List.length gf_tau - 1) gf_tau 0%R))) 0) as [E|N].
    + apply RtoC_inj in E. apply Rmult_integral in E. destruct E as [E|E]; [|exact E]. exfalso. lra.
    + exfalso. apply Cmult_neq_0 in J0; [exact J0|exact N|]. apply Cmult_neq_0; [|apply cexp_neq_0]. rewrite iw_R by exact Hb. rewrite <- Cmult_assoc, <- RtoC_mult. apply weight2_neq0.
      assert (P := PI_neq0). assert (IZR (2 * Z.of_nat j + 1) <> 0)%R by (apply IZR_neq; lia).
      unfold Rdiv. apply Rmult_integral_contrapositive_currified; [|exact Hh0].
      apply Rmult_integral_contrapositive_currified; [now apply Rmult_integral_contrapositive_currified|now apply Rinv_neq_0_compat].
  - intros E. eapply tau2iw_ft_lin_exact_nojump; eauto. lra.
Qed.

(** ** tt2z_lin: the equidistance check has an absolute tolerance *)
Definition np_isclose (a b : R) : bool := if Rle_dec (Rabs (a - b)) (/ 100000000 + / 100000 * Rabs b) then true else false.
Theorem tt2z_lin_tolerance : exists tt gf_t z v f,
  tt2z_lin np_isclose tt gf_t z = Ok v /\ (forall i, (S i < List.length tt)%nat -> (nth i tt 0 < nth (S i) tt 0)%R) /\
  interpolates f (fun i => nth i tt 0%R) (fun i => nth i gf_t (RtoC 0)) (List.length tt - 1) /\
  ~ is_CInt (fun t => cexp (Ci * z * RtoC t) * f t) (nth 0 tt 0%R) (nth (List.length tt - 1) tt 0%R) v.
Proof.
  set (h := (/ 1000000000)%R). assert (Hh : (0 < h)%R) by (unfold h; lra).
  set (tt := [0; h; 3 * h]%R). set (gf := [RtoC 0; RtoC 0; RtoC 1]). set (z := - Ci * RtoC (/ 2 / h)).
  assert (Hs : Ci * z = RtoC (/ 2 / h)) by (unfold z; apply C_ext; cbn; ring).
  assert (H2h : (/ 2 / h <> 0)%R). { unfold Rdiv. apply Rmult_integral_contrapositive_currified; [lra|apply Rinv_neq_0_compat; lra]. }
  assert (Hx : Ci * z * RtoC h = RtoC (/ 2)). { rewrite Hs, <- RtoC_mult. f_equal. field. lra. }
  assert (Hz : z <> 0). { intros E. rewrite E, Cmult_0_r in Hs. symmetry in Hs. apply RtoC_inj in Hs. contradiction. }
  assert (Hinc : forall i, (i < 2)%nat -> (nth i tt 0 < nth (S i) tt 0)%R). { intros [|[|i]] Hi; [cbn; lra|cbn; lra|lia]. }
  set (f := pl (fun i => nth i tt 0%R) (fun i => nth i gf (RtoC 0)) 2). set (E := exp (/ 2)).
  assert (Hf : interpolates f (fun i => nth i tt 0%R) (fun i => nth i gf (RtoC 0)) 2) by (apply pl_interpolates; exact Hinc).
  exists tt, gf, z, (RtoC (h * (E * ((E - (E - 1) / (/ 2)) / (/ 2))))), f. split; [|split; [|split; [exact Hf|]]].
  - unfold tt2z_lin. cbn [List.length tt Nat.ltb Nat.leb]. assert (Eq : equidistant np_isclose tt = true).
    { unfold equidistant, diff. cbn [List.length tt Nat.sub seq map forallb nth]. unfold np_isclose.
      rewrite !andb_true_iff. repeat split; destruct (Rle_dec _ _) as [|N]; try reflexivity; exfalso; apply N; clear N.
      - replace (h - 0 - (h - 0))%R with 0%R by ring. rewrite Rabs_R0. assert (P := Rabs_pos (h - 0)). lra.
      - rewrite (Rabs_pos_eq (h - 0)) by lra. rewrite Rabs_pos_eq by lra. unfold h. lra. }
    rewrite Eq. cbn [gf List.length Nat.eqb]. destruct (Ceq_dec z 0) as [|_]; [contradiction|]. cbn [nth tt]. rewrite Rminus_0_r. rewrite Hx.
    destruct (Ceq_dec (RtoC (/ 2)) 0) as [E0|_]; [apply RtoC_inj in E0; lra|]. f_equal. cbn [Nat.sub nsum nth Fadd F0 CF]. unfold tphase. rewrite Hx, cexp_R. fold E.
    assert (N2 : (/ 2 <> 0)%R) by lra. assert (N2C : RtoC (/ 2) <> 0) by (now apply RtoC_neq). rewrite !RtoC_mult, !RtoC_div, !RtoC_minus, !RtoC_div, !RtoC_minus by exact N2.
    match goal with |- @eq _ ?a ?b => change (@eq C a b) end. unfold gf. cbn [nth]. field. exact N2C.
  - intros i Hi. apply Hinc. cbn in Hi. lia.
  - intros T. cbn [List.length tt Nat.sub] in T.
    assert (T1 := filon_step (Ci * z) f 0 h (RtoC 0) (RtoC 0) ltac:(lra) ltac:(rewrite Hs; now apply RtoC_neq)). 
    assert (T2 := filon_step (Ci * z) f h (2 * h) (RtoC 0) (RtoC 1) ltac:(lra) ltac:(rewrite Hs; now apply RtoC_neq)).
    replace (0 + h)%R with h in T1 by ring. replace (h + 2 * h)%R with (3 * h)%R in T2 by ring.
    assert (T3 := is_CInt_chasles _ _ _ _ _ _ (T1 (Hf 0%nat ltac:(lia))) (T2 (Hf 1%nat ltac:(lia)))). clear T1 T2.
    assert (U := is_CInt_unique _ _ _ _ _ T T3). clear T T3.
    assert (Hx2 : Ci * z * RtoC (2 * h) = RtoC 1). { rewrite Hs, <- RtoC_mult. f_equal. field. lra. }
    assert (W2 : weight2 (RtoC 1) = RtoC 1). { unfold weight2, weight1. field. apply RtoC_neq. lra. }
    rewrite Hx, Hx2, cexp_R, W2 in U. fold E in U.
    assert (U2 : RtoC (h * (E * ((E - (E - 1) / / 2) / / 2))) = RtoC (2 * h * E)).
    { rewrite U. rewrite !RtoC_mult. ring. }
    apply RtoC_inj in U2. assert (HE : (1 < E)%R) by (unfold E; assert (T := exp_ineq1 (/ 2)); lra).
    assert (U3 : ((h * E) * (2 * (2 - E)) = (h * E) * 2)%R). { transitivity (h * (E * ((E - (E - 1) / / 2) / / 2)))%R; [field|]. rewrite U2. ring. }
    apply Rmult_eq_reg_l in U3; [lra|]. assert (0 < h * E)%R by nra. lra.
Qed.
