(** * The linear-interpolation Fourier integrals *)
From Coq Require Import List Arith ZArith Reals Lia Lra Bool String Field.
From Coquelicot Require Import Coquelicot.
From Verif Require Import Base FSum CBase CExp Herm_Proofs LinPred_Burg Matrix_Time Stat_Model Linalg_Model Pole_Model Fourier_Model Fourier_Dft Fourier_Filon.
Import ListNotations.
Local Open Scope C_scope.

Lemma RtoC_neq (r : R) : r <> 0%R -> RtoC r <> 0.
Proof. intros H E. apply H. now apply RtoC_inj. Qed.
Lemma INR_C_neq n : (0 < n)%nat -> RtoC (INR n) <> 0.
Proof. intros H. apply RtoC_neq, not_0_INR. lia. Qed.
Lemma Ci_neq : Ci <> 0.
Proof. intros E. apply (f_equal snd) in E. cbn in E. lra. Qed.
Lemma ihfft_ok x : x <> [] -> ihfft x = Ok (map (fun m => nsum (K := CF) (List.length x) (fun k => RtoC (nth k x 0%R) * zeta (List.length x) (Z.of_nat m * Z.of_nat k)) / RtoC (INR (List.length x))) (seq 0 (List.length x / 2 + 1))).
Proof. intros H. unfold ihfft. destruct x; [contradiction|]. reflexivity. Qed.
Lemma diff_len x : List.length (diff x) = (List.length x - 1)%nat.
Proof. unfold diff. now rewrite map_length, seq_length. Qed.
Lemma diff_nth x k : (k < List.length x - 1)%nat -> nth k (diff x) 0%R = (nth (S k) x 0 - nth k x 0)%R.
Proof. intros H. unfold diff. now rewrite nth_map_seq. Qed.

(** imaginary frequencies on the grid *)
Lemma iv_R n beta : beta <> 0%R -> matsubara_frequencies_b n beta = Ci * RtoC (2 * PI * IZR n / beta).
Proof. intros H. assert (HC := RtoC_neq _ H). unfold matsubara_frequencies_b. rewrite RtoC_div, !RtoC_mult by exact H. field. exact HC. Qed.
Lemma iw_R n beta : beta <> 0%R -> matsubara_frequencies n beta = Ci * RtoC (PI * IZR (2 * n + 1) / beta).
Proof. intros H. assert (HC := RtoC_neq _ H). unfold matsubara_frequencies. rewrite RtoC_div, !RtoC_mult by exact H. field. exact HC. Qed.
Lemma cexp_grid_b m k n beta : beta <> 0%R -> (0 < n)%nat ->
  cexp (matsubara_frequencies_b (Z.of_nat m) beta * RtoC (linspace 0 beta (S n) k)) = zeta n (Z.of_nat m * Z.of_nat k).
Proof.
  intros Hb Hn. rewrite iv_R by exact Hb. unfold zeta, linspace. rewrite <- Cmult_assoc, <- RtoC_mult. f_equal. f_equal. f_equal. cbn [Nat.sub]. rewrite Nat.sub_0_r.
  assert (INR n <> 0)%R by (apply not_0_INR; lia). rewrite mult_IZR, <- !INR_IZR_INZ. field; auto.
Qed.
Lemma cexp_grid j k p beta : beta <> 0%R -> (0 < p)%nat ->
  cexp (matsubara_frequencies (Z.of_nat j) beta * RtoC (linspace 0 beta (S p) k)) = zeta (2 * p) (Z.of_nat (2 * j + 1) * Z.of_nat k).
Proof.
  intros Hb Hn. rewrite iw_R by exact Hb. unfold zeta, linspace. rewrite <- Cmult_assoc, <- RtoC_mult. f_equal. f_equal. f_equal. cbn [Nat.sub]. rewrite Nat.sub_0_r.
  assert (INR p <> 0)%R by (apply not_0_INR; lia). replace (2 * Z.of_nat j + 1)%Z with (Z.of_nat (2 * j + 1)) by lia. rewrite mult_IZR, <- !INR_IZR_INZ, mult_INR. change (INR 2) with 2%R. field; auto.
Qed.
Lemma linspace_S beta n k : (0 < n)%nat -> linspace 0 beta (S n) (S k) = (linspace 0 beta (S n) k + beta / INR n)%R.
Proof. intros H. unfold linspace. cbn [Nat.sub]. rewrite Nat.sub_0_r, S_INR. assert (INR n <> 0)%R by (apply not_0_INR; lia). field. auto. Qed.
Lemma linspace_0 beta n : linspace 0 beta n 0 = 0%R.
Proof. unfold linspace. cbn [INR]. unfold Rdiv. ring. Qed.
Lemma linspace_end beta n : (0 < n)%nat -> linspace 0 beta (S n) n = beta.
Proof. intros H. unfold linspace. cbn [Nat.sub]. rewrite Nat.sub_0_r. assert (INR n <> 0)%R by (apply not_0_INR; lia). field. auto. Qed.

Theorem tau2iv_ft_lin_exact gf_tau beta giv : beta <> 0%R -> tau2iv_ft_lin gf_tau beta = Ok giv ->
  List.length giv = ((List.length gf_tau - 1) / 2 + 1)%nat /\
  forall m f, (m < List.length giv)%nat ->
    interpolates f (linspace 0 beta (List.length gf_tau)) (fun k => RtoC (nth k gf_tau 0%R)) (List.length gf_tau - 1) ->
    is_CInt (fun tau => cexp (matsubara_frequencies_b (Z.of_nat m) beta * RtoC tau) * f tau) 0 beta (nth m giv (RtoC 0)).
Proof.
  intros Hb H. unfold tau2iv_ft_lin in H. set (x := removelast gf_tau) in *. assert (Lx : List.length x = (List.length gf_tau - 1)%nat) by apply removelast_len.
  destruct (list_eq_dec Req_EM_T x []) as [E|N]; [rewrite E in H; discriminate H|].
  set (n := (List.length gf_tau - 1)%nat) in *. assert (Hn : (0 < n)%nat). { rewrite <- Lx. destruct x; [contradiction|cbn; lia]. }
  assert (Lg : List.length gf_tau = S n) by (unfold n; lia). assert (Ld : List.length (diff gf_tau) = n) by apply diff_len.
  assert (Nd : diff gf_tau <> []). { intros E. rewrite E in Ld. cbn in Ld. lia. }
  rewrite (ihfft_ok x N), (ihfft_ok _ Nd) in H. cbn [bind] in H. rewrite Lx, Ld in H. rewrite map_length, seq_length in H. injection H as <-.
  rewrite map_length, seq_length. split; [reflexivity|]. intros m f Hm Hf. rewrite nth_map_seq by exact Hm. rewrite !nth_map_seq by exact Hm.
  rewrite Lg in Hf. assert (HnC := INR_C_neq n Hn). assert (HbC := RtoC_neq beta Hb). assert (HnR : (INR n <> 0)%R) by (apply not_0_INR; lia).
  assert (Hh : (beta / INR n <> 0)%R). { unfold Rdiv. apply Rmult_integral_contrapositive_currified; [exact Hb|now apply Rinv_neq_0_compat]. }
  assert (E1 : nsum (K := CF) n (fun k => RtoC (nth k x 0%R) * zeta n (Z.of_nat m * Z.of_nat k)) = nsum (K := CF) n (fun k => cexp (matsubara_frequencies_b (Z.of_nat m) beta * RtoC (linspace 0 beta (S n) k)) * RtoC (nth k gf_tau 0%R))).
  { apply (nsum_ext CF). intros k Hk. rewrite cexp_grid_b by assumption. unfold x. rewrite nth_removelast by (fold n; exact Hk). apply Cmult_comm. }
  assert (E2 : nsum (K := CF) n (fun k => RtoC (nth k (diff gf_tau) 0%R) * zeta n (Z.of_nat m * Z.of_nat k)) = nsum (K := CF) n (fun k => cexp (matsubara_frequencies_b (Z.of_nat m) beta * RtoC (linspace 0 beta (S n) k)) * (RtoC (nth (S k) gf_tau 0%R) - RtoC (nth k gf_tau 0%R)))).
  { apply (nsum_ext CF). intros k Hk. rewrite cexp_grid_b by assumption. rewrite diff_nth by (fold n; exact Hk). rewrite RtoC_minus. apply Cmult_comm. }
  rewrite E1, E2. clear E1 E2.
  pose proof (linspace_0 beta (S n)) as T0. pose proof (linspace_end beta n Hn) as T1.
  destruct (Nat.eqb_spec m 0) as [->|Hm0].
  - assert (Z0 : forall t : R, cexp (matsubara_frequencies_b (Z.of_nat 0) beta * RtoC t) = 1).
    { intros t. rewrite iv_R by exact Hb. cbn [Z.of_nat]. replace (2 * PI * 0 / beta)%R with 0%R by (field; exact Hb). rewrite Cmult_0_r, Cmult_0_l. apply cexp_0. }
    apply (is_CInt_ext f); [intros t _; rewrite Z0; ring|]. eapply is_CInt_eq.
    + rewrite <- T0 at 1. rewrite <- T1 at 2. apply trapz_sum; [|exact Hf]. intros k Hk E. rewrite linspace_S in E by exact Hn. lra.
    + assert (TL := nsum_mul_l CF n). assert (TA := nsum_add CF n). cbn [Fmul Fadd CF] in TL, TA. rewrite !(nsum_ext CF n (fun k => cexp _ * _) _ (fun k _ => f_equal (fun e => e * _) (Z0 _))).
      transitivity (RtoC (beta / INR n) * (nsum (K := CF) n (fun k => 1 * RtoC (nth k gf_tau 0%R)) + RtoC (/ 2) * nsum (K := CF) n (fun k => 1 * (RtoC (nth (S k) gf_tau 0%R) - RtoC (nth k gf_tau 0%R))))).
      * rewrite <- !TL, <- TA, <- TL. apply (nsum_ext CF). intros k Hk. rewrite linspace_S by exact Hn.
        match goal with |- @eq _ ?a ?b => change (@eq C a b) end. replace (linspace 0 beta (S n) k + beta / INR n - linspace 0 beta (S n) k)%R with (beta / INR n)%R by ring.
        apply C_ext; cbn; field; exact HnR.
      * rewrite RtoC_div by exact HnR. match goal with |- @eq _ ?a ?b => change (@eq C a b) end. field. exact HnC.
  - eapply is_CInt_eq.
    + rewrite <- T0 at 1. rewrite <- T1 at 2. apply (filon_sum _ f _ (fun k => RtoC (nth k gf_tau 0%R)) (beta / INR n)); [exact Hh| |intros k Hk; now apply linspace_S|exact Hf].
      rewrite iv_R by exact Hb. apply Cmult_neq_0; [exact Ci_neq|]. apply RtoC_neq. assert (P := PI_neq0). assert (IZR (Z.of_nat m) <> 0)%R by (apply IZR_neq; lia).
      intros E0. apply (f_equal (fun q => q * beta)%R) in E0. unfold Rdiv in E0. rewrite Rmult_assoc, Rinv_l in E0 by exact Hb. rewrite Rmult_1_r, Rmult_0_l in E0.
      apply Rmult_integral in E0. destruct E0 as [E0|E0]; [lra|contradiction].
    + assert (ED : matsubara_frequencies_b (Z.of_nat m) beta * RtoC (beta / INR n) = RtoC 2 * Ci * RtoC PI / RtoC (INR n) * RtoC (INR m)).
      { unfold matsubara_frequencies_b. rewrite RtoC_div by exact HnR. rewrite <- INR_IZR_INZ. field. split; assumption. }
      rewrite ED. rewrite RtoC_div by exact HnR. match goal with |- @eq _ ?a ?b => change (@eq C a b) end. field. exact HnC.
Qed.

(** the error of tau2iw_ft_lin caused by the jump of the anti-periodic extension at tau = 0 *)
Definition jump_term (gf_tau : list R) (beta : R) (j : nat) : C :=
  let h := (beta / INR (List.length gf_tau - 1))%R in
  let iw := matsubara_frequencies (Z.of_nat j) beta in
  RtoC (/ 2 * h * (nth 0 gf_tau 0 + nth (List.length gf_tau - 1) gf_tau 0)) * (weight2 (iw * RtoC h) * cexp (iw * RtoC (beta - h))).

Lemma iw_neq0 j beta : beta <> 0%R -> matsubara_frequencies (Z.of_nat j) beta <> 0.
Proof.
  intros Hb. rewrite iw_R by exact Hb. apply Cmult_neq_0; [exact Ci_neq|]. apply RtoC_neq. assert (P := PI_neq0). assert (IZR (2 * Z.of_nat j + 1) <> 0)%R by (apply IZR_neq; lia).
  intros E0. apply (f_equal (fun q => q * beta)%R) in E0. unfold Rdiv in E0. rewrite Rmult_assoc, Rinv_l in E0 by exact Hb. rewrite Rmult_1_r, Rmult_0_l in E0.
  apply Rmult_integral in E0. destruct E0 as [E0|E0]; contradiction.
Qed.

Lemma jump_alg (ip b g0 gp A D w1 w2 e : C) : 1 + 1 <> 0 -> ip <> 0 ->
  b / ip * (w1 * A + w2 * D) =
  - b * (w1 * (- (A + A) / ((1 + 1) * ip)) + w2 * ((- (D + D) + (g0 + gp) * e) / ((1 + 1) * ip))) + / (1 + 1) * (b / ip) * (g0 + gp) * (w2 * e).
Proof. intros H2 Hp. field. split; assumption. Qed.
Lemma zeta_anti p j k : (0 < p)%nat -> zeta (2 * p) (Z.of_nat (2 * j + 1) * Z.of_nat (p + k)) = - zeta (2 * p) (Z.of_nat (2 * j + 1) * Z.of_nat k).
Proof.
  intros Hp. assert (H2p : (0 < 2 * p)%nat) by lia.
  replace (Z.of_nat (2 * j + 1) * Z.of_nat (p + k))%Z with (Z.of_nat (2 * j + 1) * Z.of_nat k + (Z.of_nat (2 * p) * Z.of_nat j + Z.of_nat p))%Z by lia.
  rewrite !(zeta_add _ H2p), (zeta_period _ H2p), zeta_minus1 by exact Hp. replace (RtoC (-1)) with (- RtoC 1) by (rewrite <- RtoC_opp; f_equal; ring). ring.
Qed.
Lemma full_sum g p j : List.length g = S p -> (0 < p)%nat ->
  nsum (K := CF) (2 * p) (fun k => RtoC (nth k (removelast (full_range g)) 0%R) * zeta (2 * p) (Z.of_nat (2 * j + 1) * Z.of_nat k))
  = - (nsum (K := CF) p (fun k => zeta (2 * p) (Z.of_nat (2 * j + 1) * Z.of_nat k) * RtoC (nth k g 0%R))
       + nsum (K := CF) p (fun k => zeta (2 * p) (Z.of_nat (2 * j + 1) * Z.of_nat k) * RtoC (nth k g 0%R))).
Proof.
  intros Lg Hp. assert (Lf := full_len g). set (A := nsum (K := CF) p _). replace (nsum (K := CF) (2 * p)) with (nsum (K := CF) (p + p)) by (f_equal; lia).
  rewrite (nsum_split CF). assert (TO := nsum_opp CF p). cbn [Fopp CF] in TO. transitivity (- A + - A); [|cring]. unfold A. rewrite <- !TO. cbn [Fadd CF].
  f_equal; apply (nsum_ext CF); intros k Hk.
  - rewrite nth_removelast, full_lo by lia. rewrite RtoC_opp. cring.
  - rewrite nth_removelast by lia. replace (nth (p + k) (full_range g) 0%R) with (nth k g 0%R) by (replace p with (List.length g - 1)%nat by lia; now rewrite full_hi). rewrite zeta_anti by exact Hp. cring.
Qed.
Lemma full_diff_sum g p j : List.length g = S p -> (0 < p)%nat ->
  nsum (K := CF) (2 * p) (fun k => RtoC (nth k (diff (full_range g)) 0%R) * zeta (2 * p) (Z.of_nat (2 * j + 1) * Z.of_nat k))
  = - (nsum (K := CF) p (fun k => zeta (2 * p) (Z.of_nat (2 * j + 1) * Z.of_nat k) * (RtoC (nth (S k) g 0%R) - RtoC (nth k g 0%R)))
       + nsum (K := CF) p (fun k => zeta (2 * p) (Z.of_nat (2 * j + 1) * Z.of_nat k) * (RtoC (nth (S k) g 0%R) - RtoC (nth k g 0%R))))
    + (RtoC (nth 0 g 0%R) + RtoC (nth p g 0%R)) * zeta (2 * p) (Z.of_nat (2 * j + 1) * Z.of_nat (p - 1)).
Proof.
  intros Lg Hp. assert (Lf := full_len g). set (D := nsum (K := CF) p _). replace (nsum (K := CF) (2 * p)) with (nsum (K := CF) (p + p)) by (f_equal; lia).
  rewrite (nsum_split CF). assert (TO := nsum_opp CF). cbn [Fopp CF] in TO. cbn [Fadd CF]. set (J := (_ + _) * zeta _ _).
  transitivity ((- D + J) + - D); [|cring]. f_equal.
  - destruct p as [|p']; [lia|]. unfold D, J. rewrite <- TO. cbn [nsum Fadd CF]. rewrite <- Cplus_assoc. f_equal.
    + apply (nsum_ext CF). intros k Hk. rewrite diff_nth by lia. rewrite !full_lo by lia. rewrite RtoC_minus, !RtoC_opp. cring.
    + rewrite diff_nth by lia. rewrite (full_lo _ p') by lia. replace (nth (S p') (full_range g) 0%R) with (nth 0 g 0%R) by (rewrite <- (full_hi g 0); f_equal; lia).
      cbn [Nat.sub]. rewrite Nat.sub_0_r. rewrite RtoC_minus, RtoC_opp. cring.
  - unfold D. rewrite <- TO. apply (nsum_ext CF). intros k Hk. rewrite diff_nth by lia.
    replace (nth (S (p + k)) (full_range g) 0%R) with (nth (S k) g 0%R) by (rewrite <- (full_hi g (S k)); f_equal; lia).
    replace (nth (p + k) (full_range g) 0%R) with (nth k g 0%R) by (rewrite <- (full_hi g k); f_equal; lia). rewrite zeta_anti by exact Hp. rewrite RtoC_minus. cring.
Qed.
Lemma tau2iw_ft_lin_ok g beta p : List.length g = S p -> (0 < p)%nat ->
  tau2iw_ft_lin g beta = Ok (map (fun j =>
    let d := RtoC 2 * Ci * RtoC PI * RtoC (INR (2 * j + 1)) / RtoC (INR (2 * p)) in
    RtoC (- beta) * (weight1 d * (nsum (K := CF) (2 * p) (fun k => RtoC (nth k (removelast (full_range g)) 0%R) * zeta (2 * p) (Z.of_nat (2 * j + 1) * Z.of_nat k)) / RtoC (INR (2 * p)))
                     + weight2 d * (nsum (K := CF) (2 * p) (fun k => RtoC (nth k (diff (full_range g)) 0%R) * zeta (2 * p) (Z.of_nat (2 * j + 1) * Z.of_nat k)) / RtoC (INR (2 * p)))))
    (seq 0 ((p + 1) / 2))).
Proof.
  intros Lg Hp. unfold tau2iw_ft_lin. assert (Lf := full_len g). assert (Lx : List.length (removelast (full_range g)) = (2 * p)%nat) by (rewrite removelast_len, Lf; lia).
  assert (Ld : List.length (diff (full_range g)) = (2 * p)%nat) by (rewrite diff_len, Lf; lia).
  rewrite ihfft_ok by (intros E; rewrite E in Lx; cbn in Lx; lia). rewrite ihfft_ok by (intros E; rewrite E in Ld; cbn in Ld; lia). cbn [bind].
  rewrite Lx, Ld, Lf, map_length, seq_length, half2. replace (2 * List.length g - 1 - 1)%nat with (2 * p)%nat by lia. f_equal. apply map_ext_in. intros j Hj. apply in_seq in Hj.
  assert (2 * j + 1 < p + 1)%nat. { assert (D := Nat.div_mod (p + 1) 2 ltac:(lia)). lia. }
  cbv zeta. rewrite !nth_map_seq by assumption. reflexivity.
Qed.
Theorem tau2iw_ft_lin_exact gf_tau beta giw : beta <> 0%R -> tau2iw_ft_lin gf_tau beta = Ok giw ->
  List.length giw = (List.length gf_tau / 2)%nat /\
  forall j f, (j < List.length giw)%nat ->
    interpolates f (linspace 0 beta (List.length gf_tau)) (fun k => RtoC (nth k gf_tau 0%R)) (List.length gf_tau - 1) ->
    is_CInt (fun tau => cexp (matsubara_frequencies (Z.of_nat j) beta * RtoC tau) * f tau) 0 beta
      (nth j giw (RtoC 0) + jump_term gf_tau beta j).
Proof.
  intros Hb H. destruct gf_tau as [|g0 [|g1 gr]]; [discriminate H|discriminate H|]. set (g := g0 :: g1 :: gr) in *. set (p := S (List.length gr)).
  assert (Lg : List.length g = S p) by reflexivity. assert (Hp : (0 < p)%nat) by (unfold p; lia). clearbody p. clearbody g. clear g0 g1 gr.
  rewrite (tau2iw_ft_lin_ok g beta p Lg Hp) in H. match type of H with Ok ?r = _ => assert (Eg : giw = r) by congruence end. subst giw. clear H.
  rewrite map_length, seq_length, Lg. split; [f_equal; lia|]. intros j f Hj Hf. rewrite nth_map_seq by exact Hj. cbv zeta. rewrite (full_sum g p j Lg Hp), (full_diff_sum g p j Lg Hp).
  replace (S p - 1)%nat with p in Hf by lia. assert (HnC := INR_C_neq p Hp). assert (HbC := RtoC_neq beta Hb). assert (HnR : (INR p <> 0)%R) by (apply not_0_INR; lia).
  assert (Hh : (beta / INR p <> 0)%R). { unfold Rdiv. apply Rmult_integral_contrapositive_currified; [exact Hb|now apply Rinv_neq_0_compat]. }
  pose proof (linspace_0 beta (S p)) as T0. pose proof (linspace_end beta p Hp) as T1.
  assert (I := filon_sum (matsubara_frequencies (Z.of_nat j) beta) f (linspace 0 beta (S p)) (fun k => RtoC (nth k g 0%R)) (beta / INR p) p Hh (iw_neq0 j beta Hb) (fun k _ => linspace_S beta p k Hp) Hf).
  rewrite T0, T1 in I. refine (is_CInt_eq _ _ _ _ _ I _). clear I.
  rewrite (nsum_ext CF p (fun k => cexp _ * RtoC (nth k g 0%R)) (fun k => zeta (2 * p) (Z.of_nat (2 * j + 1) * Z.of_nat k) * RtoC (nth k g 0%R))) by (intros k Hk; now rewrite cexp_grid).
  rewrite (nsum_ext CF p (fun k => cexp _ * _) (fun k => zeta (2 * p) (Z.of_nat (2 * j + 1) * Z.of_nat k) * (RtoC (nth (S k) g 0%R) - RtoC (nth k g 0%R)))) by (intros k Hk; now rewrite cexp_grid).
  set (A := nsum (K := CF) p (fun k => _ * RtoC (nth k g 0%R))). set (D := nsum (K := CF) p _).
  assert (ED : matsubara_frequencies (Z.of_nat j) beta * RtoC (beta / INR p) = RtoC 2 * Ci * RtoC PI * RtoC (INR (2 * j + 1)) / RtoC (INR (2 * p))).
  { unfold matsubara_frequencies. rewrite RtoC_div by exact HnR. replace (2 * Z.of_nat j + 1)%Z with (Z.of_nat (2 * j + 1)) by lia.
    rewrite <- INR_IZR_INZ, (mult_INR 2 p), RtoC_mult. change (INR 2) with 2%R. field. repeat split; try assumption. apply RtoC_neq. lra. }
  unfold jump_term. rewrite Lg. replace (S p - 1)%nat with p by lia. rewrite <- ED.
  replace (beta - beta / INR p)%R with (linspace 0 beta (S p) (p - 1)).
  2:{ destruct p as [|p']; [lia|]. unfold linspace. cbn [Nat.sub]. rewrite Nat.sub_0_r. rewrite S_INR in *. field. exact HnR. }
  rewrite cexp_grid by assumption. rewrite !RtoC_mult, RtoC_plus, RtoC_div, RtoC_opp, RtoC_inv by (try exact HnR; lra).
  set (w1 := weight1 _). set (w2 := weight2 _). set (e := zeta _ _). rewrite (mult_INR 2 p), RtoC_mult. change (INR 2) with 2%R.
  assert (H2 : RtoC 2 <> 0) by (apply RtoC_neq; lra). assert (E2 : RtoC 2 = RtoC 1 + RtoC 1) by (rewrite <- RtoC_plus; f_equal; ring). rewrite E2 in H2 |- *.
  clearbody w1 w2 e A D. exact (jump_alg (RtoC (INR p)) (RtoC beta) _ _ A D w1 w2 e H2 HnC).
Qed.

(** without a jump the result is the exact integral *)
Corollary tau2iw_ft_lin_exact_nojump gf_tau beta giw : beta <> 0%R -> tau2iw_ft_lin gf_tau beta = Ok giw ->
  nth (List.length gf_tau - 1) gf_tau 0%R = (- nth 0 gf_tau 0)%R ->
  forall j f, (j < List.length giw)%nat ->
    interpolates f (linspace 0 beta (List.length gf_tau)) (fun k => RtoC (nth k gf_tau 0%R)) (List.length gf_tau - 1) ->
    is_CInt (fun tau => cexp (matsubara_frequencies (Z.of_nat j) beta * RtoC tau) * f tau) 0 beta (nth j giw (RtoC 0)).
Proof.
  intros Hb H Hj j f Hjl Hf. destruct (tau2iw_ft_lin_exact _ _ _ Hb H) as [_ T]. refine (is_CInt_eq _ _ _ _ _ (T j f Hjl Hf) _).
  unfold jump_term. rewrite Hj. replace (nth 0 gf_tau 0 + - nth 0 gf_tau 0)%R with 0%R by ring. rewrite Rmult_0_r. ring.
Qed.

(** ** tt2z_lin *)
Theorem tt2z_lin_exact close tt gf_t z v : tt2z_lin close tt gf_t z = Ok v ->
  (forall i, (S i < List.length tt)%nat -> (nth (S i) tt 0 - nth i tt 0 = nth 1 tt 0 - nth 0 tt 0)%R) -> (nth 0 tt 0 <> nth 1 tt 0)%R ->
  forall f, interpolates f (fun i => nth i tt 0%R) (fun i => nth i gf_t (RtoC 0)) (List.length tt - 1) ->
  is_CInt (fun t => cexp (Ci * z * RtoC t) * f t) (nth 0 tt 0%R) (nth (List.length tt - 1) tt 0%R) v.
Proof.
  intros H Heq Hd f Hf. unfold tt2z_lin in H. destruct (Nat.ltb_spec (List.length tt) 2) as [|L]; [discriminate H|].
  destruct (equidistant close tt); [|discriminate H]. destruct (_ =? _)%nat; [|discriminate H]. set (d := (nth 1 tt 0 - nth 0 tt 0)%R) in *.
  destruct (Ceq_dec z (RtoC 0)) as [->|Nz].
  - injection H as <-. apply (is_CInt_ext f). { intros t _. rewrite Cmult_0_r, Cmult_0_l, cexp_0. ring. }
    refine (trapz_sum f (fun i => nth i tt 0%R) (fun i => nth i gf_t (RtoC 0)) (List.length tt - 1) _ Hf). intros k Hk E. assert (T := Heq k ltac:(lia)). cbv beta in E. unfold d in T. lra.
  - destruct (Ceq_dec (Ci * z * RtoC d) (RtoC 0)) as [|Nd]; [discriminate H|]. injection H as <-.
    eapply is_CInt_eq; [apply (filon_sum (Ci * z) f (fun i => nth i tt 0%R) (fun i => nth i gf_t (RtoC 0)) d)|].
    + unfold d. lra.
    + intros E. apply Nd. rewrite E. ring.
    + intros k Hk. assert (T := Heq k ltac:(lia)). lra.
    + exact Hf.
    + unfold weight2, weight1, tphase. replace (cexp (Ci * z * RtoC d) - 1 + 1) with (cexp (Ci * z * RtoC d)) by ring. reflexivity.
Qed.
