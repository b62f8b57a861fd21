(** * Properties of the Fourier transforms: C41, C42, C43, C44, C62 *)
From Coq Require Import List Arith ZArith Reals Lia Lra Bool String Field.
From Coquelicot Require Import Coquelicot.
From Verif Require Import Base FSum CBase CExp Herm_Proofs Stat_Model Linalg_Model Pole_Model Fourier_Model Fourier_Dft Fourier_Filon Fourier_Lin Fourier_Quad Fourier_Series.
Import ListNotations.
Local Open Scope C_scope.

(** C41 *)
Theorem C41_dft_roundtrip : forall (gf : list C) (beta : R), gf <> [] -> beta <> 0%R ->
  exists tau, iw2tau_dft gf beta = Ok tau /\ List.length tau = (2 * List.length gf + 1)%nat /\ tau2iw_dft tau beta = Ok gf.
Proof.
  intros gf beta Hg Hb. assert (E := iw2tau_dft_ok gf beta Hg Hb). eexists. split; [exact E|]. split; [now rewrite map_length, seq_length|]. exact (dft_roundtrip gf beta _ Hb E).
Qed.
Print Assumptions C41_dft_roundtrip.
Theorem C41_dft_empty : forall beta, beta <> 0%R -> iw2tau_dft [] beta = Err ValueError.
Proof. intros beta Hb. unfold iw2tau_dft. destruct (Req_EM_T beta 0); [contradiction|]. reflexivity. Qed.
Print Assumptions C41_dft_empty.
(** the other direction: an anti-periodic imaginary-time function on 2N+1 points is recovered; otherwise only the value at beta is replaced *)
Theorem C41_dft_roundtrip_tau : forall (g : list R) (beta : R) (N : nat), beta <> 0%R -> (0 < N)%nat -> List.length g = (2 * N + 1)%nat ->
  exists gf, tau2iw_dft g beta = Ok gf /\ List.length gf = N /\ iw2tau_dft gf beta = Ok (removelast g ++ [(- nth 0 g 0)%R]).
Proof. exact dft_roundtrip_tau. Qed.
Print Assumptions C41_dft_roundtrip_tau.
(** injectivity: no two Matsubara Green's functions of the same length share the imaginary-time data *)
Theorem C41_dft_injective : forall (g1 g2 : list C) beta tau, beta <> 0%R -> iw2tau_dft g1 beta = Ok tau -> iw2tau_dft g2 beta = Ok tau -> g1 = g2.
Proof.
  intros g1 g2 beta tau Hb H1 H2. apply (dft_roundtrip _ _ _ Hb) in H1. apply (dft_roundtrip _ _ _ Hb) in H2. congruence.
Qed.
Print Assumptions C41_dft_injective.
(** one frequency: iw2tau gives 2 Re(g e^{-i pi k/2}) = 2 (a, b, -a) for g = a + i b *)
Example C41_example : forall a b, iw2tau_dft [(a, b)] 1 = Ok [2 * a; 2 * b; - (2 * a)]%R.
Proof.
  intros a b. rewrite iw2tau_dft_ok; [|discriminate|lra]. cbn [List.length Nat.mul Nat.add seq map]. f_equal. unfold iw2tau_at. cbn [List.length nsum Fadd F0 RF nth].
  assert (Z : forall k : Z, zeta 4 k = (cos (PI / 2 * IZR k), sin (PI / 2 * IZR k))%R).
  { intros k. unfold zeta, cexp. cbn [INR]. apply C_ext; cbn [Ci Cmult RtoC fst snd]; replace (0 * (2 * PI * IZR k / (1 + 1 + 1 + 1)) - 1 * 0)%R with 0%R by ring; rewrite exp_0, Rmult_1_l; f_equal; field. }
  cbn [Nat.mul Nat.add] in *. rewrite !Z. cbn [Z.of_nat Z.opp Z.mul Pos.mul Pos.of_succ_nat Pos.succ fst snd Cmult].
  replace (PI / 2 * 0)%R with 0%R by ring. replace (PI / 2 * -1)%R with (- (PI / 2))%R by ring. replace (PI / 2 * -2)%R with (- PI)%R by field.
  rewrite cos_neg, sin_neg, (cos_neg PI), (sin_neg PI), cos_0, sin_0, cos_PI2, sin_PI2, cos_PI, sin_PI. f_equal; [field|]. f_equal; [field|]. f_equal. field.
Qed.

(** C42 *)
Theorem C42_tau2iv_ft_lin : forall gf_tau beta giv, beta <> 0%R -> tau2iv_ft_lin gf_tau beta = Ok giv ->
  List.length giv = ((List.length gf_tau - 1) / 2 + 1)%nat /\
  forall m f, (m < List.length giv)%nat ->
    (forall k, (k < List.length gf_tau - 1)%nat -> line_on f (linspace 0 beta (List.length gf_tau) k) (linspace 0 beta (List.length gf_tau) (S k)) (RtoC (nth k gf_tau 0%R)) (RtoC (nth (S k) gf_tau 0%R))) ->
    is_CInt (fun tau => cexp (matsubara_frequencies_b (Z.of_nat m) beta * RtoC tau) * f tau) 0 beta (nth m giv (RtoC 0)).
Proof. exact tau2iv_ft_lin_exact. Qed.
Print Assumptions C42_tau2iv_ft_lin.
Theorem C42_tau2iv_ft_lin_total : forall gf_tau beta, (2 <= List.length gf_tau)%nat -> exists giv, tau2iv_ft_lin gf_tau beta = Ok giv.
Proof.
  intros [|a [|b g]] beta H; [cbn in H; lia|cbn in H; lia|]. unfold tau2iv_ft_lin. rewrite ihfft_ok by discriminate. cbn [bind]. rewrite ihfft_ok by discriminate. cbn [bind]. eexists. reflexivity.
Qed.
Print Assumptions C42_tau2iv_ft_lin_total.
(** the interpolating function exists, so the previous statement is not vacuous *)
Theorem C42_interpolant : forall (t : nat -> R) (g : nat -> C) n, (forall k, (k < n)%nat -> (t k < t (S k))%R) ->
  (forall k, (k < n)%nat -> line_on (pl t g n) (t k) (t (S k)) (g k) (g (S k))) /\ forall i, (i <= n)%nat -> pl t g n (t i) = g i.
Proof. intros t g n H. split; [exact (pl_interpolates t g n H)|]. intros i Hi. now apply pl_node. Qed.
Print Assumptions C42_interpolant.
(** tau2iw_ft_lin: the exact integral is the result plus the error of the jump ... *)
Theorem C42_tau2iw_ft_lin_error : forall gf_tau beta giw, beta <> 0%R -> tau2iw_ft_lin gf_tau beta = Ok giw ->
  List.length giw = (List.length gf_tau / 2)%nat /\
  forall j f, (j < List.length giw)%nat ->
    interpolates f (linspace 0 beta (List.length gf_tau)) (fun k => RtoC (nth k gf_tau 0%R)) (List.length gf_tau - 1) ->
    let h := (beta / INR (List.length gf_tau - 1))%R in
    let iw := matsubara_frequencies (Z.of_nat j) beta in
    is_CInt (fun tau => cexp (iw * RtoC tau) * f tau) 0 beta
      (nth j giw (RtoC 0) + RtoC (/ 2 * h * (nth 0 gf_tau 0 + nth (List.length gf_tau - 1) gf_tau 0)) * (weight2 (iw * RtoC h) * cexp (iw * RtoC (beta - h)))).
Proof. exact tau2iw_ft_lin_exact. Qed.
Print Assumptions C42_tau2iw_ft_lin_error.
(** ... so the claim holds exactly for data with g(0) + g(beta) = 0 *)
Theorem C42_tau2iw_ft_lin_partial : forall gf_tau beta giw, beta <> 0%R -> tau2iw_ft_lin gf_tau beta = Ok giw ->
  forall j f, (j < List.length giw)%nat ->
    interpolates f (linspace 0 beta (List.length gf_tau)) (fun k => RtoC (nth k gf_tau 0%R)) (List.length gf_tau - 1) ->
    (is_CInt (fun tau => cexp (matsubara_frequencies (Z.of_nat j) beta * RtoC tau) * f tau) 0 beta (nth j giw (RtoC 0))
     <-> (nth 0 gf_tau 0 + nth (List.length gf_tau - 1) gf_tau 0 = 0)%R).
Proof. exact tau2iw_ft_lin_iff. Qed.
Print Assumptions C42_tau2iw_ft_lin_partial.
Theorem C42_tau2iw_ft_lin_refuted : exists gf_tau beta giw f, (0 < beta)%R /\ tau2iw_ft_lin gf_tau beta = Ok giw /\ (0 < List.length giw)%nat /\
  interpolates f (linspace 0 beta (List.length gf_tau)) (fun k => RtoC (nth k gf_tau 0%R)) (List.length gf_tau - 1) /\
  ~ is_CInt (fun tau => cexp (matsubara_frequencies 0 beta * RtoC tau) * f tau) 0 beta (nth 0 giw (RtoC 0)).
Proof.
  set (g := [1; 1]%R). destruct (tau2iw_ft_lin g 1) as [giw|] eqn:E.
  - exists g, 1%R, giw, (fun _ => RtoC 1). assert (Hb : 1%R <> 0%R) by lra. assert (L := proj1 (tau2iw_ft_lin_exact _ _ _ Hb E)).
    assert (L1 : (0 < List.length giw)%nat) by (rewrite L; cbn; lia).
    assert (I : interpolates (fun _ => RtoC 1) (linspace 0 1 (List.length g)) (fun k => RtoC (nth k g 0%R)) (List.length g - 1)).
    { intros k Hk t _. cbn in Hk. assert (k = 0)%nat by lia. subst k. cbn [nth g]. ring. }
    split; [lra|]. split; [exact E|]. split; [exact L1|]. split; [exact I|]. intros T.
    assert (Q := proj1 (tau2iw_ft_lin_iff g 1 giw Hb E 0%nat (fun _ => RtoC 1) L1 I) T). cbn in Q. lra.
  - unfold tau2iw_ft_lin in E. cbn [full_range removelast g app map] in E. rewrite ihfft_ok in E by discriminate. cbn [bind] in E. rewrite ihfft_ok in E by discriminate. discriminate E.
Qed.
Print Assumptions C42_tau2iw_ft_lin_refuted.
(** tt2z_lin on an equidistant grid, every frequency including zero; [close] is the back-end's comparison *)
Theorem C42_tt2z_lin : forall close tt gf_t z v, tt2z_lin close tt gf_t z = Ok v ->
  (forall i, (S i < List.length tt)%nat -> (nth (S i) tt 0 - nth i tt 0 = nth 1 tt 0 - nth 0 tt 0)%R) -> (nth 0 tt 0 <> nth 1 tt 0)%R ->
  forall f, (forall k, (k < List.length tt - 1)%nat -> line_on f (nth k tt 0%R) (nth (S k) tt 0%R) (nth k gf_t (RtoC 0)) (nth (S k) gf_t (RtoC 0))) ->
  is_CInt (fun t => cexp (Ci * z * RtoC t) * f t) (nth 0 tt 0%R) (nth (List.length tt - 1) tt 0%R) v.
Proof. exact tt2z_lin_exact. Qed.
Print Assumptions C42_tt2z_lin.
(** with an exact comparison it is defined on exactly the equidistant grids *)
Theorem C42_tt2z_lin_total : forall (close : R -> R -> bool) tt gf_t z, (forall x, close x x = true) -> (2 <= List.length tt)%nat -> List.length gf_t = List.length tt ->
  (forall i, (S i < List.length tt)%nat -> (nth (S i) tt 0 - nth i tt 0 = nth 1 tt 0 - nth 0 tt 0)%R) -> (nth 0 tt 0 <> nth 1 tt 0)%R ->
  exists v, tt2z_lin close tt gf_t z = Ok v.
Proof.
  intros close tt gf_t z Hc L2 Lg Heq Hne. unfold tt2z_lin. destruct (Nat.ltb_spec (List.length tt) 2); [lia|].
  assert (E : equidistant close tt = true).
  { unfold equidistant. apply forallb_forall. intros d Hd. unfold diff in Hd. apply in_map_iff in Hd. destruct Hd as (k & <- & Hk). apply in_seq in Hk. rewrite Heq by lia. apply Hc. }
  rewrite E, Lg, Nat.eqb_refl. destruct (Ceq_dec z (RtoC 0)); [eexists; reflexivity|]. destruct (Ceq_dec _ _) as [E0|]; [|eexists; reflexivity]. exfalso.
  revert E0. apply Cmult_neq_0; [apply Cmult_neq_0; [exact Ci_neq|assumption]|]. apply RtoC_neq. lra.
Qed.
Print Assumptions C42_tt2z_lin_total.
(** np.isclose accepts grids that are not equidistant, on which the result is not the integral *)
Theorem C42_tt2z_lin_refuted : exists tt gf_t z v f,
  tt2z_lin (fun a b => if Rle_dec (Rabs (a - b)) (/ 100000000 + / 100000 * Rabs b) then true else false) tt gf_t z = Ok v /\
  (forall i, (S i < List.length tt)%nat -> (nth i tt 0 < nth (S i) tt 0)%R) /\
  interpolates f (fun i => nth i tt 0%R) (fun i => nth i gf_t (RtoC 0)) (List.length tt - 1) /\
  ~ is_CInt (fun t => cexp (Ci * z * RtoC t) * f t) (nth 0 tt 0%R) (nth (List.length tt - 1) tt 0%R) v.
Proof. exact tt2z_lin_tolerance. Qed.
Print Assumptions C42_tt2z_lin_refuted.
Example C42_example : forall close, (forall x, close x x = true) -> exists v,
  tt2z_lin close [0; 1; 2]%R [RtoC 1; RtoC 2; RtoC 0] (0, 1)%R = Ok v.
Proof.
  intros close Hc. apply C42_tt2z_lin_total; auto; cbn; try lia; [|lra]. intros [|[|i]] Hi; cbn; try lra; lia.
Qed.

(** C43 *)
Theorem C43_tt2z_trapz : forall tt gf_t z v, tt2z_trapz tt gf_t z = Ok v ->
  v = nsum (K := CF) (List.length tt - 1) (fun i =>
        (cexp (Ci * z * RtoC (nth i tt 0%R)) * nth i gf_t (RtoC 0) + cexp (Ci * z * RtoC (nth (S i) tt 0%R)) * nth (S i) gf_t (RtoC 0)) / RtoC 2
        * RtoC (nth (S i) tt 0 - nth i tt 0)).
Proof. exact tt2z_trapz_rule. Qed.
Print Assumptions C43_tt2z_trapz.
Theorem C43_tt2z_trapz_total : forall tt gf_t z, (2 <= List.length tt)%nat -> List.length gf_t = List.length tt -> exists v, tt2z_trapz tt gf_t z = Ok v.
Proof. exact tt2z_trapz_total. Qed.
Print Assumptions C43_tt2z_trapz_total.
Theorem C43_tt2z_trapz_integral : forall tt gf_t z v f, tt2z_trapz tt gf_t z = Ok v -> (forall i, (S i < List.length tt)%nat -> nth i tt 0%R <> nth (S i) tt 0%R) ->
  interpolates f (fun i => nth i tt 0%R) (fun i => cexp (Ci * z * RtoC (nth i tt 0%R)) * nth i gf_t (RtoC 0)) (List.length tt - 1) ->
  is_CInt f (nth 0 tt 0%R) (nth (List.length tt - 1) tt 0%R) v.
Proof. exact tt2z_trapz_integral. Qed.
Print Assumptions C43_tt2z_trapz_integral.
Theorem C43_simps_cubic : forall c0 c1 c2 c3 a d m w, (1 <= m)%nat ->
  simps_weight (K := RF) d (map (fun i => (c0 + c1 * (a + INR i * d) + c2 * ((a + INR i * d) * (a + INR i * d)) + c3 * ((a + INR i * d) * (a + INR i * d) * (a + INR i * d)))%R) (seq 0 (2 * m + 1))) true = Ok w ->
  is_RInt (V := R_NormedModule) (fun t => c0 + c1 * t + c2 * (t * t) + c3 * (t * t * t))%R a (a + INR (2 * m) * d)%R (lsum (K := RF) w).
Proof. exact simps_odd_cubic_exact. Qed.
Print Assumptions C43_simps_cubic.
Theorem C43_simps_linear : forall c0 c1 a d m w, (1 <= m)%nat ->
  simps_weight (K := RF) d (map (fun i => (c0 + c1 * (a + INR i * d))%R) (seq 0 (2 * m + 2))) true = Ok w ->
  is_RInt (V := R_NormedModule) (fun t => c0 + c1 * t)%R a (a + INR (2 * m + 1) * d)%R (lsum (K := RF) w).
Proof. exact simps_even_linear_exact. Qed.
Print Assumptions C43_simps_linear.
Theorem C43_simps_sum : forall (d : R) (g w : list R) m, (1 <= m)%nat -> List.length g = (2 * m + 1)%nat -> simps_weight (K := RF) d g true = Ok w ->
  lsum (K := RF) w = nsum (K := RF) m (fun j => d / 3 * (nth (2 * j) g 0 + 4 * nth (2 * j + 1) g 0 + nth (2 * j + 2) g 0))%R.
Proof.
  intros d g w m Hm Lg H. assert (T := simps_weight_odd (K := RF) three_R_neq d g w m Hm Lg H). rewrite T. unfold simps_rule. apply (nsum_ext RF). intros j Hj.
  unfold two. cbn [Fadd Fmul Fdiv F1 F0 RF]. replace (1 + 1 + 1)%R with 3%R by ring. replace ((1 + 1) * (1 + 1))%R with 4%R by ring. reflexivity.
Qed.
Print Assumptions C43_simps_sum.
Theorem C43_trapz_linear : forall c0 c1 a d n w,
  trapz_weight (K := RF) d (map (fun i => (c0 + c1 * (a + INR i * d))%R) (seq 0 (S (S n)))) true = Ok w ->
  is_RInt (V := R_NormedModule) (fun t => c0 + c1 * t)%R a (a + INR (S n) * d)%R (lsum (K := RF) w).
Proof. exact trapz_end_linear_exact. Qed.
Print Assumptions C43_trapz_linear.
(** tt2z_simps is the open Simpson rule: the data are continued by zero *)
Theorem C43_tt2z_simps : forall tt gf_t z v, tt2z_simps tt gf_t z = Ok v ->
  let F i := if (i <? List.length tt)%nat then cexp (Ci * z * RtoC (nth i tt 0%R)) * nth i gf_t (RtoC 0) else RtoC 0 in
  v = nsum (K := CF) ((List.length tt + 1) / 2) (fun j => RtoC (nth 1 tt 0 - nth 0 tt 0) / RtoC 3 * (F (2 * j)%nat + RtoC 4 * F (2 * j + 1)%nat + F (2 * j + 2)%nat)).
Proof.
  intros tt gf_t z v H F. rewrite (tt2z_simps_rule tt gf_t z v H). unfold simps_rule. apply (nsum_ext CF). intros j Hj.
  assert (E3 : Fadd (two (K := CF)) F1 = RtoC 3) by (rewrite two_C; cbn [Fadd F1 CF]; rewrite <- RtoC_plus; f_equal; lra). assert (E4 : Fmul (two (K := CF)) two = RtoC 4) by (rewrite two_C; cbn [Fmul CF]; rewrite <- RtoC_mult; f_equal; lra).
  rewrite E3, E4. reflexivity.
Qed.
Print Assumptions C43_tt2z_simps.
(** two points with endpoint: the weights are 5/6 and 1/2, so not even constants are integrated *)
Theorem C43_simps_two_points_refuted : exists d g w, (0 < d)%R /\ List.length g = 2%nat /\ (forall x, In x g -> x = 1%R) /\ simps_weight (K := RF) d g true = Ok w /\
  ~ is_RInt (V := R_NormedModule) (fun _ => 1%R) 0 d (lsum (K := RF) w).
Proof.
  exists 1%R, [1; 1]%R. eexists. split; [lra|]. split; [reflexivity|]. split; [intros x [<-|[<-|[]]]; reflexivity|]. split; [reflexivity|]. intros T.
  assert (T2 := is_RInt_const (V := R_NormedModule) 0 1 1%R). apply (is_RInt_unique (V := R_CompleteNormedModule)) in T. apply (is_RInt_unique (V := R_CompleteNormedModule)) in T2. rewrite T2 in T. cbn in T. unfold scal in T. cbn in T. unfold mult in T. cbn in T.
  unfold two in T. cbn in T. lra.
Qed.
Print Assumptions C43_simps_two_points_refuted.
Example C43_example : simps_weight (K := RF) 1%R [0; 1; 8]%R true = Ok [0; 4 / 3; 8 / 3]%R.
Proof. unfold simps_weight. cbn -[Rdiv Rmult Rplus]. unfold two. cbn -[Rdiv Rmult Rplus]. f_equal. f_equal; [field|]. f_equal; [field|]. f_equal. field. Qed.

(** C44 *)
Theorem C44_tt2z_guard : forall (laplace : list R -> list C -> list C -> result (list (ext CF))) tt gf_t z,
  let retarded := (forall t, In t tt -> (0 <= t)%R) /\ (forall w, In w z -> (0 <= snd w)%R) in
  let advanced := (forall t, In t tt -> (t <= 0)%R) /\ (forall w, In w z -> (snd w <= 0)%R) in
  (~ (retarded \/ advanced) -> tt2z laplace tt gf_t z = Err ValueError) /\
  (retarded \/ advanced -> z <> [] -> gf_t <> [] -> tt2z laplace tt gf_t z = laplace tt gf_t z) /\
  (retarded \/ advanced -> z = [] \/ gf_t = [] -> exists r, tt2z laplace tt gf_t z = Ok r /\ List.length r = List.length z /\ forall x, In x r -> x = None).
Proof. exact tt2z_guard. Qed.
Print Assumptions C44_tt2z_guard.
Example C44_example : tt2z (fun _ _ z => Ok (map (fun _ => Some (RtoC 1)) z)) [0; 1]%R [RtoC 1; RtoC 1] [(0, -1)%R] = Err ValueError /\
  tt2z (fun _ _ z => Ok (map (fun _ => Some (RtoC 1)) z)) [0; 1]%R [RtoC 1; RtoC 1] [(0, 1)%R] = Ok [Some (RtoC 1)].
Proof.
  split.
  - apply (proj1 (C44_tt2z_guard _ _ _ _)). intros [[_ H]|[H _]]; [specialize (H _ (or_introl eq_refl)); cbn in H; lra|specialize (H 1%R (or_intror (or_introl eq_refl))); lra].
  - rewrite (proj1 (proj2 (C44_tt2z_guard _ _ _ _))); [reflexivity| |discriminate|discriminate]. left. split; [intros t [<-|[<-|[]]]; lra|intros w [<-|[]]; cbn; lra].
Qed.

(** C62 *)
Theorem C62_iw2tau_series : forall gf beta tau, beta <> 0%R -> iw2tau_dft gf beta = Ok tau ->
  List.length tau = (2 * List.length gf + 1)%nat /\
  forall k, (k < List.length tau)%nat ->
    nth k tau 0%R = (2 / beta * nsum (K := RF) (List.length gf) (fun j =>
      fst (nth j gf (RtoC 0) * cexp (- (matsubara_frequencies (Z.of_nat j) beta * RtoC (linspace 0 beta (List.length tau) k))))%C))%R.
Proof. exact iw2tau_dft_series. Qed.
Print Assumptions C62_iw2tau_series.
Theorem C62_iw2tau_soft_series : forall gf beta tau, beta <> 0%R -> iw2tau_dft_soft gf beta = Ok tau ->
  let N := List.length gf in
  List.length tau = (2 * N + 1)%nat /\
  forall k, (k < List.length tau)%nat ->
    nth k tau 0%R = (2 / beta * nsum (K := RF) (2 * N) (fun j =>
      fst ((if (j <? N)%nat then nth j gf (RtoC 0) else RtoC ((1 + cos (PI * INR (j - N + 1) / INR N)) / 2) * nth (N - 1) gf (RtoC 0))
           * cexp (- (matsubara_frequencies (Z.of_nat j) beta * RtoC (linspace 0 beta (2 * N + 1) k))))%C))%R.
Proof. exact iw2tau_dft_soft_series. Qed.
Print Assumptions C62_iw2tau_soft_series.
Theorem C62_tau2iw_riemann : forall g beta giw, beta <> 0%R -> tau2iw_dft g beta = Ok giw ->
  List.length giw = (List.length g / 2)%nat /\
  forall j, (j < List.length giw)%nat ->
    nth j giw (RtoC 0) = RtoC (beta / INR (List.length g - 1)) * nsum (K := CF) (List.length g - 1) (fun k =>
      RtoC (nth k g 0%R) * cexp (matsubara_frequencies (Z.of_nat j) beta * RtoC (linspace 0 beta (List.length g) k))).
Proof. exact tau2iw_dft_riemann. Qed.
Print Assumptions C62_tau2iw_riemann.
Theorem C62_tau2iw_ignores_beta : forall g x y beta, tau2iw_dft (g ++ [x]) beta = tau2iw_dft (g ++ [y]) beta.
Proof. exact tau2iw_dft_last. Qed.
Print Assumptions C62_tau2iw_ignores_beta.
Theorem C62_tau2iv_riemann : forall g beta giv, beta <> 0%R -> tau2iv_dft g beta = Ok giv ->
  List.length giv = ((List.length g - 1) / 2 + 1)%nat /\
  nth 0 giv (RtoC 0) = RtoC (nsum (K := RF) (List.length g - 1) (fun k => beta / INR (List.length g - 1) * (nth (S k) g 0 + nth k g 0) / 2)%R) /\
  forall m, (0 < m < List.length giv)%nat ->
    nth m giv (RtoC 0) = RtoC (beta / INR (List.length g - 1)) * nsum (K := CF) (List.length g - 1) (fun k =>
      RtoC (nth k g 0%R) * cexp (matsubara_frequencies_b (Z.of_nat m) beta * RtoC (linspace 0 beta (List.length g) k))).
Proof. exact tau2iv_dft_riemann. Qed.
Print Assumptions C62_tau2iv_riemann.
Example C62_example : forall giv, tau2iv_dft [1; 2; 3]%R 2 = Ok giv -> nth 0 giv (RtoC 0) = RtoC 4.
Proof.
  intros giv H. destruct (C62_tau2iv_riemann _ _ _ (Rgt_not_eq 2 0 ltac:(lra)) H) as (_ & E & _). rewrite E. f_equal. cbn. field.
Qed.
