(** * The multi-precision densities of states agree with the vectorised ones *)
From Coq Require Import Reals List Bool Lia Lra.
From Coquelicot Require Import Coquelicot.
From Verif Require Import Base CBase CExp CSqrt Lattice_Model Bethe_Proofs LatDer_Spec LatDer_Model LatDer_Dos LatEll_Model LatEll_Proofs LatSym_Proofs LatMp_Model.
Local Open Scope C_scope.
Ltac rpos := repeat first [assumption | apply Rmult_lt_0_compat].

Lemma mdiv_ok x y : y <> 0%R -> mdiv x y = Ok (x / y)%R.
Proof. intros H. unfold mdiv. destruct (Req_EM_T y 0); [contradiction|reflexivity]. Qed.
Lemma mcdiv_ok (x y : C) : y <> 0 -> mcdiv x y = Ok (x / y).
Proof. intros H. unfold mcdiv. destruct (Ceq_dec y 0); [contradiction|reflexivity]. Qed.
Lemma rel_le eps D : (0 < D)%R -> (Rabs (eps / D) <= 1)%R <-> ~ (D < Rabs eps)%R.
Proof.
  intros H. unfold Rdiv. rewrite Rabs_mult, (Rabs_pos_eq (/ D)) by (left; apply Rinv_0_lt_compat, H). assert (I := Rinv_0_lt_compat D H). split; intros A.
  - intros B. assert (P := Rmult_lt_compat_r (/ D) _ _ I B). rewrite Rinv_r in P by lra. lra.
  - assert (B : (Rabs eps <= D)%R) by lra. assert (P := Rmult_le_compat_r (/ D) _ _ (Rlt_le _ _ I) B). rewrite Rinv_r in P by lra. lra.
Qed.
Definition agrees {A : Type} (a b : result A) : Prop := forall v, a = Ok v <-> b = Ok v.
Lemma agrees_refl {A} (a : result A) : agrees a a. Proof. intros v. reflexivity. Qed.
Lemma agrees_eq {A} (a b : result A) : a = b -> agrees a b. Proof. intros -> v. reflexivity. Qed.
Lemma agrees_err {A} e e' : agrees (Err e : result A) (Err e'). Proof. intros v. split; discriminate. Qed.
Lemma agrees_bind {A B} (a b : result A) (f g : A -> result B) : agrees a b -> (forall x, agrees (f x) (g x)) -> agrees (bind a f) (bind b g).
Proof.
  intros H K v. destruct a as [x|e]; cbn [bind].
  - rewrite (proj1 (H x) eq_refl). cbn [bind]. apply K.
  - destruct b as [y|e']; cbn [bind]; [|split; discriminate]. discriminate (proj2 (H y) eq_refl).
Qed.
Lemma agrees_sym {A} (a b : result A) : agrees a b -> agrees b a. Proof. intros H v. symmetry. apply H. Qed.
Lemma agrees_trans {A} (a b c : result A) : agrees a b -> agrees b c -> agrees a c. Proof. intros H K v. rewrite (H v). apply K. Qed.

Lemma bethe_mp eps D : (0 < D)%R -> bethe_dos_mp eps D = bethe_dos eps D.
Proof.
  intros H. assert (P := PI_RGT_0). assert (R := rel_le eps D H). unfold bethe_dos_mp, bethe_dos. rewrite rdiv_ok' by lra. cbn [bind]. rewrite !mdiv_ok by (try lra; apply Rgt_not_eq, Rmult_lt_0_compat; assumption). cbn [bind].
  destruct (Rlt_dec D (Rabs eps)) as [L|L], (Rlt_dec (Rabs (eps / D)) 1) as [A|A]; try reflexivity.
  - exfalso. apply (proj1 R); [lra|exact L].
  - f_equal. f_equal. f_equal. ring.
  - assert (E : (Rabs (eps / D) = 1)%R) by (assert (T := proj2 R L); lra).
    assert (E2 : (eps / D * (eps / D) = 1)%R). { rewrite <- (Rmult_1_l 1). rewrite <- E at 1 2. unfold Rabs. destruct (Rcase_abs _); ring. }
    rewrite E2. replace (- (1 - 1))%R with 0%R by ring. rewrite sqrt_0, Rmult_0_r. reflexivity.
Qed.
Lemma onedim_mp eps D : (0 < D)%R -> agrees (onedim_dos_mp eps D) (onedim_dos eps D).
Proof.
  intros H. assert (P := PI_RGT_0). assert (PD := Rmult_lt_0_compat _ _ P H). assert (R := rel_le eps D H). unfold onedim_dos_mp, onedim_dos. rewrite rdiv_ok' by lra. cbn [bind]. rewrite mdiv_ok by lra. cbn [bind].
  destruct (Rlt_dec D (Rabs eps)) as [L|L], (Rle_dec (Rabs (eps / D)) 1) as [A|A]; try (exfalso; tauto); [apply agrees_refl|].
  rewrite rdiv_ok' by lra. cbn [bind]. replace (- (eps / D * (eps / D) - 1))%R with (1 - eps / D * (eps / D))%R by ring. set (s := sqrt _).
  unfold mdiv, rdiv. destruct (Req_EM_T s 0) as [E|N], (Req_EM_T (PI * D * s) 0) as [E'|N'].
  - apply agrees_err.
  - exfalso. apply N'. rewrite E. ring.
  - exfalso. apply Rmult_integral in E'. destruct E'; lra.
  - apply agrees_eq. f_equal. field. repeat split; lra.
Qed.
Section R1.
  Variables (ellipkm1 ellipkr : R -> result R).
  Hypothesis same : forall p, (0 <= p <= 1)%R -> ellipkm1 p = ellipkr (1 - p)%R.
  Lemma square_mp eps D : (0 < D)%R -> square_dos_mp ellipkr eps D = square_dos ellipkm1 eps D.
  Proof.
    intros H. assert (P := PI_RGT_0). assert (PD := Rmult_lt_0_compat _ _ (Rmult_lt_0_compat _ _ P P) H). assert (R := rel_le eps D H). unfold square_dos_mp, square_dos. rewrite rdiv_ok' by lra. cbn [bind]. rewrite !mdiv_ok by lra. cbn [bind].
    destruct (Rlt_dec D (Rabs eps)) as [L|L], (Rle_dec (Rabs (eps / D)) 1) as [A|A]; try (exfalso; tauto); [reflexivity|].
    set (e := (eps / D)%R) in *. assert (E2 : (0 <= e * e <= 1)%R). { assert (T := Rabs_pos e). replace (e * e)%R with (Rabs e * Rabs e)%R by (unfold Rabs; destruct (Rcase_abs e); ring). nra. }
    rewrite (same (e * e)%R E2), rdiv_ok' by lra. cbn [bind]. replace (- (e * e - 1))%R with (1 - e * e)%R by ring.
    destruct (ellipkr (1 - e * e)) as [k|]; cbn [bind]; [|reflexivity]. f_equal. field. split; lra.
  Qed.
  Lemma r_range e : (- (3 / 2) <= e <= 3)%R -> let r := sqrt (2 * e + 3) in (0 <= r <= 3)%R /\ (r * r = 2 * e + 3)%R.
  Proof.
    intros H. cbv zeta. split; [split; [apply sqrt_pos|]|apply sqrt_sqrt; lra]. replace 3%R with (sqrt (3 * 3)) at 2 by (apply sqrt_square; lra). apply sqrt_le_1_alt. lra.
  Qed.
  Lemma sqrt_quarter a : (0 <= a)%R -> sqrt (a / 4) = (sqrt a / 2)%R.
  Proof. intros H. replace (a / 4)%R with (a * (1 / 2 * (1 / 2)))%R by field. rewrite sqrt_mult by lra. rewrite sqrt_square by lra. field. Qed.
  Lemma sqrt_4 a : (0 <= a)%R -> sqrt (4 * a) = (2 * sqrt a)%R.
  Proof. intros H. replace 4%R with (2 * 2)%R by ring. rewrite sqrt_mult by lra. rewrite sqrt_square by lra. reflexivity. Qed.
  Lemma triangular_mp c eps D : (0 < D)%R ->
    triangular_dos_mp ellipkr c eps D = do d <- triangular_dos ellipkm1 eps D; Ok (c * (PI * PI) / 2 * d)%R.
  Proof.
    intros H. assert (P := PI_RGT_0). unfold triangular_dos_mp, triangular_dos. cbv zeta. replace (D * (4 / 9))%R with (D * 4 / 9)%R by field. set (d := (D * 4 / 9)%R). assert (Hd : (0 < d)%R) by (unfold d; lra).
    rewrite mdiv_ok, rdiv_ok' by lra. cbn [bind]. replace (1 / d * eps)%R with (eps / d)%R by (field; lra). set (e := (eps / d)%R).
    assert (PP := Rmult_lt_0_compat _ _ P P).
    assert (Z : (do pre <- rdiv (2 / (PI * PI)) d; Ok (pre * 0)%R) = Ok 0%R) by (rewrite rdiv_ok' by lra; cbn [bind]; rewrite Rmult_0_r; reflexivity).
    destruct (Rlt_dec e (- (3 / 2))) as [L1|L1]; [cbn [bind]; rewrite Z; cbn [bind]; rewrite Rmult_0_r; reflexivity|].
    destruct (Rlt_dec 3 e) as [L2|L2]; [cbn [bind]; rewrite Z; cbn [bind]; rewrite Rmult_0_r; reflexivity|].
    destruct (r_range e ltac:(lra)) as [[r0 r3] rr]. set (r := sqrt (2 * e + 3)) in *. clearbody r.
    rewrite (rdiv_ok' (2 / (PI * PI)) d) by lra. rewrite (mdiv_ok c d) by lra.
    assert (cub : forall x, (0 < x)%R -> (0 < x * x * x)%R) by (intros x Hx; repeat apply Rmult_lt_0_compat; exact Hx).
    destruct (Rle_dec e (- (1))) as [A|A], (Rlt_dec e (- (1))) as [B|B]; try (exfalso; lra).
    - (* r < 1 *)
      assert (r1 : (r < 1)%R) by nra. assert (dp : (0 < (r + 1) * (r + 1) * (r + 1) * (3 - r))%R) by (apply Rmult_lt_0_compat; [apply cub; lra|lra]). set (den := ((r + 1) * (r + 1) * (r + 1) * (3 - r))%R) in *.
      rewrite sqrt_quarter by lra. assert (sp := sqrt_lt_R0 den dp). rewrite !mdiv_ok, !rdiv_ok' by lra. cbn [bind].
      assert (R01 : (0 <= - ((r - 1) * (r - 1) * (r - 1) * (3 + r)) / den <= 1)%R).
      { assert (c1 := cub (1 - r)%R ltac:(lra)). assert (c2 := Rmult_lt_0_compat _ (3 + r)%R c1 ltac:(lra)). split.
        - apply Rle_div_r; [exact dp|]. rewrite Rmult_0_l. nra.
        - apply Rle_div_l; [exact dp|]. rewrite Rmult_1_l. unfold den. nra. }
      rewrite same by exact R01. replace (4 * r / (den / 4))%R with (1 - - ((r - 1) * (r - 1) * (r - 1) * (3 + r)) / den)%R.
      2:{ replace (4 * r / (den / 4))%R with (16 * r / den)%R by (field; lra). apply (Rmult_eq_reg_r den); [|lra]. replace (16 * r / den * den)%R with (16 * r)%R by (field; lra). unfold Rdiv. rewrite Rmult_minus_distr_r, Rmult_assoc, Rinv_l by lra. unfold den. ring. }
      destruct (ellipkr _) as [k|]; cbn [bind]; [|reflexivity]. f_equal. field. repeat split; lra.
    - (* r = 1 *)
      assert (r1 : (r = 1)%R). { assert (X : e = (- (1))%R) by lra. rewrite X in rr. nra. } subst r.
      replace ((1 + 1) * (1 + 1) * (1 + 1) * (3 - 1) / 4)%R with (4 * 1)%R by field. rewrite sqrt_4, sqrt_1 by lra. rewrite !mdiv_ok, !rdiv_ok' by lra. cbn [bind].
      replace (1 / 16 * ((1 - 1) * (1 - 1) * (1 - 1) * (3 + 1)) / 1)%R with 0%R by field. rewrite same by lra. replace (4 * 1 / (4 * 1))%R with (1 - 0)%R by field.
      destruct (ellipkr _) as [k|]; cbn [bind]; [|reflexivity]. f_equal. field. repeat split; lra.
    - (* 1 < r *)
      assert (r1 : (1 < r)%R) by nra. rewrite sqrt_4 by lra. assert (sp := sqrt_lt_R0 r ltac:(lra)). rewrite !mdiv_ok, !rdiv_ok' by lra. cbn [bind].
      assert (R01 : (0 <= 1 / 16 * ((r - 1) * (r - 1) * (r - 1) * (3 + r)) / r <= 1)%R).
      { assert (c1 := cub (r - 1)%R ltac:(lra)). assert (c2 := Rmult_lt_0_compat _ (3 + r)%R c1 ltac:(lra)). split.
        - apply Rle_div_r; [lra|]. nra.
        - apply Rle_div_l; [lra|]. assert (c3 := cub (r + 1)%R ltac:(lra)). assert (c4 := Rmult_le_pos _ (3 - r)%R (Rlt_le _ _ c3) ltac:(lra)). nra. }
      rewrite same by exact R01. replace ((r + 1) * (r + 1) * (r + 1) * (3 - r) / 4 / (4 * r))%R with (1 - 1 / 16 * ((r - 1) * (r - 1) * (r - 1) * (3 + r)) / r)%R by (field; lra).
      destruct (ellipkr _) as [k|]; cbn [bind]; [|reflexivity]. f_equal. field. repeat split; lra.
  Qed.
End R1.
Lemma lieb_mp (sq sqmp : R -> R -> result R) eps D : (0 < D)%R -> (forall x D, (0 < D)%R -> sqmp x D = sq x D) -> rscales sq -> lieb_dos_mp sqmp eps D = lieb_dos sq eps D.
Proof.
  intros H S C. unfold lieb_dos_mp, lieb_dos. cbv zeta. rewrite mdiv_ok, !rdiv_ok' by lra. cbn [bind].
  assert (s2 := sqrt_sqrt 2 ltac:(lra)). assert (s0 := sqrt_lt_R0 2 ltac:(lra)). rewrite S by lra.
  replace (eps * (2 * sqrt 2 / D) * (eps * (2 * sqrt 2 / D)) - 4)%R with (4 * (2 * (eps / D * (eps / D)) - 1))%R.
  2:{ replace (eps * (2 * sqrt 2 / D) * (eps * (2 * sqrt 2 / D)))%R with (4 * (sqrt 2 * sqrt 2) * (eps / D * (eps / D)))%R by (field; lra). rewrite s2. ring. }
  replace 4%R with (4 * 1)%R at 2 by ring. rewrite (C 4%R _ 1%R ltac:(lra)). destruct (sq _ 1%R) as [v|]; cbn [bind]; [|reflexivity]. f_equal.
  replace (eps * (2 * sqrt 2 / D))%R with (eps / D * (2 * sqrt 2))%R by (field; lra). rewrite Rabs_mult, (Rabs_pos_eq (2 * sqrt 2)) by lra.
  replace (2 / 3 * (2 * sqrt 2 / D) * (Rabs (eps / D) * (2 * sqrt 2)) * (v / 4))%R with (2 / 3 * (sqrt 2 * sqrt 2) / D * Rabs (eps / D) * v)%R by (field; lra). rewrite s2. field. lra.
Qed.
Lemma honeycomb_mp (tri trimp : R -> R -> result R) f eps D : (0 < D)%R -> (forall x D, (0 < D)%R -> trimp x D = do d <- tri x D; Ok (f * d)%R) ->
  honeycomb_dos_mp trimp eps D = do d <- honeycomb_dos tri eps D; Ok (f * d)%R.
Proof.
  intros H S. unfold honeycomb_dos_mp, honeycomb_dos. cbv zeta. rewrite mdiv_ok, !rdiv_ok' by lra. cbn [bind]. rewrite S by lra.
  replace (eps * (3 / 2 / D))%R with (eps / (D / (3 / 2)))%R by (field; lra). destruct (tri _ _) as [v|]; cbn [bind]; [|reflexivity]. f_equal. field. lra.
Qed.
Lemma kagome_mp (tri trimp : R -> R -> result R) f eps D : (0 < D)%R -> (forall x D, (0 < D)%R -> trimp x D = do d <- tri x D; Ok (f * d)%R) ->
  kagome_dos_mp trimp eps D = do d <- kagome_dos tri eps D; Ok (f * d)%R.
Proof.
  intros H S. unfold kagome_dos_mp, kagome_dos. cbv zeta. rewrite (honeycomb_mp tri trimp f) by (try lra; exact S). destruct (honeycomb_dos tri _ _) as [v|]; cbn [bind]; [|reflexivity]. f_equal. ring.
Qed.
Section C1.
  Variable ellipk : C -> result C.
  Lemma bcc_mp eps D : (0 < D)%R -> bcc_dos_mp ellipk eps D = bcc_dos ellipk eps D.
  Proof.
    intros H. assert (P := PI_RGT_0). assert (R := rel_le eps D H). unfold bcc_dos_mp, bcc_dos. rewrite rdiv_ok' by lra. cbn [bind].
    destruct (Req_EM_T (eps / D) 0) as [E|N], (Req_EM_T eps 0) as [E'|N'].
    - destruct (Rlt_dec D (Rabs eps)) as [L|L]; [|reflexivity]. rewrite E', Rabs_R0 in L. lra.
    - exfalso. apply N'. replace eps with (eps / D * D)%R by (field; lra). rewrite E. ring.
    - exfalso. apply N. rewrite E'. field. lra.
    - destruct (Rlt_dec D (Rabs eps)) as [L|L], (Rle_dec (Rabs (eps / D)) 1) as [A|A]; try (exfalso; tauto); [reflexivity|].
      rewrite mdiv_ok by lra. cbn [bind]. rewrite mdiv_ok by (apply Rmult_integral_contrapositive; split; exact N). cbn [bind].
      destruct (ellipk _) as [k|]; cbn [bind]; [|reflexivity]. assert (B := Rabs_pos_lt eps N'). rewrite mdiv_ok, rdiv_ok'; [reflexivity| |]; apply Rgt_not_eq; rpos.
  Qed.
  Lemma signed_mp x : fcc_signed_sqrt (RtoC x) = signed_mp_sqrt x.
  Proof.
    unfold fcc_signed_sqrt, signed_mp_sqrt, cneg. cbn [fst RtoC]. destruct (Rlt_dec x 0), (Rle_dec 0 x); try (exfalso; lra).
    - rewrite <- RtoC_opp, csqrt_R by lra. reflexivity.
    - apply csqrt_R. lra.
  Qed.
  Lemma signed_sqr x : signed_mp_sqrt x * signed_mp_sqrt x = RtoC x.
  Proof.
    unfold signed_mp_sqrt. destruct (Rle_dec 0 x).
    - rewrite <- RtoC_mult, sqrt_sqrt by lra. reflexivity.
    - replace (- Ci * RtoC (sqrt (- x)) * (- Ci * RtoC (sqrt (- x)))) with (- (RtoC (sqrt (- x)) * RtoC (sqrt (- x)))) by (apply C_ext; cbn; ring).
      rewrite <- RtoC_mult, sqrt_sqrt, <- RtoC_opp by lra. f_equal. ring.
  Qed.
  Lemma signed_neq0 x : x <> 0%R -> signed_mp_sqrt x <> 0.
  Proof. intros H E. apply (RtoC_neq0 x H). rewrite <- signed_sqr, E. ring. Qed.
  Lemma cube_neq0 (r : C) : r <> 0 -> r * r * r <> 0.
  Proof. intros H. repeat apply Cmult_neq_0; exact H. Qed.
  Lemma snd_scal (a : R) (z : C) : snd (RtoC a * z) = (a * snd z)%R. Proof. cbn. ring. Qed.
  (** inside the band and whatever the elliptic integral is *)
  Lemma fcc_mp_in eps D : (0 < D)%R -> (- (1 / 2) * D <= eps < 3 / 2 * D)%R -> agrees (fcc_dos_mp ellipk eps D) (fcc_dos ellipk eps D).
  Proof.
    intros H B. assert (P := PI_RGT_0). unfold fcc_dos_mp, fcc_dos, fcc_gf_z. cbv zeta. replace (D * (1 / 2))%R with (D / 2)%R by field. set (d := (D / 2)%R). assert (Hd : (0 < d)%R) by (unfold d; lra). assert (I := Rinv_0_lt_compat d Hd).
    rewrite mdiv_ok, rdiv_ok' by lra. cbn [bind]. replace (RtoC (1 / d) * RtoC eps) with (RtoC (eps / d)) by (rewrite <- RtoC_mult; f_equal; field; lra). set (e := (eps / d)%R).
    assert (Ee : eps = (e * d)%R) by (unfold e; field; lra). assert (Be : (- (1) <= e < 3)%R).
    { unfold e, Rdiv. split; [apply (Rmult_le_reg_r d)|apply (Rmult_lt_reg_r d)]; try exact Hd; rewrite Rmult_assoc, Rinv_l by lra; unfold d; lra. }
    unfold cneg at 1. destruct (Rlt_dec (3 - e) 0) as [L|_]; [lra|]. cbn [andb].
    destruct (Req_EM_T e (- (1))) as [E1|N1].
    { destruct (Req_EM_T eps (- (1 / 2) * D)) as [_|N]; [apply agrees_err|exfalso; apply N; rewrite Ee, E1; unfold d; field]. }
    destruct (Req_EM_T eps (- (1 / 2) * D)) as [E|_]; [exfalso; apply N1; unfold e; rewrite E; unfold d; field; lra|].
    assert (G1 : cneg (- (1 / 2) * D - eps) = true). { unfold cneg. destruct (Rlt_dec _ 0) as [|L]; [reflexivity|]. exfalso. apply N1. apply (Rmult_eq_reg_r d); [|lra]. rewrite <- Ee. unfold d. lra. }
    assert (G2 : cneg (eps - 3 / 2 * D) = true). { unfold cneg. destruct (Rlt_dec _ 0) as [|L]; [reflexivity|lra]. }
    rewrite G1, G2. cbn [andb snd RtoC]. destruct (Rlt_dec 0 0) as [L|_]; [lra|].
    unfold fcc_core. cbv zeta. replace (RtoC e + 1) with (RtoC (e + 1)) by (rewrite RtoC_plus; reflexivity). replace (RtoC e - 1) with (RtoC (e - 1)) by (rewrite RtoC_minus; reflexivity). replace (RtoC e - 3) with (RtoC (e - 3)) by (rewrite RtoC_minus; reflexivity).
    rewrite !signed_mp. assert (C3 := cube_neq0 _ (signed_neq0 (e + 1) ltac:(lra))). rewrite mcdiv_ok, (cdiv_ok _ _ C3) by exact C3. cbn [bind].
    set (q := 1 / _). set (mp := RtoC (1 / 2) * (1 + _ - _)). set (mm := RtoC (1 / 2) * (1 - _ - _)). clearbody mp mm. clear q.
    destruct (ellipk mp) as [k1|]; cbn [bind]; [|apply agrees_err].
    destruct (if cneg (snd mp) then _ else _) as [kii|]; cbn [bind]; [|apply agrees_err].
    assert (Ne : (0 < e + 1)%R) by lra. assert (D1 : (0 < PI * PI * d)%R) by (rpos). assert (D2 := Rmult_lt_0_compat _ _ D1 Ne).
    rewrite mdiv_ok. 2:{ apply Rgt_not_eq. rpos. }
    rewrite <- RtoC_mult. rewrite cdiv_ok by (apply RtoC_neq0; lra). cbn [bind].
    destruct (ellipk mm) as [k2|]; cbn [bind]; [|apply agrees_err]. apply agrees_eq. f_equal. f_equal.
    replace (4 / RtoC (PI * PI * d * (e + 1)) * k2 * kii) with (RtoC (4 / (PI * PI * d * (e + 1))) * (k2 * kii)) by (rewrite RtoC_div by lra; ring). rewrite snd_scal. field. repeat split; lra.
  Qed.
  (** outside the band, for an elliptic integral which is real on the real axis below 1 *)
  Lemma real_K m : elliptic_like ellipk -> (m < 1)%R -> exists k, ellipk (RtoC m) = Ok (RtoC k).
  Proof.
    intros H Hm. destruct (H (RtoC m) (or_intror Hm)) as (k & E & E' & _). exists (fst k). rewrite conj_R in E'. rewrite E in E'. injection E' as E'.
    rewrite E. f_equal. apply C_ext; [reflexivity|]. apply (f_equal snd) in E'. cbn in *. lra.
  Qed.
  Lemma fcc_mp_real e d (mp mm : R) : elliptic_like ellipk -> (0 < d)%R -> e <> (- (1))%R -> (mp < 1)%R -> (mm < 1)%R ->
    (do kii <- ellipk (RtoC mp);
      do kii <- (if cneg (snd (RtoC mp)) then do k <- ellipk (1 - RtoC mp); Ok (kii + 2 * Ci * k) else Ok kii);
      do pre <- mdiv 4 (PI * PI * PI * d * (e + 1));
      do k <- ellipk (RtoC mm);
      Ok (Rabs (pre * snd (k * kii)%C))) = Ok 0%R.
  Proof.
    intros H Hd Ne Hp Hm. assert (P := PI_RGT_0). destruct (real_K mp H Hp) as [k1 E1]. destruct (real_K mm H Hm) as [k2 E2]. rewrite E1, E2. cbn [bind]. unfold cneg. cbn [snd RtoC]. destruct (Rlt_dec 0 0) as [L|_]; [lra|]. cbn [bind].
    assert (D1 : (0 < PI * PI * PI * d)%R) by (rpos). rewrite mdiv_ok by (apply Rmult_integral_contrapositive; split; lra). cbn [bind]. f_equal. rewrite <- RtoC_mult. cbn [snd RtoC]. rewrite Rmult_0_r. apply Rabs_R0.
  Qed.
  Lemma fcc_mp_out eps D : elliptic_like ellipk -> (0 < D)%R -> (eps < - (1 / 2) * D \/ 3 / 2 * D <= eps)%R -> fcc_dos_mp ellipk eps D = Ok 0%R.
  Proof.
    intros HK H B. unfold fcc_dos_mp. cbv zeta. set (d := (D * (1 / 2))%R). assert (Hd : (0 < d)%R) by (unfold d; lra). rewrite mdiv_ok by lra. cbn [bind]. set (e := (eps / d)%R).
    assert (Ee : eps = (e * d)%R) by (unfold e; field; lra). assert (Be : (e < - (1) \/ 3 <= e)%R).
    { destruct B as [B|B]; [left|right]; unfold e, Rdiv; [apply (Rmult_lt_reg_r d)|apply (Rmult_le_reg_r d)]; try exact Hd; rewrite Rmult_assoc, Rinv_l by lra; unfold d; lra. }
    clearbody e. destruct (cneg (3 - e) && cneg (e - - (1)))%bool; [reflexivity|]. destruct (Req_EM_T e (- (1))) as [E|N]; [lra|].
    assert (Nz : signed_mp_sqrt (e + 1) <> 0) by (apply signed_neq0; lra). rewrite mcdiv_ok by (apply cube_neq0, Nz). cbn [bind].
    destruct Be as [Be|Be].
    - (* below the band: all roots are imaginary *)
      set (u := sqrt (- (e + 1))). set (v := sqrt (- e)). set (w := sqrt (- (e - 3))).
      assert (U : (u * u = - (e + 1))%R) by (apply sqrt_sqrt; lra). assert (V : (v * v = - e)%R) by (apply sqrt_sqrt; lra). assert (W : (w * w = - (e - 3))%R) by (apply sqrt_sqrt; lra).
      assert (u0 : (0 < u)%R) by (apply sqrt_lt_R0; lra). assert (v0 : (0 < v)%R) by (apply sqrt_lt_R0; lra). assert (w0 : (0 < w)%R) by (apply sqrt_lt_R0; lra).
      assert (Su : signed_mp_sqrt (e + 1) = - Ci * RtoC u) by (unfold signed_mp_sqrt; destruct (Rle_dec 0 (e + 1)); [lra|reflexivity]).
      assert (Sv : signed_mp_sqrt e = - Ci * RtoC v) by (unfold signed_mp_sqrt; destruct (Rle_dec 0 e); [lra|reflexivity]).
      assert (Sw : signed_mp_sqrt (e - 3) = - Ci * RtoC w) by (unfold signed_mp_sqrt; destruct (Rle_dec 0 (e - 3)); [lra|reflexivity]).
      rewrite Su, Sv, Sw. assert (uc := RtoC_neq0 u ltac:(lra)).
      assert (Q : 1 / (- Ci * RtoC u * (- Ci * RtoC u) * (- Ci * RtoC u)) = - Ci * RtoC (1 / (u * u * u))).
      { assert (u3 : (u * u * u <> 0)%R) by (apply Rgt_not_eq; repeat apply Rmult_lt_0_compat; exact u0).
        replace (- Ci * RtoC u * (- Ci * RtoC u) * (- Ci * RtoC u)) with (Ci * RtoC (u * u * u)) by (apply C_ext; cbn; ring).
        rewrite RtoC_div by exact u3. assert (c3 := RtoC_neq0 _ u3). assert (ci : Ci <> 0). { intros X. apply (f_equal snd) in X. cbn in X. lra. }
        assert (J : / Ci = - Ci) by (apply C_ext; cbn; field). replace (1 / (Ci * RtoC (u * u * u))) with (/ Ci * (1 / RtoC (u * u * u))) by (field; split; assumption). rewrite J. reflexivity. }
      rewrite Q. set (i3 := (1 / (u * u * u))%R). assert (I3 : (0 < i3)%R) by (unfold i3; apply Rdiv_lt_0_compat; [lra|repeat apply Rmult_lt_0_compat; exact u0]).
      replace (RtoC (1 / 2) * (1 + 4 * (- Ci * RtoC v) * (- Ci * RtoC i3) - RtoC (e - 1) * (- Ci * RtoC w) * (- Ci * RtoC i3))) with (RtoC (1 / 2 * (1 - 4 * v * i3 + (e - 1) * w * i3))) by (apply C_ext; cbn; ring).
      replace (RtoC (1 / 2) * (1 - 4 * (- Ci * RtoC v) * (- Ci * RtoC i3) - RtoC (e - 1) * (- Ci * RtoC w) * (- Ci * RtoC i3))) with (RtoC (1 / 2 * (1 + 4 * v * i3 + (e - 1) * w * i3))) by (apply C_ext; cbn; ring).
      assert (Hvw : (4 * v <= (1 - e) * w)%R).
      { apply Rsqr_incr_0_var; [|nra]. unfold Rsqr. replace (4 * v * (4 * v))%R with (16 * (v * v))%R by ring. replace ((1 - e) * w * ((1 - e) * w))%R with ((1 - e) * (1 - e) * (w * w))%R by ring. rewrite V, W.
        assert (X : (0 <= (- e - 1) * (- e - 1) * (- e - 1))%R) by (repeat apply Rmult_le_pos; lra). nra. }
      apply fcc_mp_real; try assumption.
      + assert (X := Rmult_le_compat_r i3 _ _ (Rlt_le _ _ I3) Hvw). assert (Y := Rmult_lt_0_compat _ _ v0 I3). nra.
      + assert (X := Rmult_le_compat_r i3 _ _ (Rlt_le _ _ I3) Hvw). nra.
    - (* above the band: all roots are real *)
      set (u := sqrt (e + 1)). set (v := sqrt e). set (w := sqrt (e - 3)).
      assert (U : (u * u = e + 1)%R) by (apply sqrt_sqrt; lra). assert (V : (v * v = e)%R) by (apply sqrt_sqrt; lra). assert (W : (w * w = e - 3)%R) by (apply sqrt_sqrt; lra).
      assert (u0 : (0 < u)%R) by (apply sqrt_lt_R0; lra). assert (v0 : (0 < v)%R) by (apply sqrt_lt_R0; lra). assert (w0 : (0 <= w)%R) by apply sqrt_pos.
      assert (Su : signed_mp_sqrt (e + 1) = RtoC u) by (unfold signed_mp_sqrt; destruct (Rle_dec 0 (e + 1)); [reflexivity|lra]).
      assert (Sv : signed_mp_sqrt e = RtoC v) by (unfold signed_mp_sqrt; destruct (Rle_dec 0 e); [reflexivity|lra]).
      assert (Sw : signed_mp_sqrt (e - 3) = RtoC w) by (unfold signed_mp_sqrt; destruct (Rle_dec 0 (e - 3)); [reflexivity|lra]).
      rewrite Su, Sv, Sw. rewrite <- !RtoC_mult. assert (u3 : (0 < u * u * u)%R) by (repeat apply Rmult_lt_0_compat; exact u0). rewrite <- RtoC_div by lra. rewrite <- !RtoC_mult, <- !RtoC_plus, <- !RtoC_minus, <- !RtoC_mult.
      set (i3 := (1 / (u * u * u))%R). assert (I3 : (0 < i3)%R) by (unfold i3; apply Rdiv_lt_0_compat; [lra|exact u3]). assert (Iu : (i3 * (u * u * u) = 1)%R) by (unfold i3; field; lra).
      assert (Hv : (4 * v <= u * u * u)%R).
      { apply Rsqr_incr_0_var; [|lra]. unfold Rsqr. replace (4 * v * (4 * v))%R with (16 * (v * v))%R by ring. replace (u * u * u * (u * u * u))%R with ((u * u) * (u * u) * (u * u))%R by ring. rewrite U, V. nra. }
      assert (X := Rmult_le_compat_r i3 _ _ (Rlt_le _ _ I3) Hv). assert (Y := Rmult_lt_0_compat _ _ v0 I3). assert (Z : (0 <= (e - 1) * w * i3)%R) by (apply Rmult_le_pos; [apply Rmult_le_pos|]; lra).
      assert (Wp : (e = 3 \/ 0 < (e - 1) * w * i3)%R). { destruct (Req_dec e 3) as [->|Ne3]; [left; reflexivity|right]. apply Rmult_lt_0_compat; [apply Rmult_lt_0_compat; [lra|apply sqrt_lt_R0; lra]|exact I3]. }
      apply fcc_mp_real; try assumption.
      + destruct Wp as [E3|Wp]; [|nra].
        (* e = 3 *) assert (X' : (4 * v < u * u * u)%R). { apply Rsqr_incrst_0; [|nra|lra]. unfold Rsqr. replace (4 * v * (4 * v))%R with (16 * (v * v))%R by ring. replace (u * u * u * (u * u * u))%R with ((u * u) * (u * u) * (u * u))%R by ring. rewrite U, V, E3. lra. }
        assert (X2 := Rmult_lt_compat_r i3 _ _ I3 X'). nra.
      + nra.
  Qed.
  Lemma fcc_mp eps D : elliptic_like ellipk -> (0 < D)%R -> agrees (fcc_dos_mp ellipk eps D) (fcc_dos ellipk eps D).
  Proof.
    intros HK H. destruct (Rlt_dec eps (- (1 / 2) * D)) as [L|L]; [|destruct (Rlt_dec eps (3 / 2 * D)) as [L2|L2]; [apply fcc_mp_in; lra|]].
    - rewrite (fcc_mp_out eps D HK H) by (left; lra). apply agrees_eq. unfold fcc_dos, cneg. destruct (Req_EM_T _ _); [lra|]. destruct (Rlt_dec _ 0); [lra|]. reflexivity.
    - rewrite (fcc_mp_out eps D HK H) by (right; lra). apply agrees_eq. unfold fcc_dos, cneg. destruct (Req_EM_T _ _); [lra|]. destruct (Rlt_dec _ 0); [|reflexivity]. destruct (Rlt_dec (eps - _) 0); [lra|]. reflexivity.
  Qed.
End C1.
