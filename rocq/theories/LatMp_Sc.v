(** * Simple cubic lattice: multi-precision Green's function and density of states *)
From Coq Require Import Reals List Bool Lia Lra Psatz.
From Coquelicot Require Import Coquelicot.
From Verif Require Import Base CBase CExp CSqrt Lattice_Model Bethe_Proofs LatDer_Spec LatDer_Model LatDer_Dos LatEll_Model LatEll_Proofs LatSym_Proofs LatMp_Model LatMp_Proofs.
Local Open Scope C_scope.

Section Sc.
  Variable ellipk : C -> result C.
  (** the part behind the scaling *)
  Definition sc_core_mp (z : C) : result C :=
    do z_sqr <- mcdiv 1 (z * z);
    do xi <- mcdiv (csqrt (1 - csqrt (1 - z_sqr))) (csqrt (1 + csqrt (1 - 9 * z_sqr)));
    let denom := (1 - xi) * (1 - xi) * (1 - xi) * (1 + 3 * xi) in
    do k2 <- mcdiv (16 * (xi * xi * xi)) denom;
    do k <- ellipk k2;
    let h := 2 * k / RtoC PI in
    do g <- mcdiv ((1 - 9 * (xi * xi * (xi * xi))) * (h * h)) denom;
    mcdiv g z.
  Lemma sc_gf_mp_core z D : (D <> 0)%R -> sc_gf_z_mp ellipk z D = do g <- sc_core_mp (RtoC (3 / D) * z); Ok (RtoC (3 / D) * g).
  Proof.
    intros H. unfold sc_gf_z_mp, sc_core_mp. cbv zeta. rewrite mdiv_ok by exact H. cbn [bind].
    repeat (match goal with |- context [bind ?x _] => lazymatch x with bind _ _ => fail | _ => destruct x; cbn [bind]; [|reflexivity] end end). reflexivity.
  Qed.
  Lemma cdiv_mcdiv (x y : C) : agrees (mcdiv x y) (cdiv x y).
  Proof. unfold mcdiv, cdiv. destruct (Ceq_dec y 0); [apply agrees_err|apply agrees_refl]. Qed.
  Lemma sc_core_agrees z : agrees (sc_core_mp z) (sc_core ellipk z).
  Proof.
    unfold sc_core_mp, sc_core. cbv zeta. apply agrees_bind; [apply cdiv_mcdiv|intros zs]. apply agrees_bind; [apply cdiv_mcdiv|intros xi].
    set (den := (1 - xi) * (1 - xi) * (1 - xi) * (1 + 3 * xi)). unfold mcdiv at 1, cdiv at 1. destruct (Ceq_dec den 0) as [E|N]; [apply agrees_err|]. cbn [bind].
    replace (16 * (xi * xi * xi) * (1 / den)) with (16 * (xi * xi * xi) / den) by (field; exact N). apply agrees_bind; [apply agrees_refl|intros k].
    rewrite mcdiv_ok by exact N. cbn [bind]. assert (PC := RtoC_neq0 PI PI_neq0).
    replace ((1 - 9 * (xi * xi * (xi * xi))) * (2 * k / RtoC PI * (2 * k / RtoC PI)) / den) with ((1 - 9 * (xi * xi * (xi * xi))) * (RtoC (2 / PI) * k * (RtoC (2 / PI) * k)) * (1 / den)); [apply cdiv_mcdiv|].
    rewrite RtoC_div by apply PI_neq0. field. split; assumption.
  Qed.
  Lemma sc_gf_mp z D : agrees (sc_gf_z_mp ellipk z D) (sc_gf_z ellipk z D).
  Proof.
    destruct (Req_EM_T D 0) as [->|N].
    - unfold sc_gf_z_mp, sc_gf_z, mdiv, rdiv. destruct (Req_EM_T 0 0); [apply agrees_err|contradiction].
    - rewrite sc_gf_mp_core by exact N. unfold sc_gf_z. rewrite rdiv_ok' by exact N. cbn [bind]. apply agrees_bind; [apply sc_core_agrees|intros g; apply agrees_refl].
  Qed.
  (** above the band everything is real *)
  Lemma sc_core_real e : elliptic_like ellipk -> (3 <= e)%R -> exists g, sc_core ellipk (RtoC e) = Ok (RtoC g).
  Proof.
    intros HK H. unfold sc_core. cbv zeta. set (u := (1 / (e * e))%R). assert (ee : (9 <= e * e)%R) by nra.
    assert (U : (0 < u <= 1 / 9)%R). { unfold u. split; [apply Rdiv_lt_0_compat; lra|]. apply Rle_div_l; lra. }
    rewrite <- RtoC_mult. rewrite cdiv_ok by (apply RtoC_neq0; lra). cbn [bind]. rewrite <- RtoC_div by lra. fold u. rewrite <- RtoC_mult, <- !RtoC_minus.
    set (s := sqrt (1 - u)). set (t := sqrt (1 - 9 * u)). assert (S2 : (s * s = 1 - u)%R) by (apply sqrt_sqrt; lra). assert (S0 : (0 <= s)%R) by apply sqrt_pos. assert (T0 : (0 <= t)%R) by apply sqrt_pos.
    assert (S1 : (15 / 16 <= s <= 1)%R) by nra. rewrite (csqrt_R (1 - u)), (csqrt_R (1 - 9 * u)) by lra. fold s t. rewrite <- RtoC_minus, <- RtoC_plus. rewrite !csqrt_R by lra.
    set (a := sqrt (1 - s)). set (b := sqrt (1 + t)). assert (A2 : (a * a = 1 - s)%R) by (apply sqrt_sqrt; lra). assert (A0 : (0 <= a)%R) by apply sqrt_pos. assert (B2 : (b * b = 1 + t)%R) by (apply sqrt_sqrt; lra). assert (B0 : (0 <= b)%R) by apply sqrt_pos.
    assert (A1 : (a <= 1 / 4)%R) by nra. assert (B1 : (1 <= b)%R) by nra. rewrite cdiv_ok by (apply RtoC_neq0; lra). cbn [bind]. rewrite <- RtoC_div by lra. set (xi := (a / b)%R).
    assert (X : (0 <= xi <= 1 / 4)%R). { unfold xi. split; [apply Rle_div_r; lra|]. apply Rle_div_l; [lra|]. nra. }
    rewrite <- !RtoC_mult, <- RtoC_minus, <- RtoC_plus, <- !RtoC_mult. set (den := ((1 - xi) * (1 - xi) * (1 - xi) * (1 + 3 * xi))%R).
    assert (Dn : (27 / 64 <= den)%R). { unfold den. assert (q : (9 / 16 <= (1 - xi) * (1 - xi))%R) by nra. assert (q2 : (27 / 64 <= (1 - xi) * (1 - xi) * (1 - xi))%R) by nra. nra. }
    rewrite cdiv_ok by (apply RtoC_neq0; lra). cbn [bind]. rewrite <- RtoC_div by lra. rewrite <- !RtoC_mult.
    destruct (real_K ellipk (16 * (xi * xi * xi) * (1 / den))%R HK) as [k Hk].
    { assert (q : (xi * xi <= 1 / 16)%R) by nra. assert (q2 : (xi * xi * xi <= 1 / 64)%R) by nra. replace (16 * (xi * xi * xi) * (1 / den))%R with (16 * (xi * xi * xi) / den)%R by (field; lra). apply Rlt_div_l; lra. }
    rewrite Hk. cbn [bind]. rewrite <- !RtoC_mult, <- RtoC_minus, <- !RtoC_mult. rewrite cdiv_ok by (apply RtoC_neq0; lra). rewrite <- RtoC_div by lra. eexists. reflexivity.
  Qed.
  Lemma sc_mp small smallmp eps D : elliptic_like ellipk -> (0 < D)%R -> (smallmp <= Rabs eps)%R -> (small <= Rabs (3 / D * eps))%R ->
    agrees (sc_dos_mp ellipk smallmp eps D) (sc_dos ellipk small eps D).
  Proof.
    intros HK H Hm Hs. assert (P := PI_RGT_0). unfold sc_dos_mp, sc_dos. rewrite mdiv_ok, rdiv_ok' by lra. cbn [bind]. cbv zeta.
    destruct (Rlt_dec (Rabs eps) smallmp) as [L|_]; [lra|]. destruct (Rlt_dec _ small) as [L|_]; [lra|].
    assert (I : (0 < 3 / D)%R) by (apply Rdiv_lt_0_compat; lra). assert (E : (Rabs (3 / D * eps) = 3 / D * Rabs eps)%R) by (rewrite Rabs_mult, (Rabs_pos_eq (3 / D)) by lra; reflexivity). rewrite E.
    rewrite sc_gf_mp_core by lra. rewrite <- RtoC_mult. set (e := (3 / D * Rabs eps)%R).
    apply agrees_trans with (do gf <- sc_core ellipk (RtoC e); Ok (3 / D * (- (1) / PI * snd gf))%R).
    - destruct (sc_core_mp (RtoC e)) as [g|er] eqn:Eg.
      + rewrite (proj1 (sc_core_agrees (RtoC e) g) Eg). cbn [bind]. apply agrees_eq. f_equal. rewrite snd_scal. field. split; lra.
      + destruct (sc_core ellipk (RtoC e)) as [g|er'] eqn:Eg'; [|apply agrees_err]. rewrite (proj2 (sc_core_agrees (RtoC e) g) Eg') in Eg. discriminate.
    - destruct (Rlt_dec e 3) as [L|L].
      + destruct (sc_core ellipk (RtoC e)) as [g|]; cbn [bind]; apply agrees_refl.
      + destruct (sc_core_real e HK ltac:(lra)) as [g ->]. cbn [bind snd RtoC]. apply agrees_eq. f_equal. ring.
  Qed.
  (** the expansion around the band centre *)
  Variables (a : R).
  Hypothesis a_ok : sc_dos0 ellipk = Ok a.
  Hypothesis a_pos : (0 < a)%R.
  Definition ex1 (x : R) : R := (a + (a / 18 - 1 / (3 * (PI * PI * PI * PI) * a)) * (x * x) + (a * (11 / 648) - 1 / (3 * (PI * PI * PI * PI) * a) * (7 / 18)) * (x * x * (x * x))
    + (a * (19 / 2160) - 1 / (3 * (PI * PI * PI * PI) * a) * (5 / 24)) * (x * x * (x * x) * (x * x)))%R.
  Lemma P4 : (0 < PI * PI * PI * PI)%R. Proof. assert (P := PI_RGT_0). rpos. Qed.
  Lemma sc_small small eps D : (0 < D)%R -> (Rabs (3 / D * eps) < small)%R -> sc_dos ellipk small eps D = Ok (3 / D * ex1 (Rabs (3 / D * eps)))%R.
  Proof.
    intros H L. assert (Q := P4). unfold sc_dos. rewrite rdiv_ok' by lra. cbn [bind]. cbv zeta. destruct (Rlt_dec _ small) as [_|N]; [|contradiction]. unfold sc_expansion. rewrite a_ok. cbn [bind].
    rewrite rdiv_ok'. 2:{ apply Rgt_not_eq, Rmult_lt_0_compat; [apply Rmult_lt_0_compat; [lra|exact Q]|exact a_pos]. } cbn [bind]. cbv zeta. unfold ex1. reflexivity.
  Qed.
  Lemma sc_small_mp small eps D : (0 < D)%R -> (Rabs eps < small)%R ->
    sc_dos_mp ellipk small eps D = let b := (3 / D * a)%R in let c := (1 / (3 * (PI * PI * PI * PI) * b))%R in let e2 := (Rabs eps * Rabs eps)%R in
      Ok (b + (b * (1 / 18) - c) * e2 + (b * (11 / 648) - c * (7 / 18)) * (e2 * e2) + (b * (19 / 2160) - c * (5 / 24)) * (e2 * e2 * e2))%R.
  Proof.
    intros H L. assert (Q := P4). assert (P := PI_RGT_0). unfold sc_dos_mp. rewrite mdiv_ok by lra. cbn [bind]. cbv zeta. destruct (Rlt_dec _ small) as [_|N]; [|contradiction].
    revert a_ok. unfold sc_dos0. cbv zeta. destruct (ellipk (RtoC _)) as [k1|]; cbn [bind]; [|discriminate]. destruct (ellipk (1 - _)) as [k2|]; cbn [bind]; [|discriminate]. intros [= Ea].
    assert (Eb : fst (RtoC (3 / D * (2 / (PI * PI))) * k1 * k2 / RtoC PI) = (3 / D * a)%R).
    { rewrite <- Ea. rewrite RtoC_mult. replace (RtoC (3 / D) * RtoC (2 / (PI * PI)) * k1 * k2 / RtoC PI) with (RtoC (3 / D) * (RtoC (2 / (PI * PI)) * k1 * k2 / RtoC PI)) by (unfold Cdiv; ring). cbn. ring. }
    rewrite Eb. assert (I : (0 < 3 / D)%R) by (apply Rdiv_lt_0_compat; lra). assert (B := Rmult_lt_0_compat _ _ I a_pos).
    rewrite mdiv_ok. 2:{ apply Rgt_not_eq, Rmult_lt_0_compat; [apply Rmult_lt_0_compat; [lra|exact Q]|exact B]. } cbn [bind]. reflexivity.
  Qed.
  (** at the band centre the two agree *)
  Lemma sc_centre small smallmp D : (0 < small)%R -> (0 < smallmp)%R -> (0 < D)%R -> sc_dos_mp ellipk smallmp 0 D = sc_dos ellipk small 0 D.
  Proof.
    intros Hs Hm H. rewrite sc_small by (rewrite ?Rmult_0_r, ?Rabs_R0; assumption). rewrite sc_small_mp by (rewrite ?Rabs_R0; assumption). cbv zeta. rewrite Rmult_0_r, Rabs_R0. unfold ex1. f_equal. ring.
  Qed.
  (** D = 3: the expansions are the same *)
  Lemma sc_three small smallmp eps : (Rabs eps < small)%R -> (Rabs eps < smallmp)%R -> sc_dos_mp ellipk smallmp eps 3 = sc_dos ellipk small eps 3.
  Proof.
    intros Hs Hm. replace (Rabs eps) with (Rabs (3 / 3 * eps)) in Hs by (f_equal; field). rewrite sc_small, sc_small_mp by (try lra; assumption). cbv zeta. replace (3 / 3 * eps)%R with eps by field. unfold ex1. assert (Q := P4). f_equal. field. split; [lra|]. apply PI_neq0.
  Qed.
  (** D = 1: they differ somewhere in every neighbourhood of the centre *)
  Lemma sc_differ small smallmp : (0 < small)%R -> (0 < smallmp)%R -> exists eps, (0 < eps < smallmp)%R /\ (3 * eps < small)%R /\ ~ agrees (sc_dos_mp ellipk smallmp eps 1) (sc_dos ellipk small eps 1).
  Proof.
    intros Hs Hm. assert (Q := P4). set (h := (Rmin small smallmp / 4)%R). assert (Hh : (0 < h)%R) by (unfold h; assert (T := Rmin_pos _ _ Hs Hm); lra). assert (T1 := Rmin_l small smallmp). assert (T2 := Rmin_r small smallmp).
    assert (H4 : (4 * h <= small)%R /\ (4 * h <= smallmp)%R) by (unfold h; lra). clearbody h.
    set (x := (1 / (PI * PI * PI * PI * a))%R). assert (X : (0 < x)%R) by (apply Rdiv_lt_0_compat; [lra|rpos]).
    (* difference of the two polynomials in eps^2 *)
    set (d2 := (a * (3 / 18) - x / 9 - 3 * 9 * (a / 18 - x / 3))%R). set (d4 := (a * (33 / 648) - x / 9 * (7 / 18) - 3 * 81 * (a * (11 / 648) - x / 3 * (7 / 18)))%R). set (d6 := (a * (57 / 2160) - x / 9 * (5 / 24) - 3 * 729 * (a * (19 / 2160) - x / 3 * (5 / 24)))%R).
    assert (Diff : forall e, (0 < e <= h)%R -> agrees (sc_dos_mp ellipk smallmp e 1) (sc_dos ellipk small e 1) -> (d2 + d4 * (e * e) + d6 * (e * e * (e * e)) = 0)%R).
    { intros e He A. assert (Ae : Rabs e = e) by (apply Rabs_pos_eq; lra). assert (A3 : (Rabs (3 / 1 * e) = 3 * e)%R) by (rewrite Rabs_pos_eq; lra).
      rewrite sc_small, sc_small_mp in A by (rewrite ?Ae, ?A3; lra). cbv zeta in A. rewrite Ae, A3 in A. assert (V := proj2 (A _) eq_refl). injection V as V. unfold ex1 in V.
      replace (1 / (3 * (PI * PI * PI * PI) * (3 / 1 * a)))%R with (x / 9)%R in V by (unfold x; field; repeat split; first [lra | apply PI_neq0]). replace (1 / (3 * (PI * PI * PI * PI) * a))%R with (x / 3)%R in V by (unfold x; field; repeat split; first [lra | apply PI_neq0]).
      assert (V2 : ((e * e) * (d2 + d4 * (e * e) + d6 * (e * e * (e * e))) = 0)%R) by (unfold d2, d4, d6; lra). apply Rmult_integral in V2. destruct V2 as [V2|V2]; [nra|exact V2]. }
    destruct (Req_dec (d2 + d4 * (h * h) + d6 * (h * h * (h * h))) 0) as [E1|N1]; [|exists h; repeat split; try lra; intros A; apply N1, Diff; [lra|exact A]].
    set (h2 := (h / 2)%R). destruct (Req_dec (d2 + d4 * (h2 * h2) + d6 * (h2 * h2 * (h2 * h2))) 0) as [E2|N2]; [|exists h2; unfold h2 in *; repeat split; try lra; intros A; apply N2, Diff; [lra|exact A]].
    set (h3 := (h / 3)%R). destruct (Req_dec (d2 + d4 * (h3 * h3) + d6 * (h3 * h3 * (h3 * h3))) 0) as [E3|N3]; [|exists h3; unfold h3 in *; repeat split; try lra; intros A; apply N3, Diff; [lra|exact A]].
    exfalso. unfold h2, h3 in *. set (y := (h * h)%R) in *. assert (Y : (0 < y)%R) by (apply Rmult_lt_0_compat; exact Hh).
    replace (h / 2 * (h / 2))%R with (y / 4)%R in E2 by (unfold y; field). replace (h / 3 * (h / 3))%R with (y / 9)%R in E3 by (unfold y; field). clearbody y.
    assert (F1 : (y * (d4 + d6 * (y * (5 / 4))) = 0)%R) by lra. apply Rmult_integral in F1. destruct F1 as [F1|F1]; [lra|].
    assert (F2 : (y * (d4 + d6 * (y * (13 / 36))) = 0)%R) by lra. apply Rmult_integral in F2. destruct F2 as [F2|F2]; [lra|].
    assert (F3 : (y * d6 = 0)%R) by lra. apply Rmult_integral in F3. destruct F3 as [F3|F3]; [lra|]. rewrite F3 in *. assert (G4 : d4 = 0%R) by lra. assert (G2 : d2 = 0%R) by (rewrite G4 in E1; lra).
    unfold d2 in G2. unfold d4 in G4. lra.
  Qed.
End Sc.
