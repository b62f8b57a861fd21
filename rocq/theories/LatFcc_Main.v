(** * The Green's function of the face-centred cubic lattice is the average of the resolvent over the Brillouin zone *)
From Coq Require Import Reals Lra Lia.
From Coquelicot Require Import Coquelicot.
From Verif Require Import Base CBase CExp CSqrt Lattice_Model Bethe_Proofs Fourier_Filon LatMom_Spec LatEll_Model LatInt_Spec LatInt_Proofs LatInt_Legendre LatBz_Spec LatRect_Main CAnal CHol CEll CHolo CTheta CTheta2 LatTri_Proofs LatTri_Main LatBcc_Proofs CFub LatSc_Red LatSc_Proofs LatSc_L LatSc_Y LatFcc_Mom LatFcc_Red LatFcc_Y.
Local Open Scope C_scope.

(** ** the average as a function of w = 4 / (z / D + 1) *)
Lemma fcc_red (D : R) (z w : C) : (0 < D)%R -> z + RtoC D <> 0 -> w * (z + RtoC D) = 4 * RtoC D -> offK w ->
  is_bz_average3 (fun k => 1 / (z - band3 face_centered (D / 4) k)) (Fj 0 w / (z + RtoC D)).
Proof.
  intros HD N E W. assert (HP := PI_RGT_0). assert (P3 : (0 < PI * PI * PI)%R) by (apply Rmult_lt_0_compat; [apply Rmult_lt_0_compat|]; exact PI_RGT_0). set (g := k3 0 1 w). assert (G := k3_cc3 0 1 w W). fold g in G. set (c := / (z + RtoC D)).
  exists (fun x y => c * CInt (g x y) (- PI) PI), (fun x => c * CInt (fun y => CInt (g x y) (- PI) PI) (- PI) PI). split; [|split].
  - intros k1 k2. apply is_CInt_ext with (2 := is_CInt_scal c _ _ _ _ (f3_is g G (- PI) PI k1 k2)). intros k3 _. cbv beta. rewrite fcc_band. assert (Q := q3_off w k1 k2 k3 W). unfold g, LatFcc_Red.k3. cbn [Cpow].
    set (s := (cos k1 * cos k2 + cos k2 * cos k3 + cos k3 * cos k1)%R). assert (EQ : q3 k1 k2 k3 = ((1 + s) / 4)%R) by (unfold q3, s; field). rewrite EQ in *.
    assert (EZ : z - RtoC (4 * (D / 4) * s) = (z + RtoC D) * (1 - w * RtoC ((1 + s) / 4))).
    { transitivity (z + RtoC D - w * (z + RtoC D) * RtoC ((1 + s) / 4)); [rewrite E|ring]. rewrite <- (RtoC_mult 4 D), <- RtoC_mult. replace (4 * D * ((1 + s) / 4))%R with (D + 4 * (D / 4) * s)%R by field. rewrite RtoC_plus. ring. }
    rewrite EZ. unfold c. field. split; assumption.
  - intros k1. apply is_CInt_scal. apply (f3_is2 g G (- PI) PI Hpi k1).
  - eapply is_CInt_eq; [apply is_CInt_scal, (f3_is3 g G (- PI) PI Hpi)|]. unfold Fj, i3, i2, i1. fold g. change (CInt (fun x => CInt (fun y => CInt (g x y) (- PI) PI) (- PI) PI) (- PI) PI) with (i3 0 1 w). rewrite RtoC_inv by lra. assert (P8 : RtoC (8 * (PI * PI * PI)) <> 0) by (apply RtoC_neq0; lra). unfold c. field. split; assumption.
Qed.
Lemma is_bz3_conj f l : is_bz_average3 f l -> is_bz_average3 (fun k => Cconj (f k)) (Cconj l).
Proof.
  intros (i & m & A & B & H). exists (fun a b => Cconj (i a b)), (fun a => Cconj (m a)). split; [intros; apply (is_CInt_conj _ _ _ _ (A k1 k2))|]. split; [intros; apply (is_CInt_conj _ _ _ _ (B k1))|]. eapply is_CInt_eq; [apply (is_CInt_conj _ _ _ _ H)|]. apply C_ext; cbn; ring.
Qed.
Lemma is_bz3_ext f g l : (forall k, f k = g k) -> is_bz_average3 f l -> is_bz_average3 g l.
Proof. intros E (i & m & A & B & H). exists i, m. split; [|split; assumption]. intros k1 k2. apply is_CInt_ext with (2 := A k1 k2). intros; apply E. Qed.

(** ** real values of the parameters *)
Lemma par_real (x y q : R) : y <> 0%R -> ((x, y) + 1) * ((x, y) + 1) * ((x, y) + 1) * ((x, y) - 3) = - (16 * RtoC q * (x, y)) ->
  (4 * (x * x) * (x * x + y * y) = (x * x + y * y) * (x * x + y * y) + 6 * (x * x + y * y) - 3 /\ 8 * (2 * q - 1) * (x * x + y * y) = x * (2 * ((x * x + y * y) * (x * x + y * y)) + 6))%R.
Proof.
  intros Hy E. assert (E1 := f_equal fst E). assert (E2 := f_equal snd E). cbn in E1, E2. clear E. set (n := (x * x + y * y)%R).
  assert (F1 : (8 * (2 * q - 1) * x = - (x * x * (x * x) - 6 * (x * x) * (y * y) + y * y * (y * y) - 6 * (x * x - y * y) - 3))%R) by lra.
  assert (F2 : (8 * (2 * q - 1) * y = - (4 * (x * x * x) * y - 4 * x * (y * y * y) - 12 * x * y))%R) by lra. clear E1 E2.
  assert (G2 : (4 * (x * x) * n = n * n + 6 * n - 3)%R). { apply Rmult_eq_reg_l with y; [|exact Hy]. assert (X : (x * (8 * (2 * q - 1) * y) - y * (8 * (2 * q - 1) * x) = 0)%R) by ring. rewrite F1, F2 in X. unfold n. lra. }
  split; [exact G2|]. assert (X : (x * (8 * (2 * q - 1) * x) + y * (8 * (2 * q - 1) * y) = 8 * (2 * q - 1) * n)%R) by (unfold n; ring). rewrite F1, F2 in X.
  replace (x * (2 * (n * n) + 6))%R with (x * (3 * (n * n) + 6 * n + 3 - (n * n + 6 * n - 3)))%R by ring. rewrite <- G2. unfold n in *. lra.
Qed.
Lemma par_big (x y q : R) : (0 < x)%R -> y <> 0%R -> (3 < x * x + y * y)%R -> ((x, y) + 1) * ((x, y) + 1) * ((x, y) + 1) * ((x, y) - 3) = - (16 * RtoC q * (x, y)) -> (1 < q)%R.
Proof.
  intros Hx Hy Hn E. destruct (par_real x y q Hy E) as [A B]. set (n := (x * x + y * y)%R) in *. clearbody n. clear E. assert (C1 : (0 < (x * x - 1) * n)%R) by nra. assert (X1 : (0 < x * x - 1)%R). { apply Rnot_le_lt. intros L. assert ((x * x - 1) * n <= 0)%R by nra. lra. } assert (X2 : (1 < x)%R) by nra.
  assert (M : (0 < 2 * (n * n) + 6 - 8 * n)%R) by nra. assert (C2 : (0 < (2 * q - 2) * n)%R). { assert (0 < (x - 1) * (2 * (n * n) + 6))%R by (apply Rmult_lt_0_compat; nra). lra. }
  apply Rnot_le_lt. intros L. assert ((2 * q - 2) * n <= 0)%R by nra. lra.
Qed.
Lemma par_pos (x y q : R) : (0 < x)%R -> y <> 0%R -> ((x, y) + 1) * ((x, y) + 1) * ((x, y) + 1) * ((x, y) - 3) = - (16 * RtoC q * (x, y)) -> (1 / 2 < q)%R.
Proof.
  intros Hx Hy E. destruct (par_real x y q Hy E) as [A B]. set (n := (x * x + y * y)%R) in *. assert (N0 : (0 < n)%R) by (unfold n; nra). clearbody n. clear E. assert (0 < x * (2 * (n * n) + 6))%R by (apply Rmult_lt_0_compat; nra).
  apply Rnot_le_lt. intros L. assert (8 * (2 * q - 1) * n <= 0)%R by nra. lra.
Qed.
(** ** the half plane snd w > 0 *)
Definition nrm (z : C) : R := (fst z * fst z + snd z * snd z)%R.
Lemma up_offK w : (0 < snd w)%R -> offK w. Proof. intros H. left. lra. Qed.
Lemma root_low z : (snd z < 0)%R -> (0 < fst (csqrt z) /\ snd (csqrt z) < 0)%R.
Proof. intros H. assert (O : offcut z) by (left; lra). assert (P := csqrt_pos z O). assert (I := csqrt_im z O). split; [exact P|]. nra. Qed.
Lemma nrm_mul a b : nrm (a * b) = (nrm a * nrm b)%R. Proof. destruct a, b. unfold nrm. cbn. ring. Qed.
Lemma fT_up w : (0 < snd w)%R -> (0 < fst (fT w) /\ snd (fT w) < 0 /\ 3 < nrm (fT w))%R.
Proof.
  intros H. assert (A : (0 < fst (fA w) /\ snd (fA w) < 0)%R) by (apply root_low; destruct w; cbn in *; lra). assert (B : (0 < fst (fB w) /\ snd (fB w) < 0)%R) by (apply root_low; destruct w; cbn in *; lra).
  assert (E := f_equal nrm (fT_conj w)). rewrite nrm_mul in E. revert E. unfold fT. destruct (fA w) as [a a'], (fB w) as [b b']. cbn [fst snd] in A, B. intros E. split; [cbn; lra|]. split; [cbn; lra|].
  set (u := nrm (2 * (a, a') + (b, b'))) in *. set (v := nrm (2 * (a, a') - (b, b'))) in *. assert (U : (v < u)%R). { unfold u, v, nrm. cbn. assert (0 < a * b)%R by (apply Rmult_lt_0_compat; lra). assert (0 < a' * b')%R by nra. lra. }
  assert (V : (0 <= v)%R) by (unfold v, nrm; nra). replace (nrm 3) with 9%R in E by (unfold nrm; cbn; ring). nra.
Qed.
Lemma mP_eq (T : C) (q : R) : T <> 0 -> mP T = RtoC q -> (T + 1) * (T + 1) * (T + 1) * (T - 3) = - (16 * RtoC q * T).
Proof. intros N E. rewrite <- E. unfold mP. revert N. snum. intros N. ffin. Qed.
Lemma mM_eq (T : C) : T <> 0 -> mM T = 1 - mP (3 / T).
Proof. intros N. unfold mP, mM. revert N. snum. intros N. ffin. Qed.
Lemma cP_up w : (0 < snd w)%R -> offE (cP w).
Proof.
  intros H. destruct (fT_up w H) as (A & B & N). assert (NT := fT0 w (up_offK w H)). destruct (Req_dec (snd (cP w)) 0) as [Z|]; [right|now left]. assert (E : cP w = RtoC (fst (cP w))) by (apply C_ext; [reflexivity|exact Z]).
  apply mP_eq in E; [|exact NT]. unfold nrm in N. destruct (fT w) as [x y]. cbn [fst snd] in *. apply (par_big x y); [lra|lra|exact N|exact E].
Qed.
Lemma cM_up w : (0 < snd w)%R -> offK (cM w).
Proof.
  intros H. destruct (fT_up w H) as (A & B & N). assert (NT := fT0 w (up_offK w H)). destruct (Req_dec (snd (cM w)) 0) as [Z|]; [right|now left]. assert (EM := mM_eq _ NT). fold (cM w) in EM. set (q := (1 - fst (cM w))%R). assert (NS : 3 / fT w <> 0) by (intros X; apply (f_equal (fun x => x * fT w)) in X; revert X; unfold Cdiv; rewrite <- Cmult_assoc, Cinv_l, Cmult_1_r, Cmult_0_l by exact NT; apply RtoC_neq0; lra).
  assert (E : mP (3 / fT w) = RtoC q). { replace (mP (3 / fT w)) with (1 - cM w) by (rewrite EM; ring). unfold q. clear - Z. revert Z. generalize (cM w). intros [a b]. cbn. intros ->. apply C_ext; cbn; ring. }
  apply mP_eq in E; [|exact NS]. assert (PX : (0 < fst (3 / fT w)%C)%R /\ snd (3 / fT w) <> 0%R). { destruct (fT w) as [x y]. cbn in A, B. assert (0 < x * x + y * y)%R by nra. assert (0 < / (x * x + y * y))%R by (apply Rinv_0_lt_compat; assumption). unfold Cdiv, Cinv, Cmult. cbn [fst snd RtoC]. replace (x ^ 2 + y ^ 2)%R with (x * x + y * y)%R by ring. unfold Rdiv. split; [nra|]. apply Rgt_not_eq. nra. }
  destruct (3 / fT w) as [x y]. cbn [fst snd] in PX. assert (X := par_pos x y q (proj1 PX) (proj2 PX) E). unfold q in X. lra.
Qed.

(** the imaginary part of the parameter where the code uses the principal value only *)
Lemma mP_sgn (T : C) : (10 / 7 < fst T)%R -> (- (1 / 2) < snd T < 0)%R -> (0 < snd (mP T))%R.
Proof.
  destruct T as [x y]. cbn [fst snd]. intros Hx Hy. set (n := (x * x + y * y)%R). assert (N : (0 < n)%R) by (unfold n; nra). assert (NT : (x, y) <> RtoC 0) by (intros X; apply (f_equal fst) in X; cbn in X; lra).
  assert (E : RtoC n * mP (x, y) = - RtoC (1 / 16) * ((((x, y) + 1) * ((x, y) + 1) * ((x, y) + 1) * ((x, y) - 3)) * (x, (- y)%R))).
  { assert (EN : RtoC n = (x, y) * (x, (- y)%R)) by (apply C_ext; unfold n; cbn; ring). rewrite EN. unfold mP. set (t := (x, y)) in *. clearbody t. field. exact NT. }
  apply (f_equal snd) in E. set (m := snd (mP (x, y))) in *. assert (E2 : snd (RtoC n * mP (x, y)) = (n * m)%R) by (unfold m; cbn; ring). rewrite E2 in E. clear E2. clearbody m.
  assert (P : (0 < 3 * ((x * x - 1) * (x * x - 1)) + y * y * (2 * (x * x) - 6 - y * y))%R). { assert (100 / 49 < x * x)%R by nra. assert (y * y < 1 / 4)%R by nra. assert (0 <= y * y)%R by nra. set (a := (x * x)%R) in *. set (b := (y * y)%R) in *. clearbody a b. nra. }
  assert (E3 : (n * m = 1 / 16 * (- y * (3 * ((x * x - 1) * (x * x - 1)) + y * y * (2 * (x * x) - 6 - y * y))))%R). { rewrite E. unfold n. cbn. ring. }
  assert (0 < n * m)%R by (rewrite E3; apply Rmult_lt_0_compat; [lra|apply Rmult_lt_0_compat; lra]). apply Rnot_le_lt. intros L. nra.
Qed.

Lemma near (w0 : C) : offK w0 -> forall e, (0 < e)%R -> exists d, (0 < d)%R /\ forall w, (Cmod (w - w0)%C < d)%R -> (Cmod (fT w - fT w0)%C < e)%R.
Proof. intros H e He. exact (proj1 (ccat_eps fT w0) (holo_ccat offK fT w0 (th_holo _ _ _ fT_th) H) e He). Qed.
Lemma near_off (c : C -> C) (w0 : C) : holo offK c -> offK w0 -> offK (c w0) -> exists d, (0 < d)%R /\ forall w, (Cmod (w - w0)%C < d)%R -> offK (c w).
Proof.
  intros HC H HK. destruct (offK_open _ HK) as (e & He & Q). destruct (proj1 (ccat_eps c w0) (holo_ccat offK c w0 HC H) e He) as (d & Hd & B). exists d. split; [exact Hd|]. intros w Hw. apply Q, B, Hw.
Qed.
Lemma near_sgn (w0 : C) : offK w0 -> snd (fT w0) = 0%R -> (17 / 10 < fst (fT w0))%R -> exists d, (0 < d)%R /\ forall w, (Cmod (w - w0)%C < d)%R -> (0 < snd w)%R -> (0 < snd (cP w))%R.
Proof.
  intros H E L. destruct (near w0 H (1 / 4) ltac:(lra)) as (d & Hd & B). exists d. split; [exact Hd|]. intros w Hw Hs. specialize (B w Hw). destruct (fT_up w Hs) as (P & Q & _). assert (F := Cmod_fst (fT w - fT w0)). assert (S := Cmod_snd (fT w - fT w0)).
  unfold cP. revert E L B P Q F S. generalize (fT w) (fT w0). intros [x y] [x0 y0]. cbn [fst snd]. intros -> L B P Q F S. assert (F' := Rle_lt_trans _ _ _ F B). assert (S' := Rle_lt_trans _ _ _ S B). cbn in F', S'. apply Rabs_def2 in F', S'. apply mP_sgn; cbn; lra.
Qed.
Lemma fT_at0 : fT 0 = 3.
Proof. unfold fT, fA, fB. replace (1 - RtoC (1 / 4) * 0) with (RtoC 1) by ring. replace (1 - 0 : C) with (RtoC 1) by ring. rewrite csqrt_1. snum. ffin. Qed.
Lemma cP_at0 : cP 0 = 0. Proof. unfold cP. rewrite fT_at0. unfold mP. replace (3 - 3 : C) with (RtoC 0) by ring. ring. Qed.
Lemma cM_at0 : cM 0 = 0. Proof. unfold cM. rewrite fT_at0. unfold mM. replace (3 - 3 : C) with (RtoC 0) by ring. ring. Qed.
Definition pf : C := RtoC (4 / (PI * PI)).
Lemma near0 : exists r0, (0 < r0 <= 1)%R /\ forall w, (Cmod w < r0)%R -> Fj 0 w = pf * (Kf (cM w) * Kf (cP w)) /\ ((0 < snd w)%R -> (0 < snd (cP w))%R).
Proof.
  assert (HP := PI_RGT_0). assert (O0 := offK_0). destruct (near_off cP 0 (th_holo _ _ _ cP_th) O0) as (d1 & H1 & B1); [rewrite cP_at0; exact O0|]. destruct (near_off cM 0 (th_holo _ _ _ cM_th) O0) as (d2 & H2 & B2); [rewrite cM_at0; exact O0|].
  destruct (near_sgn 0 O0) as (d3 & H3 & B3); [rewrite fT_at0; reflexivity|rewrite fT_at0; cbn; lra|]. set (r := Rmin (1 / 2) (Rmin d1 d2)). assert (R1 := Rmin_l (1 / 2) (Rmin d1 d2)). assert (R2 := Rmin_r (1 / 2) (Rmin d1 d2)). assert (R3 := Rmin_l d1 d2). assert (R4 := Rmin_r d1 d2). fold r in R1, R2. assert (R0 : (0 < r)%R) by (unfold r; repeat apply Rmin_pos; lra).
  destruct (Yf_ode (disc 0 r)) as (Y1 & Y2 & Y3 & T0 & TT1 & TT2 & ODE).
  { intros w Hw. apply disc_offK. unfold disc in *. lra. } { intros w Hw. apply B1. unfold disc in Hw. lra. } { intros w Hw. apply B2. unfold disc in Hw. lra. }
  assert (Q : forall u, (Cmod u <= r / 2 / 2)%R -> Fj 0 u = pf * Yf u).
  { apply (fcc_unique r (r / 2) ltac:(lra) ltac:(lra) (fun w => pf * Yf w) (fun w => pf * Y1 w) (fun w => pf * Y2 w) (fun w => pf * Y3 w)); [apply th_scal; assumption|apply th_scal; assumption|apply th_scal; assumption| |].
    - intros w Hw. transitivity (pf * (8 * Y3 w)); [ring|]. rewrite (ODE w Hw). ring.
    - unfold Yf, ya, yb. rewrite cP_at0, cM_at0, Kf_0. unfold pf. rewrite <- !RtoC_mult. f_equal. field. lra. }
  exists (Rmin (r / 4) d3). assert (M1 := Rmin_l (r / 4) d3). assert (M2 := Rmin_r (r / 4) d3). assert (M3 : (0 < Rmin (r / 4) d3)%R) by (apply Rmin_pos; lra). split; [lra|]. intros w Hw. split.
  - apply Q. lra.
  - apply B3. replace (w - 0) with w by ring. lra.
Qed.
(** ** the average in the half plane *)
Lemma fcc_up w : (0 < snd w)%R -> Fj 0 w = pf * (Kf (cM w) * Ef (cP w)).
Proof.
  destruct near0 as (r & Hr & B). set (U := fun w : C => (0 < snd w)%R). intros Hw. set (p := (0%R, (r / 2)%R) : C). assert (Up : U p) by (unfold U, p; cbn; lra).
  assert (SU : forall c, holo offK c -> holo U c) by (intros c (c' & Hc); exists c'; intros v Hv; apply Hc, up_offK, Hv).
  apply (identity2 U (Fj 0) (fun w => pf * (Kf (cM w) * Ef (cP w))) p upper_open); [| exact Up | | | | exact Hw].
  - intros q s Hq Hs. unfold U in *. destruct q as [a b]. cbn in *. nra.
  - apply SU, Fj_holo.
  - apply (holo_mult U (fun _ => pf)); [apply holo_const|]. apply (holo_mult U (fun w => Kf (cM w))); [apply holo_Kf; [apply SU, (th_holo _ _ _ cM_th)|exact cM_up]|apply Ef_holo; [apply SU, (th_holo _ _ _ cP_th)|exact cP_up]].
  - intros d Hd. set (e := Rmin (d / 2) (r / 4)). assert (E1 := Rmin_l (d / 2) (r / 4)). assert (E2 := Rmin_r (d / 2) (r / 4)). assert (E3 : (0 < e)%R) by (apply Rmin_pos; lra). fold e in E1, E2. exists (0%R, (r / 2 + e)%R).
    assert (CI : forall t, (0 <= t)%R -> Cmod (0%R, t) = t). { intros t Ht. unfold Cmod. cbn [fst snd]. replace (0 ^ 2 + t ^ 2)%R with (t * t)%R by ring. apply sqrt_square, Ht. }
    split.
    + unfold p. replace ((0%R, (r / 2 + e)%R) - (0%R, (r / 2)%R)) with ((0%R, e) : C) by (apply C_ext; cbn; ring). rewrite CI by lra. lra.
    + destruct (B (0%R, (r / 2 + e)%R)) as [X Y]; [rewrite CI by lra; lra|]. rewrite X, (Ef_up (cP _)) by (apply Y; cbn; lra). ring.
Qed.
Lemma limit_up' f (z : C) d0 : (0 < d0)%R -> ccat f z -> (forall e, (0 < e < d0)%R -> f (fst z, (snd z + e)%R) = 0) -> f z = 0.
Proof.
  intros Hd0 F H. apply Cmod_eq_0. destruct (Req_EM_T (Cmod (f z)) 0) as [E|N]; [exact E|exfalso]. assert (P := Cmod_ge_0 (f z)). destruct (proj1 (ccat_eps f z) F (Cmod (f z)) ltac:(lra)) as (d & Hd & B).
  set (e := Rmin (d / 2) (d0 / 2)). assert (E1 := Rmin_l (d / 2) (d0 / 2)). assert (E2 := Rmin_r (d / 2) (d0 / 2)). assert (E3 : (0 < e)%R) by (apply Rmin_pos; lra). fold e in E1, E2.
  specialize (B (fst z, (snd z + e)%R)). rewrite H in B by lra. replace (RtoC 0 - f z) with (- f z) in B by ring. rewrite Cmod_opp in B.
  assert (X : (Cmod ((fst z, (snd z + e)%R) - z)%C < d)%R). { replace ((fst z, (snd z + e)%R) - z) with (Ci * RtoC e) by (destruct z; apply C_ext; cbn; ring). rewrite Cmod_mult, Cmod_R, Rabs_pos_eq by lra. replace (Cmod Ci) with 1%R; [lra|]. unfold Cmod. cbn. replace (0 * (0 * 1) + 1 * (1 * 1))%R with 1%R by ring. symmetry. apply sqrt_1. }
  specialize (B X). lra.
Qed.
(** ** real arguments *)
Lemma fT_real (a : R) : (a < 1)%R -> exists t, fT (RtoC a) = RtoC t /\ (17 / 10 < t)%R.
Proof.
  intros H. unfold fT, fA, fB. replace (1 - RtoC (1 / 4) * RtoC a) with (RtoC (1 - 1 / 4 * a)) by (rewrite RtoC_minus, RtoC_mult; reflexivity). rewrite <- RtoC_minus, !csqrt_R by lra. exists (2 * sqrt (1 - 1 / 4 * a) + sqrt (1 - a))%R. rewrite RtoC_plus, RtoC_mult. split; [reflexivity|].
  assert (S1 := sqrt_lt_R0 (1 - a) ltac:(lra)). assert (S2 : (17 / 20 < sqrt (1 - 1 / 4 * a))%R); [|lra]. apply Rsqr_incrst_0; [|lra|apply sqrt_pos]. rewrite Rsqr_sqrt by lra. unfold Rsqr. lra.
Qed.
Lemma real_off (t : R) : (17 / 10 < t)%R -> offK (mP (RtoC t)) /\ offK (mM (RtoC t)) /\ snd (mP (RtoC t)) = 0%R.
Proof.
  intros H. assert (I : (0 < / t)%R) by (apply Rinv_0_lt_compat; lra). assert (I3 : (0 < / (t * t * t))%R) by (apply Rinv_0_lt_compat; repeat apply Rmult_lt_0_compat; lra).
  assert (EP : mP (RtoC t) = RtoC (1 - / 16 * ((t - 1) * (t - 1) * (t - 1) * (t + 3) * / t))).
  { unfold mP. rewrite <- RtoC_inv by lra. rewrite <- RtoC_opp, <- !RtoC_plus, <- RtoC_minus, <- !RtoC_mult. f_equal. field. lra. }
  assert (EM : mM (RtoC t) = RtoC (1 - / 16 * ((t + 3) * (t + 3) * (t + 3) * (t - 1) * / (t * t * t)))).
  { unfold mM. rewrite <- !RtoC_mult, <- RtoC_inv by (apply Rgt_not_eq; repeat apply Rmult_lt_0_compat; lra). rewrite <- RtoC_opp, <- !RtoC_plus, <- RtoC_minus, <- !RtoC_mult. f_equal. field. lra. }
  rewrite EP, EM. split; [|split; [|reflexivity]]; right; cbn [fst RtoC].
  - assert (0 < (t - 1) * (t - 1) * (t - 1) * (t + 3) * / t)%R by (repeat apply Rmult_lt_0_compat; lra). lra.
  - assert (0 < (t + 3) * (t + 3) * (t + 3) * (t - 1) * / (t * t * t))%R by (apply Rmult_lt_0_compat; [repeat apply Rmult_lt_0_compat; lra|exact I3]). lra.
Qed.
Lemma fcc_real (a : R) : (a < 1)%R -> Fj 0 (RtoC a) = pf * (Kf (cM (RtoC a)) * Kf (cP (RtoC a))).
Proof.
  intros H. assert (O : offK (RtoC a)) by (right; cbn; lra). destruct (fT_real a H) as (t & ET & Ht). destruct (real_off t Ht) as (OP & OM & _). rewrite <- ET in OP, OM. fold (cP (RtoC a)) in OP. fold (cM (RtoC a)) in OM.
  destruct (near_sgn (RtoC a) O) as (d & Hd & B); [rewrite ET; reflexivity|rewrite ET; exact Ht|]. apply Csub_0. apply (limit_up' (fun w => Fj 0 w - pf * (Kf (cM w) * Kf (cP w))) (RtoC a) d Hd).
  - assert (CP := holo_ccat offK cP _ (th_holo _ _ _ cP_th) O). assert (CM := holo_ccat offK cM _ (th_holo _ _ _ cM_th) O). apply (ccat_minus (Fj 0)); [apply (holo_ccat offK); [apply Fj_holo|exact O]|]. apply (ccat_mult (fun _ => pf)); [apply ccat_const|].
    assert (CK : forall m, offK m -> ccat Kf m) by (intros m Hm; apply (holo_ccat offK); [eexists; apply Kf_hol|exact Hm]). apply (ccat_mult (fun w => Kf (cM w))); [apply (ccat_comp Kf cM); [apply CK, OM|exact CM]|apply (ccat_comp Kf cP); [apply CK, OP|exact CP]].
  - intros e He. cbn [fst snd RtoC]. rewrite Rplus_0_l. rewrite fcc_up by (cbn; lra). rewrite Ef_up; [ring|]. apply B; [|cbn; lra]. replace ((a, e) - RtoC a) with ((0%R, e) : C) by (apply C_ext; cbn; ring). unfold Cmod. cbn [fst snd]. replace (0 ^ 2 + e ^ 2)%R with (e * e)%R by ring. rewrite sqrt_square by lra. lra.
Qed.

(** ** the roots taken by the code in the lower half plane and on the real axis *)
Definition dot (u v : C) : R := (fst u * fst v + snd u * snd v)%R.
Definition adv (z : C) : Prop := (snd z < 0)%R \/ snd z = 0%R /\ (fst z < - (1) \/ 3 < fst z)%R.
Lemma ss_sqr z : fcc_signed_sqrt z * fcc_signed_sqrt z = z.
Proof.
  unfold fcc_signed_sqrt. destruct (cneg (fst z)); [|apply csqrt_sqr]. transitivity (Ci * Ci * (csqrt (- z) * csqrt (- z))); [ring|]. rewrite csqrt_sqr. replace (Ci * Ci) with (RtoC (- (1))) by (apply C_ext; cbn; ring). apply C_ext; destruct z; cbn; ring.
Qed.
Lemma ss_low z : (snd z < 0)%R -> (0 < fst (fcc_signed_sqrt z) /\ snd (fcc_signed_sqrt z) < 0)%R.
Proof.
  intros H. unfold fcc_signed_sqrt. destruct (cneg (fst z)); [|apply root_low, H]. assert (O : offcut (- z)) by (left; destruct z; cbn in *; lra). assert (P := csqrt_pos _ O). assert (I := csqrt_im _ O). assert (S : (0 < snd (- z)%C)%R) by (destruct z; cbn in *; lra). destruct (csqrt (- z)) as [a b]. cbn [fst snd] in P, I. assert (0 < b)%R by nra. cbn. split; lra.
Qed.
Lemma ss_pos (a : R) : (0 < a)%R -> fcc_signed_sqrt (RtoC a) = RtoC (sqrt a).
Proof. intros H. unfold fcc_signed_sqrt. rewrite cneg_ge by (cbn; lra). apply csqrt_R. lra. Qed.
Lemma ss_neg (a : R) : (a < 0)%R -> fcc_signed_sqrt (RtoC a) = (0%R, (- sqrt (- a))%R).
Proof. intros H. unfold fcc_signed_sqrt. rewrite cneg_lt by (cbn; lra). rewrite <- RtoC_opp, csqrt_R by lra. apply C_ext; cbn; ring. Qed.
Lemma ss_dot z (a b : R) : adv z -> (- (3) <= a <= 1)%R -> (- (3) <= b <= 1)%R -> (0 < dot (fcc_signed_sqrt (z + RtoC a)%C) (fcc_signed_sqrt (z + RtoC b)%C))%R.
Proof.
  intros [H|[E [H|H]]] Ha Hb.
  - assert (S : forall c, (snd (z + RtoC c)%C < 0)%R) by (intros c; destruct z; cbn in *; lra). destruct (ss_low _ (S a)) as [A1 A2]. destruct (ss_low _ (S b)) as [B1 B2]. unfold dot. nra.
  - assert (X : z = RtoC (fst z)) by (apply C_ext; [reflexivity|exact E]). rewrite X, <- !RtoC_plus, !ss_neg by lra. unfold dot. cbn. assert (S1 := sqrt_lt_R0 (- (fst z + a)) ltac:(lra)). assert (S2 := sqrt_lt_R0 (- (fst z + b)) ltac:(lra)). nra.
  - assert (X : z = RtoC (fst z)) by (apply C_ext; [reflexivity|exact E]). rewrite X, <- !RtoC_plus, !ss_pos by lra. unfold dot. cbn. assert (S1 := sqrt_lt_R0 (fst z + a) ltac:(lra)). assert (S2 := sqrt_lt_R0 (fst z + b) ltac:(lra)). nra.
Qed.
Lemma ratio (u v : C) : v <> 0 -> (0 < dot u v)%R -> csqrt (u * u / (v * v)) = u / v.
Proof.
  intros N H. apply csqrt_unique; [field; exact N|]. destruct u as [a b], v as [c d]. unfold dot in H. cbn in H. assert (P : (0 < c * c + d * d)%R). { apply Rnot_le_lt. intros L. apply N. apply C_ext; cbn; nra. }
  assert (0 < / (c * c + d * d))%R by (apply Rinv_0_lt_compat, P). unfold Cdiv, Cinv, Cmult. cbn [fst snd]. replace (c ^ 2 + d ^ 2)%R with (c * c + d * d)%R by ring. unfold Rdiv. replace (a * (c * / (c * c + d * d)) - b * (- d * / (c * c + d * d)))%R with ((a * c + b * d) * / (c * c + d * d))%R by ring. apply Rmult_lt_0_compat; assumption.
Qed.
Lemma adv_neq z : adv z -> z + 1 <> 0.
Proof. intros H E. assert (X := f_equal fst E). assert (Y := f_equal snd E). destruct z as [a b]. unfold adv in H. cbn in *. destruct H as [H|[H [L|L]]]; lra. Qed.
Definition wz (z : C) : C := 4 / (z + 1).
Lemma wz_mul z : adv z -> wz z * (z + 1) = 4. Proof. intros H. unfold wz. field. apply adv_neq, H. Qed.
Lemma wz_low z : (snd z < 0)%R -> (0 < snd (wz z))%R.
Proof.
  intros H. unfold wz. destruct z as [a b]. cbn [snd] in H. assert (B2 : (0 < b * b)%R) by nra. assert (A2 := Rle_0_sqr (a + 1)). unfold Rsqr in A2. assert (P : (0 < (a + 1) * (a + 1) + b * b)%R) by lra. assert (0 < / ((a + 1) * (a + 1) + b * b))%R by (apply Rinv_0_lt_compat, P). unfold Cdiv, Cinv, Cmult, Cplus. cbn [fst snd RtoC].
  replace ((a + 1) ^ 2 + (b + 0) ^ 2)%R with ((a + 1) * (a + 1) + b * b)%R by ring. unfold Rdiv. set (i := (/ ((a + 1) * (a + 1) + b * b))%R) in *. nra.
Qed.
Lemma wz_real (a : R) : (a < - (1) \/ 3 < a)%R -> exists b, wz (RtoC a) = RtoC b /\ (b < 1)%R.
Proof.
  intros H. exists (4 / (a + 1))%R. unfold wz. rewrite <- RtoC_plus, <- RtoC_div by (destruct H; lra). split; [reflexivity|]. destruct H as [H|H].
  - assert (/ (a + 1) < 0)%R by (apply Rinv_lt_0_compat; lra). unfold Rdiv. lra.
  - apply Rmult_lt_reg_r with (a + 1)%R; [lra|]. replace (4 / (a + 1) * (a + 1))%R with 4%R by (field; lra). lra.
Qed.
Lemma wz_off z : adv z -> offK (wz z).
Proof.
  intros [H|[E H]]; [left; assert (X := wz_low z H); lra|]. assert (X : z = RtoC (fst z)) by (apply C_ext; [reflexivity|exact E]). rewrite X. destruct (wz_real _ H) as (b & -> & L). right. cbn. exact L.
Qed.
Section Adv.
Variable z : C.
Hypothesis A : adv z.
Notation r1 := (fcc_signed_sqrt (z + 1)).
Lemma r1_neq : r1 <> 0. Proof. intros E. apply (adv_neq z A). rewrite <- (ss_sqr (z + 1)), E. ring. Qed.
Lemma fA_code : fA (wz z) = fcc_signed_sqrt z / r1.
Proof.
  assert (N := adv_neq z A). rewrite <- (ratio _ _ r1_neq). 2: { replace z with (z + RtoC 0) at 1 by ring. apply ss_dot; [exact A|lra|lra]. }
  rewrite !ss_sqr. unfold fA, wz. f_equal. transitivity (1 - RtoC (1 / 4) * 4 / (z + 1)); [unfold Cdiv; ring|]. rewrite <- RtoC_mult. replace (1 / 4 * 4)%R with 1%R by field. field. exact N.
Qed.
Lemma fB_code : fB (wz z) = fcc_signed_sqrt (z - 3) / r1.
Proof.
  assert (N := adv_neq z A). rewrite <- (ratio _ _ r1_neq). 2: { replace (z - 3) with (z + RtoC (- (3))) by (rewrite RtoC_opp; ring). apply ss_dot; [exact A|lra|lra]. }
  rewrite !ss_sqr. unfold fB, wz. f_equal. revert N. snum. intros N. ffin.
Qed.
Lemma cP_AB w : offK w -> cP w = RtoC (1 / 2) * (1 + w * fA w - (1 - RtoC (1 / 2) * w) * fB w).
Proof. intros H. assert (N := fT0 w H). assert (E := w_T w H). rewrite (fA_T w H), (fB_T w H). unfold cP, mP. unfold pT in E. revert N E. generalize (fT w). intros t N E. rewrite E. clear E H A. revert N. snum. intros N. ffin. Qed.
Lemma cM_AB w : offK w -> cM w = RtoC (1 / 2) * (1 - w * fA w - (1 - RtoC (1 / 2) * w) * fB w).
Proof. intros H. assert (N := fT0 w H). assert (E := w_T w H). rewrite (fA_T w H), (fB_T w H). unfold cM, mM. unfold pT in E. revert N E. generalize (fT w). intros t N E. rewrite E. clear E H A. revert N. snum. intros N. ffin. Qed.
Lemma sum1_code : 4 * fcc_signed_sqrt z * (1 / (r1 * r1 * r1)) = wz z * fA (wz z).
Proof. rewrite fA_code. unfold wz. rewrite <- (ss_sqr (z + 1)) at 4. assert (N := r1_neq). field. exact N. Qed.
Lemma sum2_code : (z - 1) * fcc_signed_sqrt (z - 3) * (1 / (r1 * r1 * r1)) = (1 - RtoC (1 / 2) * wz z) * fB (wz z).
Proof.
  rewrite fB_code. unfold wz. assert (N := r1_neq). assert (S := ss_sqr (z + 1)). set (r := r1) in *. clearbody r. assert (EZ : z = r * r - 1) by (rewrite S; ring). generalize (fcc_signed_sqrt (z - 3)). intros y. rewrite <- S. rewrite EZ. clear - N. revert N. snum. intros N. ffin.
Qed.
Section Core.
Variable ellipk : C -> result C.
Hypothesis HK : computes_K ellipk.
Hypothesis NC : ~ fcc_cut z.
Lemma low_neq : (snd z < 0)%R -> snd (cP (wz z)) <> 0%R.
Proof.
  intros H Z. apply NC. assert (W := wz_low z H). destruct (fT_up _ W) as (P & Q & N). assert (O := up_offK _ W). assert (NT := fT0 _ O). exists (fT (wz z)), (fst (cP (wz z))). split; [exact P|]. split; [exact N|].
  assert (E : cP (wz z) = RtoC (fst (cP (wz z)))) by (apply C_ext; [reflexivity|exact Z]). split; [|split].
  - assert (M := wz_mul z A). rewrite (w_T _ O) in M. fold (wz z) in M. unfold pT in M. set (t := fT (wz z)) in *. clearbody t. transitivity (- ((t * t - 1) * (t * t - 9)) / (4 * (t * t)) * (z + 1) * (4 * (t * t))); [field; split; [exact NT|apply RtoC_neq0; lra]|]. rewrite M. snum. ffin.
  - assert (X := mP_eq _ _ NT E). transitivity (- ((fT (wz z) + 1) * (fT (wz z) + 1) * (fT (wz z) + 1) * (fT (wz z) - 3))); [ring|]. rewrite X. ring.
  - destruct (cP_up _ W) as [X|X]; [contradiction|exact X].
Qed.
Lemma fcc_core_ok (D : R) : (0 < D)%R -> fcc_core ellipk z D = Ok (Fj 0 (wz z) / (RtoC D * (z + 1))).
Proof.
  intros HD. assert (HP := PI_RGT_0). assert (DC : RtoC D <> 0) by (apply RtoC_neq0; lra). assert (NZ := adv_neq z A). assert (NR := r1_neq). assert (O := wz_off z A). unfold fcc_core. rewrite cdiv_ok by (apply Cmult_neq_0; [apply Cmult_neq_0|]; exact NR). cbn [bind].
  rewrite sum1_code, sum2_code, <- cP_AB, <- cM_AB by exact O. assert (PD : RtoC (PI * PI * D) * (z + 1) <> 0) by (apply Cmult_neq_0; [apply RtoC_neq0; apply Rgt_not_eq; apply Rmult_lt_0_compat; nra|exact NZ]).
  assert (PRE : forall a b c, Fj 0 (wz z) = pf * (a * b) -> c = b -> 4 / (RtoC (PI * PI * D) * (z + 1)) * a * c = Fj 0 (wz z) / (RtoC D * (z + 1))).
  { intros a b c -> ->. unfold pf. assert (NP : RtoC PI <> 0) by (apply RtoC_neq0; lra). rewrite (RtoC_div 4) by nra. rewrite !RtoC_mult. field. repeat split; assumption. }
  destruct A as [H|[E H]].
  - assert (W := wz_low z H). assert (Z := low_neq H). assert (OM := cM_up _ W). assert (F := fcc_up _ W). rewrite (ellipk_ok ellipk HK (cP (wz z))) by (left; exact Z). cbn [bind]. destruct (Rlt_dec (snd (cP (wz z))) 0) as [L|L].
    + rewrite cneg_lt by exact L. rewrite (ellipk_ok ellipk HK (1 - cP (wz z))) by (left; generalize (cP (wz z)) Z; intros [a b]; cbn; intros; lra). cbn [bind]. rewrite cdiv_ok by exact PD. cbn [bind]. rewrite (ellipk_ok ellipk HK) by exact OM. cbn [bind]. f_equal. apply (PRE _ _ _ F). symmetry. apply Ef_low, L.
    + rewrite cneg_ge by lra. cbn [bind]. rewrite cdiv_ok by exact PD. cbn [bind]. rewrite (ellipk_ok ellipk HK) by exact OM. cbn [bind]. f_equal. apply (PRE _ _ _ F). symmetry. apply Ef_up. lra.
  - assert (X : z = RtoC (fst z)) by (apply C_ext; [reflexivity|exact E]). destruct (wz_real _ H) as (b & EB & LB). rewrite <- X in EB. destruct (fT_real b LB) as (t & ET & Ht). destruct (real_off t Ht) as (OP & OM & S). rewrite <- ET in OP, OM, S. fold (cP (RtoC b)) in OP, S. fold (cM (RtoC b)) in OM. assert (F := fcc_real b LB). rewrite <- EB in *.
    rewrite (ellipk_ok ellipk HK (cP (wz z))) by exact OP. cbn [bind]. rewrite cneg_ge by lra. cbn [bind]. rewrite cdiv_ok by exact PD. cbn [bind]. rewrite (ellipk_ok ellipk HK) by exact OM. cbn [bind]. f_equal. apply (PRE _ _ _ F). reflexivity.
Qed.
End Core.
End Adv.
Lemma fcc_cut_conj w : fcc_cut (Cconj w) -> fcc_cut w.
Proof.
  intros (T & q & P & N & E1 & E2 & Q). exists (Cconj T), q. split; [destruct T; exact P|]. split; [destruct T; cbn in *; lra|]. split; [|split; [|exact Q]].
  - apply (f_equal Cconj) in E1. destruct T as [x y], w as [a b]. assert (F1 := f_equal fst E1). assert (F2 := f_equal snd E1). cbn in F1, F2. apply C_ext; cbn; lra.
  - apply (f_equal Cconj) in E2. destruct T as [x y]. assert (F1 := f_equal fst E2). assert (F2 := f_equal snd E2). cbn in F1, F2. apply C_ext; cbn; lra.
Qed.
Lemma fcc_avg (D : R) v : (0 < D)%R -> adv v -> is_bz_average3 (fun k => 1 / (RtoC D * v - band3 face_centered (D / 4) k)) (Fj 0 (wz v) / (RtoC D * (v + 1))).
Proof.
  intros HD Av. assert (DC : RtoC D <> 0) by (apply RtoC_neq0; lra). replace (RtoC D * (v + 1)) with (RtoC D * v + RtoC D) by ring. assert (N := adv_neq v Av). apply fcc_red; [exact HD| | |apply wz_off, Av].
  - replace (RtoC D * v + RtoC D) with (RtoC D * (v + 1)) by ring. apply Cmult_neq_0; assumption.
  - replace (RtoC D * v + RtoC D) with (RtoC D * (v + 1)) by ring. assert (M := wz_mul v Av). transitivity (RtoC D * (wz v * (v + 1))); [ring|]. rewrite M. ring.
Qed.
Lemma fcc_average_gen (ellipk : C -> result C) (hb : R) (z : C) : (0 < hb)%R -> snd z <> 0%R \/ (fst z < - (hb / 2))%R \/ (3 / 2 * hb < fst z)%R ->
  (forall v, adv v -> (fcc_cut v -> fcc_cut (z / RtoC (hb / 2))) -> forall D, (0 < D)%R -> fcc_core ellipk v D = Ok (Fj 0 (wz v) / (RtoC D * (v + 1)))) ->
  exists G, fcc_gf_z ellipk z hb = Ok G /\ is_bz_average3 (fun k => 1 / (z - band3 face_centered (hb / 8) k)) G.
Proof.
  intros Hb O CORE. set (D := (hb / 2)%R) in *. assert (HD : (0 < D)%R) by (unfold D; lra). assert (DC : RtoC D <> 0) by (apply RtoC_neq0; lra). replace (hb / 8)%R with (D / 4)%R by (unfold D; field).
  unfold fcc_gf_z. fold D. rewrite rdiv_ok by lra. cbn [bind]. set (w := RtoC (1 / D) * z). assert (Ew : w = z / RtoC D) by (unfold w; rewrite RtoC_div by lra; field; exact DC). rewrite <- Ew in CORE. assert (Ez : z = RtoC D * w) by (rewrite Ew; field; exact DC).
  assert (OW : snd w <> 0%R \/ (fst w < - (1))%R \/ (3 < fst w)%R). { assert (Ef : fst z = (D * fst w)%R /\ snd z = (D * snd w)%R) by (rewrite Ez; split; cbn; ring). destruct Ef as [E1 E2]. rewrite E1, E2 in O. destruct O as [H|[H|H]]; [left|right; left|right; right]; [intros X; apply H; rewrite X; ring| |]; unfold D in *; nra. }
  assert (AVG := fun v => fcc_avg D v HD).
  cbv zeta. clearbody w. destruct (Rlt_dec 0 (snd w)) as [L|L].
  - assert (Av : adv (Cconj w)) by (left; cbn; lra). rewrite (CORE (Cconj w) Av (fcc_cut_conj w) D HD). cbn [bind]. eexists. split; [reflexivity|].
    apply (is_bz3_ext (fun k => Cconj (1 / (RtoC D * Cconj w - band3 face_centered (D / 4) k)))); [|apply is_bz3_conj, AVG, Av]. intros [[k1 k2] k3]. rewrite fcc_band. unfold Cdiv. rewrite Cconj_mul, <- Cconj_inv. replace (Cconj 1) with (RtoC 1) by (apply C_ext; cbn; ring). do 2 f_equal. rewrite Ez. apply C_ext; cbn; ring.
  - assert (Av : adv w). { destruct (Rlt_dec (snd w) 0) as [L'|L']; [left; exact L'|right]. assert (snd w = 0%R) by lra. split; [assumption|]. destruct OW as [X|X]; [contradiction|exact X]. }
    rewrite (CORE w Av (fun X => X) D HD). eexists. split; [reflexivity|]. rewrite Ez. apply AVG, Av.
Qed.
Theorem fcc_average (ellipk : C -> result C) (hb : R) (z : C) : computes_K ellipk -> (0 < hb)%R -> snd z <> 0%R \/ (fst z < - (hb / 2))%R \/ (3 / 2 * hb < fst z)%R -> ~ fcc_cut (z / RtoC (hb / 2)) ->
  exists G, fcc_gf_z ellipk z hb = Ok G /\ is_bz_average3 (fun k => 1 / (z - band3 face_centered (hb / 8) k)) G.
Proof. intros HK Hb O NC. apply fcc_average_gen; [exact Hb|exact O|]. intros v Av X D HD. apply fcc_core_ok; [exact Av|exact HK|intros Y; exact (NC (X Y))|exact HD]. Qed.

(** the cut in terms of one solution T *)
Lemma Czero_prod (x y : C) : x * y = 0 -> x = 0 \/ y = 0.
Proof. intros H. destruct (Ceq_dec x 0) as [X|X]; [now left|]. destruct (Ceq_dec y 0) as [Y|Y]; [now right|]. exfalso. exact (Cmult_neq_0 _ _ X Y H). Qed.
Lemma fcc_cut_T (z T : C) : (0 < fst T)%R -> (3 < nrm T)%R -> (z + 1) * ((T * T - 1) * (9 - T * T)) = 16 * (T * T) -> fcc_cut z -> exists q, (T + 1) * (T + 1) * (T + 1) * (3 - T) = 16 * RtoC q * T /\ (1 < q)%R.
Proof.
  intros P N E (S & q & P' & N' & E' & Q & Hq). fold (nrm S) in N'. assert (NT : T <> 0) by (intros ->; cbn in P; lra). assert (NZ : z + 1 <> 0). { intros X. rewrite X in E. apply (Cmult_neq_0 16 (T * T)); [apply RtoC_neq0; lra|apply Cmult_neq_0; exact NT|]. rewrite <- E. ring. }
  assert (X : (T * T - S * S) * (T * T * (S * S) - 9) = 0).
  { destruct (Ceq_dec ((T * T - S * S) * (T * T * (S * S) - 9)) 0) as [Y|Y]; [exact Y|exfalso]. apply (Cmult_neq_0 _ _ NZ Y). transitivity ((z + 1) * ((S * S - 1) * (9 - S * S)) * (T * T) - (z + 1) * ((T * T - 1) * (9 - T * T)) * (S * S)); [ring|]. rewrite E, E'. ring. }
  apply Czero_prod in X. destruct X as [X|X].
  - assert (Y : (T - S) * (T + S) = 0) by (rewrite <- X; ring). apply Czero_prod in Y. destruct Y as [Y|Y].
    + exists q. assert (T = S) by (apply Csub_0, Y). subst S. split; assumption.
    + exfalso. apply (f_equal fst) in Y. destruct T, S. cbn in *. lra.
  - exfalso. apply Csub_0 in X. apply (f_equal nrm) in X. rewrite !nrm_mul in X. replace (nrm 9) with 81%R in X by (unfold nrm; cbn; ring). set (a := nrm T) in *. set (b := nrm S) in *. assert (9 < a * b)%R by nra. nra.
Qed.

Lemma fT_real3 (a t : R) : (a < 1)%R -> fT (RtoC a) = RtoC t -> (0 < t)%R -> (3 < t * t)%R.
Proof.
  intros H E Ht. unfold fT, fA, fB in E. replace (1 - RtoC (1 / 4) * RtoC a) with (RtoC (1 - 1 / 4 * a)) in E by (rewrite RtoC_minus, RtoC_mult; reflexivity). rewrite <- RtoC_minus, !csqrt_R in E by lra. apply (f_equal fst) in E. cbn in E.
  assert (S1 := sqrt_lt_R0 (1 - a) ltac:(lra)). assert (S2 := sqrt_lt_R0 (1 - 1 / 4 * a) ltac:(lra)). assert (Q1 := sqrt_sqrt (1 - a) ltac:(lra)). assert (Q2 := sqrt_sqrt (1 - 1 / 4 * a) ltac:(lra)). set (u := sqrt (1 - a)) in *. set (v := sqrt (1 - 1 / 4 * a)) in *. assert (0 < u * v)%R by (apply Rmult_lt_0_compat; assumption). replace t with (2 * v + u)%R by lra. nra.
Qed.
Lemma fcc_real_nocut (D x : R) : (0 < D)%R -> (x < - (D / 2) \/ 3 / 2 * D < x)%R -> ~ fcc_cut (RtoC x / RtoC (D / 2)).
Proof.
  intros HD H X. rewrite <- RtoC_div in X by lra. set (y := (x / (D / 2))%R) in *. assert (Hy : (y < - (1) \/ 3 < y)%R). { assert (E : x = (y * (D / 2))%R) by (unfold y; field; lra). rewrite E in H. destruct H as [H|H]; [left|right]; nra. } clearbody y.
  assert (A : adv (RtoC y)) by (right; split; [reflexivity|exact Hy]). destruct (wz_real y Hy) as (b & EB & LB). destruct (fT_real b LB) as (t & ET & Ht). assert (T3 := fT_real3 b t LB ET ltac:(lra)). assert (O := wz_off _ A). assert (NT := fT0 _ O).
  apply (fcc_cut_T _ (RtoC t)) in X; [|cbn; lra|unfold nrm; cbn; lra|].
  - destruct X as (q & E & Hq). apply (f_equal fst) in E. cbn in E. assert (P : (0 < (t - 1) * (t - 1) * (t - 1) * (t + 3))%R) by (repeat apply Rmult_lt_0_compat; lra). assert (16 * t < 16 * q * t)%R by nra. nra.
  - assert (M := wz_mul _ A). rewrite (w_T _ O) in M. fold (wz (RtoC y)) in M. unfold pT in M. rewrite EB, ET in *. transitivity (- ((RtoC t * RtoC t - 1) * (RtoC t * RtoC t - 9)) / (4 * (RtoC t * RtoC t)) * (RtoC y + 1) * (4 * (RtoC t * RtoC t))); [field; split; [exact NT|apply RtoC_neq0; lra]|]. rewrite M. snum. ffin.
Qed.
