(** * Properties of the Fourier-Padé transforms: C54 *)
From Coq Require Import List Arith ZArith Reals Lia Lra Bool.
From Coquelicot Require Import Coquelicot.
From Verif Require Import Base FSum CBase CExp Herm_Model Herm_Spec Herm_Proofs Herm_Proofs2 HermEval_Model HermEval_Proofs LinPred_Model Fourier_Model
  FourierPade_Model FourierPade_Proofs FourierPade_Main FourierPade_Spur Herm_Gauss.
Import ListNotations.
Local Open Scope R_scope.

(** hermpade.pade with its QR null vector (or Toeplitz solver) meets the contract used below *)
Theorem C54_pade_contract : forall (nullvec : list (list C) -> list C) (solve : list (list C) -> list C -> result (list C)) fast,
  nullvec_ok (K := CF) nullvec -> solve_ok (K := CF) solve -> pade_contract (fun an num den => pade (K := CF) nullvec solve an num den fast).
Proof. intros nullvec solve fast Hn Hs an num den p q H. exact (pade_accurate CF nullvec solve Hn Hs an num den fast p q H). Qed.
Print Assumptions C54_pade_contract.

(** tt2z_pade evaluates, at exp(i z dt), a rational function with the requested asymptotic degree whose Taylor series agrees with the weighted data *)
Theorem C54_pade_rational : forall close pade_fn tt gf_t z degree quad v, pade_contract pade_fn -> tt2z_pade close pade_fn tt gf_t z degree quad = Ok v ->
  nth 0 tt 0 = 0 /\ (2 <= length tt)%nat /\ length gf_t = length tt /\ quad <> QOther /\
  exists w p q num den, (Z.of_nat num = Z.of_nat den + degree + 1)%Z /\ (length tt - 1 <= num + den + 1 <= length tt)%nat /\
    length w = length tt /\ (forall j, (j < length tt)%nat -> nth j w (RtoC 0) = Cmult (RtoC (open_weight quad (nth 1 tt 0) j)) (nth j gf_t (RtoC 0))) /\
    length p = S num /\ length q = S den /\ nonzero (K := CF) q /\ accurate (K := CF) p q w (num + den + 1) /\
    cpoly q (yarg z (nth 1 tt 0)) <> RtoC 0 /\ v = Cdiv (cpoly p (yarg z (nth 1 tt 0))) (cpoly q (yarg z (nth 1 tt 0))).
Proof. exact tt2z_pade_spec. Qed.
Print Assumptions C54_pade_rational.

(** a sum of n exponentials sampled at enough points: the infinite quadrature sum, above all energies *)
Theorem C54_pade_exact : forall close pade_fn terms delta N z degree quad v, pade_contract pade_fn -> quad <> QOther -> 0 < delta -> (forall ce, In ce terms -> snd (snd ce) < snd z) ->
  (2 * Z.of_nat (n_exp quad terms) + Z.abs (degree + 1) + 1 <= Z.of_nat N)%Z ->
  tt2z_pade close pade_fn (grid delta N) (samples terms delta N) z degree quad = Ok v ->
  is_lim_seq (fun M => Cmod (Cminus (nsum (K := CF) M (fun j => Cmult (RtoC (open_weight quad delta j)) (Cmult (signal terms (INR j * delta)) (cexp (Cmult (Cmult Ci z) (RtoC (INR j * delta))))))) v)) 0.
Proof.
  intros close pade_fn terms delta N z degree quad v HC Hq Hd H HN E.
  rewrite (tt2z_pade_exact close pade_fn terms delta N z degree quad v HC (upper_off quad delta terms z Hd H) HN E). now apply laplace_val_limit.
Qed.
Print Assumptions C54_pade_exact.
(** ... and its analytic continuation everywhere else *)
Theorem C54_pade_exact_continued : forall close pade_fn terms delta N z degree v, pade_contract pade_fn ->
  (forall ce, In ce terms -> cexp (Cmult (Cmult Ci (Cminus z (snd ce))) (RtoC delta)) <> RtoC 1) ->
  (2 * Z.of_nat (length terms) + Z.abs (degree + 1) + 1 <= Z.of_nat N)%Z ->
  tt2z_pade close pade_fn (grid delta N) (samples terms delta N) z degree QTrapz = Ok v ->
  v = Cmult (RtoC delta) (lsum (K := CF) (map (fun ce => Cminus (Cdiv (fst ce) (Cminus (RtoC 1) (cexp (Cmult (Cmult Ci (Cminus z (snd ce))) (RtoC delta))))) (Cdiv (fst ce) (RtoC 2))) terms)).
Proof.
  intros close pade_fn terms delta N z degree v HC H HN E. rewrite <- laplace_val_trapz. apply (tt2z_pade_exact close pade_fn terms delta N z degree QTrapz v HC); [|exact HN|exact E].
  intros ce Hce. split; [rewrite step_y; now apply H|discriminate].
Qed.
Print Assumptions C54_pade_exact_continued.
(** with 2n+1 or 2n+2 samples of n distinct exponentials the approximant has no spurious pole *)
Theorem C54_pade_resolves : forall close pade_fn terms delta N z quad, pade_contract pade_fn ->
  (forall an num den, (num + den + 1 <= length an)%nat -> exists p q, pade_fn an num den = Ok (p, q)) -> (forall x, close x x = true) ->
  quad <> QOther -> 0 < delta -> (forall ce, In ce terms -> snd (snd ce) < snd z) -> (1 <= n_exp quad terms)%nat -> (2 * n_exp quad terms + 1 <= N <= 2 * n_exp quad terms + 2)%nat ->
  separated quad delta terms ->
  exists v, tt2z_pade close pade_fn (grid delta N) (samples terms delta N) z (-1) quad = Ok v.
Proof.
  intros close pade_fn terms delta N z quad HC HT Hcl Hq Hd H Hn HN Hs. eexists. apply tt2z_pade_resolves; try assumption. now apply upper_off.
Qed.
Print Assumptions C54_pade_resolves.

(** With more samples there are at most (N - degree - 2)/2 values of exp(i z dt) at which the transform fails; everywhere else
    it is the infinite quadrature sum. *)
Theorem C54_pade_exceptions : forall close pade_fn terms delta N degree quad, pade_contract pade_fn ->
  (forall an num den, (num + den + 1 <= length an)%nat -> exists p q, pade_fn an num den = Ok (p, q)) -> (forall x, close x x = true) ->
  quad <> QOther -> 0 < delta -> (2 <= N)%nat -> (2 * Z.of_nat (n_exp quad terms) + Z.abs (degree + 1) + 1 <= Z.of_nat N)%Z ->
  exists exc : list C, (2 * Z.of_nat (length exc) + degree + 2 <= Z.of_nat N)%Z /\
    forall z, (forall ce, In ce terms -> snd (snd ce) < snd z) -> ~ In (cexp (Cmult (Cmult Ci z) (RtoC delta))) exc ->
    exists v, tt2z_pade close pade_fn (grid delta N) (samples terms delta N) z degree quad = Ok v /\
      is_lim_seq (fun M => Cmod (Cminus (nsum (K := CF) M (fun j => Cmult (RtoC (open_weight quad delta j)) (Cmult (signal terms (INR j * delta)) (cexp (Cmult (Cmult Ci z) (RtoC (INR j * delta))))))) v)) 0.
Proof.
  intros close pade_fn terms delta N degree quad HC HT Hcl Hq Hd HN2 HN.
  destruct (tt2z_pade_total close Hcl pade_fn delta N (samples terms delta N) degree quad HC HT Hq HN2) as (exc & L & H); [apply samples_len|lia|].
  exists exc. split; [exact L|]. intros z Hz Hy. destruct (H z Hy) as (v & E). exists v. split; [exact E|]. exact (C54_pade_exact close pade_fn terms delta N z degree quad v HC Hq Hd Hz HN E).
Qed.
Print Assumptions C54_pade_exceptions.

(** Such failures occur above the real axis: five samples of the constant signal, with the null vector that a Householder QR
    of the (rank deficient) 3 x 2 matrix of ones gives. *)
Theorem C54_pade_spurious_refuted : exists (nullvec : list (list C) -> list C) z, nullvec_ok (K := CF) nullvec /\ 0 < snd z /\
  (exists Q Rm : nat -> nat -> R,
    (forall i j, (i < 3)%nat -> (j < 3)%nat -> Q 0%nat i * Q 0%nat j + Q 1%nat i * Q 1%nat j + Q 2%nat i * Q 2%nat j = if (i =? j)%nat then 1 else 0) /\
    (forall i j, (i < 3)%nat -> (j < 2)%nat -> Q i 0%nat * Rm 0%nat j + Q i 1%nat * Rm 1%nat j + Q i 2%nat * Rm 2%nat j = 1) /\
    (forall i j, (i < 3)%nat -> (j < i)%nat -> Rm i j = 0) /\
    nullvec [[RtoC 1; RtoC 1; RtoC 1]; [RtoC 1; RtoC 1; RtoC 1]] = [RtoC (Q 0%nat 2%nat); RtoC (Q 1%nat 2%nat); RtoC (Q 2%nat 2%nat)]) /\
  forall close solve, (forall x, close x x = true) ->
    tt2z_pade close (fun an num den => pade (K := CF) nullvec solve an num den false) (grid 1 5) (samples [(RtoC 1, RtoC 0)] 1 5) z (-1) QTrapz = Err NonFinite.
Proof. exists house, zs. split; [exact house_ok|]. split; [exact zs_upper|]. split; [exact house_qr|]. intros close solve. exact (spurious close solve). Qed.
Print Assumptions C54_pade_spurious_refuted.

(** linear prediction: exact as soon as the order exceeds the number of exponentials *)
Theorem C54_lpz_exact : forall close lstsq terms delta N z order quad v, lstsq_ok (K := CF) lstsq -> quad <> QOther -> 0 < delta -> (forall ce, In ce terms -> snd (snd ce) < snd z) ->
  let o := match order with None => (N / 2)%nat | Some o => o end in
  (n_exp quad terms + 1 <= o)%nat -> (o + n_exp quad terms + 1 <= N)%nat ->
  tt2z_lpz close lstsq (grid delta N) (samples terms delta N) z order quad = Ok v ->
  is_lim_seq (fun M => Cmod (Cminus (nsum (K := CF) M (fun j => Cmult (RtoC (open_weight quad delta j)) (Cmult (signal terms (INR j * delta)) (cexp (Cmult (Cmult Ci z) (RtoC (INR j * delta))))))) v)) 0.
Proof.
  intros close lstsq terms delta N z order quad v Hls Hq Hd H o H1 H2 E.
  rewrite (tt2z_lpz_exact close lstsq terms delta N z order quad v Hls (upper_off quad delta terms z Hd H) H1 H2 E). now apply laplace_val_limit.
Qed.
Print Assumptions C54_lpz_exact.

(** square approximant: the value solves the quadratic equation whose coefficients match the weighted data *)
Theorem C54_herm2_quadratic : forall close (nullvec : list (list C) -> list C) (solve : list (list C) -> list C -> result (list C)) tt gf_t z quad v,
  nullvec_ok (K := CF) nullvec -> solve_ok (K := CF) solve ->
  tt2z_herm2 close (from_taylor (K := CF) nullvec solve) tt gf_t z quad = Ok v ->
  nth 0 tt 0 = 0 /\ 0 < snd z /\ quad <> QOther /\
  exists w p q r deg, (length gf_t = 3 * deg + 2 \/ length gf_t = 3 * deg + 3 \/ length gf_t = 3 * deg + 4)%nat /\
    length w = length gf_t /\ (forall j, (j < length gf_t)%nat -> nth j w (RtoC 0) = Cmult (RtoC (open_weight quad (nth 1 tt 0) j)) (nth j gf_t (RtoC 0))) /\
    length p = S deg /\ length q = S deg /\ length r = S deg /\ (nonzero (K := CF) q \/ nonzero (K := CF) r) /\ accurate2 (K := CF) p q r w (3 * deg + 2) /\
    HermEval_Proofs.quad p q r (yarg z (nth 1 tt 0)) v.
Proof. exact tt2z_herm2_spec. Qed.
Print Assumptions C54_herm2_quadratic.

(** tt2z_lpz accepts grids not starting at zero (tt2z_pade asserts on them), but its result has lost the phase exp(i z tt[0]): it differs
    from the quadrature sum of the data even when the prediction is exact *)
Theorem C54_lpz_start_refuted : exists tt gf_t z, 
  (forall close lstsq, (forall x, close x x = true) -> lstsq_ok (K := CF) lstsq -> tt2z_lpz close lstsq tt gf_t z (Some 1%nat) QTrapz = Ok (RtoC 1)) /\
  (forall j, (1 <= j)%nat -> nth j gf_t (RtoC 0) = RtoC 0) /\
  nsum (K := CF) 3 (fun j => Cmult (RtoC (open_weight QTrapz 1 j)) (Cmult (nth j gf_t (RtoC 0)) (cexp (Cmult (Cmult Ci z) (RtoC (nth j tt 0)))))) = RtoC (-1).
Proof.
  exists [1; 2; 3], [RtoC 2; RtoC 0; RtoC 0], (RtoC PI).
  assert (EP : cexp (Cmult (Cmult Ci (RtoC PI)) (RtoC 1)) = RtoC (-1)).
  { replace (Cmult (Cmult Ci (RtoC PI)) (RtoC 1)) with (0, PI) by (apply C_ext; cbn; ring). unfold cexp. cbn [fst snd]. rewrite exp_0, cos_PI, sin_PI. apply C_ext; cbn; ring. }
  split; [|split].
  - intros close lstsq Hcl Hls.
    assert (EE : equidistant close [1; 2; 3] = true).
    { unfold equidistant, diff. cbn [length Nat.sub seq map nth forallb]. replace (3 - 2) with (2 - 1) by ring. now rewrite Hcl. }
    unfold tt2z_lpz. change (length [1; 2; 3] <? 2)%nat with false. cbv iota zeta. rewrite EE. cbn [negb].
    change (nth 1 [1; 2; 3] 0) with 2. change (nth 0 [1; 2; 3] 0) with 1. replace (2 - 1) with 1 by ring.
    destruct (quad_weight_total QTrapz 1 [RtoC 2; RtoC 0; RtoC 0]) as (w & EW); [discriminate|discriminate|]. rewrite EW. cbn [bind].
    destruct (quad_weight_ok _ _ _ _ EW) as (_ & Lw & Hw).
    assert (E0 : nth 0 w (RtoC 0) = RtoC 1) by (rewrite (Hw 0%nat) by (cbn; lia); apply C_ext; cbn; field).
    assert (E1 : nth 1 w (RtoC 0) = RtoC 0) by (rewrite (Hw 1%nat) by (cbn; lia); apply C_ext; cbn; ring).
    assert (E2 : nth 2 w (RtoC 0) = RtoC 0) by (rewrite (Hw 2%nat) by (cbn; lia); apply C_ext; cbn; ring).
    clear EW Hw. destruct w as [|w0 [|w1 [|w2 [|? ?]]]]; try discriminate Lw. cbn [nth] in E0, E1, E2. subst w0 w1 w2.
    destruct (pcoeff_covar (K := CF) lstsq [RtoC 1; RtoC 0; RtoC 0] 1) as [[coeff res]|] eqn:EC; [|discriminate EC]. cbn [bind fst].
    destruct (covar_consistent (K := CF) lstsq Hls [RtoC 1; RtoC 0; RtoC 0] 1 coeff res (fun k => nth k [RtoC 1; RtoC 0; RtoC 0] (RtoC 0)) [] ltac:(lia) EC) as [Lc HR].
    { intros i Hi. reflexivity. }
    { cbn. lia. }
    { intros k Hk1 Hk2. cbn in Hk2. destruct k as [|[|[|k]]]; try lia; apply C_ext; cbn; ring. }
    specialize (HR 1%nat ltac:(lia) ltac:(cbn; lia)). destruct coeff as [|c [|? ?]]; try discriminate Lc.
    assert (Ec : c = RtoC 0). { refine (eq_trans _ HR). apply C_ext; cbn; ring. }
    rewrite Ec. change (length [1; 2; 3] <? 1 + 1)%nat with false. cbv iota. cbn [seq map nsum nth Nat.add Nat.sub]. unfold tphase. rewrite EP.
    change (@F0 CF) with (RtoC 0). change (@Fadd CF) with Cplus.
    set (e2 := cexp _).
    destruct (Ceq_dec _ _) as [E|_].
    + exfalso. assert (HH : RtoC (-1) = RtoC 0). { refine (eq_trans _ E). ring. } injection HH. intros HH'. lra.
    + cbn [length Nat.ltb Nat.leb]. match goal with |- Ok ?a = _ => assert (EA : a = RtoC 1); [|exact (f_equal (fun x : C => Ok x) EA)] end. transitivity (Cdiv (RtoC (-1)) (RtoC (-1))); [f_equal; ring|]. unfold Cdiv. apply Cinv_r. intros HH. injection HH. intros HH'. lra.
  - intros [|[|[|[|j]]]] Hj; try reflexivity. lia.
  - cbn [nsum nth]. unfold open_weight. cbn [Nat.eqb]. rewrite EP. apply C_ext; cbn; field.
Qed.
Print Assumptions C54_lpz_start_refuted.

(** one exponential exp(-i eps t) = 1 sampled three times, frequency z = i: 1/(1 - 1/e) - 1/2 *)
Example C54_example : tt2z_pade (fun x y => if Req_EM_T x y then true else false) (fun an num den => pade (K := CF) gauss_nullvec gauss_solve an num den false)
    (grid 1 3) (samples [(RtoC 1, RtoC 0)] 1 3) Ci (-1) QTrapz = Ok (RtoC (1 / (1 - exp (-1)) - 1 / 2)) /\
  samples [(RtoC 1, RtoC 0)] 1 3 = [RtoC 1; RtoC 1; RtoC 1].
Proof.
  assert (S0 : forall t, signal [(RtoC 1, RtoC 0)] t = RtoC 1).
  { intros t. unfold signal. cbn [map fst snd lsum fold_right]. replace (Copp (Cmult (Cmult Ci (RtoC 0)) (RtoC t))) with (RtoC 0) by (apply C_ext; cbn; ring). rewrite cexp_0. apply C_ext; cbn; ring. }
  split; [|unfold samples; cbn [seq map]; now rewrite !S0].
  rewrite (tt2z_pade_resolves (fun x y => if Req_EM_T x y then true else false)).
  - f_equal. rewrite laplace_val_trapz. cbn [map fst snd lsum fold_right].
    replace (Cmult (Cmult Ci (Cminus Ci (RtoC 0))) (RtoC 1)) with (RtoC (-1)) by (apply C_ext; cbn; ring). rewrite cexp_R.
    assert (H : 1 - exp (-1) <> 0). { assert (exp (-1) < exp 0) by (apply exp_increasing; lra). rewrite exp_0 in *. lra. }
    rewrite <- RtoC_minus, <- !RtoC_div by (assumption || lra). rewrite <- RtoC_minus. apply C_ext; cbn; ring.
  - apply C54_pade_contract; [apply gauss_nullvec_ok|apply gauss_solve_ok].
  - intros an num den H. exact (pade_total CF gauss_nullvec gauss_solve gauss_nullvec_ok an num den H).
  - intros x. destruct (Req_EM_T x x); congruence.
  - discriminate.
  - cbn. lia.
  - cbn. lia.
  - split; [lra|]. split; [|split].
    + intros ce [<-|[]]. cbn. intros E. injection E. lra.
    + constructor; [easy|constructor].
    + discriminate.
  - apply upper_off; [lra|]. intros ce [<-|[]]. cbn. lra.
Qed.
