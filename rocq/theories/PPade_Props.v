(** * Property C63: polepade.continuation reproduces rational functions; C40: number_poles from the data *)
From Coq Require Import List Arith ZArith Lia Lra Bool Reals Permutation.
From Coquelicot Require Import Complex.
From Verif Require Import Base FSum CBase Linalg_Model Linalg_Proofs Mat Backend NPoles_Model Pole_Model PPade_Lin PPade_Rank PPade_Rat PPade_Spec PPade_Model PPade_Basis PPade_Proofs PPade_Cont PPade_Main PPade_Sat PPade_Refute.
Import ListNotations.
Local Open Scope fld_scope.
Ltac cring := PPade_Basis.cring.

(** The samples of f(x) = c + sum_j r_j/(x - p_j), at distinct points that are neither poles nor zeros, give back f: the
    poles with their residues, the leading coefficient, and both evaluations agree with f everywhere off the poles.  The
    matrix factorizations are only known by their contracts; the argument vandermond by the columns phi.  Missing: a sample at a zero of f (see C63_zero_refuted), a
    single pole of degree -1 (see C63_single_pole_refuted), noise. *)
Theorem C63_continuation_partial : forall phi, graded phi -> forall qr qrr svd eig median (real_close0 : list CF -> bool) solve_triangular lstsq allclose0 tol,
  backend_ok CF Cconj cle qr solve_triangular lstsq allclose0 -> (forall A, qrr_spec CF A (qrr A)) -> (forall M, svd_spec M (svd M)) -> eig_ok eig -> (0 < tol)%R ->
  forall c pr dn weight (z fct : list CF) (rotate : option bool) moms real_asymp,
  let degree := (- Z.of_nat dn)%Z in
  let zr := if match rotate with Some b => b | None => real_close0 z end then map (fun x : CF => x / (Ci : CF)) z else z in
  samples_of c pr dn weight z fct -> median fct <> 0 -> (dn < length pr)%nat ->
  (match weight with None => True | Some w => rsum w <> 0%R end) ->
  (length moms <= length pr)%nat -> (forall j, (j < length moms)%nat -> nth j moms 0 = true_moment pr j) ->
  (real_asymp = true -> Im (amplitude c pr) = 0%R) ->
  (2 * Z.min ((Z.of_nat (length z) - degree) / 2) 50 + degree < Z.of_nat (length z))%Z ->
  (forall n, (0 <= n <= (Z.of_nat (length z) - degree) / 2)%Z -> resolved tol (np_mat phi qrr zr fct weight degree n) (fst (svd (np_mat phi qrr zr fct weight degree n)))) ->
  exists fuel, forall fuel', (fuel <= fuel')%nat -> exists pade,
    continuation phi qr qrr svd eig median real_close0 solve_triangular lstsq allclose0 tol fuel' z fct degree weight moms rotate real_asymp = Ok pade /\
    length (pa_poles pade) = length (pa_residues pade) /\ Permutation (combine (pa_poles pade) (pa_residues pade)) pr /\
    pa_amplitude pade = amplitude c pr /\ length (pa_zeros pade) = (length pr - dn)%nat /\
    (forall i, pa_moments pade (S i) = true_moment pr i) /\
    forall x, ~ In x (map fst pr) -> eval_polefct pade x = Ok (polesum c pr x) /\ eval_zeropole pade x = Ok (polesum c pr x).
Proof.
  intros phi Hphi qr qrr svd eig median real_close0 st lstsq ac tol HB Hqrr Hsvd Heig Htol c pr dn weight z fct rotate moms ra degree zr HS Hmed Hk HW HM HMom HR Hst Hres.
  destruct (continuation_exact phi Hphi qr qrr svd eig median real_close0 st lstsq ac tol HB Hqrr Hsvd Heig Htol c pr dn weight z fct rotate HS Hmed Hk moms ra HW HM HMom HR Hst Hres) as [fuel H].
  exists fuel. intros fuel' Hf. destruct (H fuel' Hf) as (pade & E & L & P & A & Lz & Ev). exists pade. repeat (split; [assumption|]). split; [|exact Ev].
  intros i. unfold pa_moments, moments, true_moment. replace (S i - 1)%nat with i by lia. now apply lsum_perm.
Qed.
Print Assumptions C63_continuation_partial.

(** for such data number_poles finds the number of poles, whatever the weights *)
Theorem C40_exact_data : forall phi, graded phi -> forall qrr svd tol, (forall A, qrr_spec CF A (qrr A)) -> (forall M, svd_spec M (svd M)) -> (0 < tol)%R ->
  forall c pr dn weight z fct n_poles0, let degree := (- Z.of_nat dn)%Z in
  samples_of c pr dn weight z fct ->
  match n_poles0 with None => (2 * Z.min ((Z.of_nat (length z) - degree) / 2) 50 + degree < Z.of_nat (length z))%Z | Some n => (1 <= n /\ 2 * n + degree < Z.of_nat (length z))%Z end ->
  (forall n, (0 <= n <= (Z.of_nat (length z) - degree) / 2)%Z -> resolved tol (np_mat phi qrr z fct weight degree n) (fst (svd (np_mat phi qrr z fct weight degree n)))) ->
  exists fuel, forall fuel', (fuel <= fuel')%nat -> number_poles_data phi qrr svd tol fuel' z fct degree weight n_poles0 = Ok (Z.of_nat (length pr), false).
Proof.
  intros phi Hphi qrr svd tol H1 H2 H3 c pr dn weight z fct n0 degree HS. exact (frame_number c pr dn weight z fct HS phi Hphi qrr svd tol H1 H2 H3 n0).
Qed.
Print Assumptions C40_exact_data.

(** a single pole, f(x) = r/(x-p) with the default degree -1, fails *)
Theorem C63_single_pole_refuted : forall phi, graded phi -> forall qr qrr svd eig median (real_close0 : list CF -> bool) solve_triangular lstsq allclose0 tol,
  backend_ok CF Cconj cle qr solve_triangular lstsq allclose0 -> (forall A, qrr_spec CF A (qrr A)) -> (forall M, svd_spec M (svd M)) -> eig_ok eig -> (0 < tol)%R ->
  forall p r weight (z fct : list CF) moms (rotate : option bool) real_asymp,
  samples_of 0 [(p, r)] 1 weight z fct -> median fct <> 0 ->
  let zr := if match rotate with Some b => b | None => real_close0 z end then map (fun x : CF => x / (Ci : CF)) z else z in
  (2 * Z.min ((Z.of_nat (length z) + 1) / 2) 50 - 1 < Z.of_nat (length z))%Z ->
  (forall n, (0 <= n <= (Z.of_nat (length z) + 1) / 2)%Z -> resolved tol (np_mat phi qrr zr fct weight (-1) n) (fst (svd (np_mat phi qrr zr fct weight (-1) n)))) ->
  exists fuel, forall fuel', (fuel <= fuel')%nat ->
    continuation phi qr qrr svd eig median real_close0 solve_triangular lstsq allclose0 tol fuel' z fct (-1) weight moms rotate real_asymp = Err ValueError.
Proof. intros phi Hphi qr qrr svd eig median real_close0 st lstsq ac tol H H0 H1 H2 H3. exact (single_pole_fails phi Hphi qr qrr svd eig median real_close0 st lstsq ac tol H H0 H1 H2 H3). Qed.
Print Assumptions C63_single_pole_refuted.

(** with the default real_asymp=True a complex leading coefficient is never reproduced *)
Theorem C63_real_asymp_refuted : forall phi qr qrr svd eig median real_close0 solve_triangular lstsq allclose0 tol fuel z fct degree weight moms rotate pade c pr,
  Im (amplitude c pr) <> 0%R ->
  continuation phi qr qrr svd eig median real_close0 solve_triangular lstsq allclose0 tol fuel z fct degree weight moms rotate true = Ok pade -> pa_amplitude pade <> amplitude c pr.
Proof. intros * H E F. apply H. rewrite <- F. exact (real_asymp_real _ _ _ _ _ _ _ _ _ _ _ _ _ _ _ _ _ _ _ E). Qed.
Print Assumptions C63_real_asymp_refuted.

(** a sample at one of the computed zeros: the mean of the ratios is not finite *)
Theorem C63_zero_refuted : forall z fct zrs pls weight x, In x z -> In x zrs -> asymptotic z fct zrs pls weight = Err NonFinite.
Proof. exact asymptotic_at_zero. Qed.
Print Assumptions C63_zero_refuted.

(** the "standard deviation" of asymptotic with weights is a variance *)
Theorem C63_std_refuted : exists z fct w a s a' s', asymptotic z fct [] [] (Some w) = Ok (a, Ok s) /\
  asymptotic z (map (fun x => (1 + 1) * x) fct) [] [] (Some w) = Ok (a', Ok s') /\ (s <> 0)%R /\ a' = (1 + 1) * a /\ (s' = 4 * s)%R.
Proof. exact std_variance. Qed.
Print Assumptions C63_std_refuted.

(** The contract of vandermond holds for the default polyvander and for every system of polynomials with a recurrence of
    three terms: chebvander, legvander, hermvander, hermevander, lagvander. *)
Theorem C63_bases : graded monomial /\ forall (phi : nat -> CF -> CF) (k : CF) (a b c : nat -> CF), k <> 0 -> (forall j, a j <> 0) -> (forall x, phi 0%nat x = k) ->
  (forall x, phi 1%nat x = (a 0%nat * x + b 0%nat) * phi 0%nat x) ->
  (forall j x, phi (S (S j)) x = (a (S j) * x + b (S j)) * phi (S j) x + c j * phi j x) -> graded phi.
Proof. split; [exact graded_monomial|exact graded_three]. Qed.
Print Assumptions C63_bases.
Fixpoint cheb (j : nat) (x : CF) : CF * CF := match j with O => (1, x) | S j => let '(t, u) := cheb j x in (u, (1 + 1) * x * u - t) end.
Example C63_ex_chebyshev : graded (fun j x => fst (cheb j x)).
Proof.
  apply (proj2 C63_bases _ 1 (fun j => if (j =? 0)%nat then 1 else (1 + 1)) (fun _ => 0) (fun _ => - (1))).
  - apply F1_neq_0.
  - intros [|j]; cbn [Nat.eqb]; intros E; apply (f_equal fst) in E; cbn in E; lra.
  - reflexivity.
  - intros x. cbn [cheb fst Nat.eqb]. cring.
  - intros j x. cbn [cheb Nat.eqb]. destruct (cheb j x) as [t u]. cbn [fst]. cring.
Qed.

(** The contracts are met by some factorizations: over the complex numbers every pencil with regular second matrix has a
    triangular form (fundamental theorem of algebra). *)
Theorem C63_backends_exist : exists qr qrr svd eig solve_triangular lstsq allclose0,
  backend_ok CF Cconj cle qr solve_triangular lstsq allclose0 /\ (forall A, qrr_spec CF A (qrr A)) /\ (forall M, svd_spec M (svd M)) /\ eig_ok eig /\
  (forall tol M, (tol * INR (Nat.max (nr M) (nc M)) <= 1)%R -> resolved tol M (fst (svd M))) /\ forall A, fst (qrr A) = A.
Proof. exact backends_exist. Qed.
Print Assumptions C63_backends_exist.
(** The contract of the singular value decomposition follows from the factorization M = U S vh. *)
Theorem C63_svd : forall (M U vh : mat CF) (s : list R),
  length s = Nat.min (nr M) (nc M) -> (forall i, (i < length s)%nat -> (0 <= nth i s 0)%R) -> (forall i j, (i <= j)%nat -> (j < length s)%nat -> (nth j s 0 <= nth i s 0)%R) ->
  nr vh = nc M -> nc vh = nc M -> inj CF (nr M) (me U) -> inj CF (nc M) (me vh) ->
  (forall i j, (i < nr M)%nat -> (j < nc M)%nat -> me M i j = nsum (length s) (fun k => me U i k * (RtoC (nth k s 0%R) : CF) * me vh k j)) ->
  svd_spec M (s, vh).
Proof. exact svd_from_factorization. Qed.
Print Assumptions C63_svd.

(** ** Example: the Green's function of two sites, 1/2/(z-1) + 1/2/(z+1), at the points i, 2i, ..., 8i *)
Definition ex_pr : list (CF * CF) := [((1 : CF), (RtoC (1 / 2) : CF)); ((RtoC (-1) : CF), (RtoC (1 / 2) : CF))].
Definition ex_z : list CF := map (fun j => ((0, INR (S j))%R : CF)) (seq 0 8).
Definition ex_w : list R := [8; 7; 6; 5; 4; 3; 2; 1]%R.
Lemma ex_val (y : R) : (0 < y)%R -> polesum 0 ex_pr ((0, y)%R : CF) = (((0, - y / (y * y + 1))%R) : CF).
Proof.
  intros Hy. assert (0 < y * y)%R by nra. unfold polesum, ex_pr. cbn [map fst snd lsum fold_right].
  apply C_ext; cbn; field; nra.
Qed.
Lemma ex_samples : samples_of 0 ex_pr 1 (Some ex_w) ex_z (map (polesum 0 ex_pr) ex_z).
Proof.
  assert (P : forall x, In x ex_z -> exists y, (0 < y)%R /\ x = ((0, y)%R : CF)).
  { intros x Hx. apply in_map_iff in Hx. destruct Hx as (j & <- & _). exists (INR (S j)). split; [apply lt_0_INR; lia|reflexivity]. }
  constructor.
  - cbn. constructor; [intros [E|[]]; apply (f_equal fst) in E; cbn in E; lra|]. constructor; [intros []|constructor].
  - intros a [<-|[<-|[]]]; intros E; apply (f_equal fst) in E; cbn in E; lra.
  - right. split; [reflexivity|]. split; [reflexivity|]. intros E. apply (f_equal fst) in E. cbn in E. lra.
  - unfold ex_z. apply FinFun.Injective_map_NoDup; [|apply seq_NoDup]. intros a b E. apply (f_equal snd) in E. change (INR (S a) = INR (S b)) in E. apply INR_eq in E. lia.
  - intros x Hx. destruct (P x Hx) as (y & Hy & ->). intros [E|[E|[]]]; apply (f_equal snd) in E; cbn in E; lra.
  - reflexivity.
  - intros x Hx. destruct (P x Hx) as (y & Hy & ->). rewrite ex_val by exact Hy. intros E. apply (f_equal snd) in E. change (- y / (y * y + 1) = 0)%R in E.
    assert (0 < y / (y * y + 1))%R by (apply Rdiv_lt_0_compat; nra). unfold Rdiv in *. lra.
  - split; [reflexivity|]. intros x Hx. unfold ex_w in Hx. repeat (destruct Hx as [<-|Hx]; [lra|]). contradiction.
  - cbn. lia.
Qed.
Example C63_ex : forall phi, graded phi -> exists qr qrr svd eig median real_close0 solve_triangular lstsq allclose0 tol fuel, forall fuel', (fuel <= fuel')%nat -> exists pade,
  continuation phi qr qrr svd eig median real_close0 solve_triangular lstsq allclose0 tol fuel' ex_z (map (polesum 0 ex_pr) ex_z) (-1) (Some ex_w) [1] None true = Ok pade /\
  Permutation (combine (pa_poles pade) (pa_residues pade)) ex_pr /\
  eval_polefct pade ((0, 10)%R : CF) = Ok (((0, - (10 / 101))%R) : CF) /\ eval_zeropole pade ((0, 10)%R : CF) = Ok (((0, - (10 / 101))%R) : CF).
Proof.
  intros phi Hphi. destruct C63_backends_exist as (qr & qrr & svd & eig & tri & lstsq & ac & HB & Hqrr & Hsvd & Heig & Hres & Hfst).
  exists qr, qrr, svd, eig, (fun l => hd 0 l), (fun _ => true), tri, lstsq, ac, (1 / 100)%R.
  destruct (C63_continuation_partial phi Hphi qr qrr svd eig (fun l => hd 0 l) (fun _ => true) tri lstsq ac (1 / 100) HB Hqrr Hsvd Heig ltac:(lra) 0 ex_pr 1 (Some ex_w) ex_z (map (polesum 0 ex_pr) ex_z) None [1] true ex_samples) as [fuel H].
  - unfold ex_z. cbn [seq map hd]. rewrite ex_val by (cbn; lra). intros E. apply (f_equal snd) in E. cbn in E. lra.
  - cbn. lia.
  - cbn. lra.
  - cbn. lia.
  - intros j Hj. cbn [length] in Hj. assert (j = 0%nat) by lia. subst j. apply C_ext; cbn; lra.
  - intros _. unfold amplitude. destruct (Feq_dec (0 : CF) 0) as [_|N]; [cbn; lra|contradiction].
  - cbn. lia.
  - intros n Hn. apply Hres. unfold np_mat, hcat. rewrite !Hfst. unfold rscale. cbn [nr nc].
    assert (X : (n = 0 \/ n = 1 \/ n = 2 \/ n = 3 \/ n = 4)%Z) by (cbn in Hn; lia).
    assert (B : forall k, (k <= 9)%nat -> (1 / 100 * INR k <= 1)%R) by (intros k Hk; apply le_INR in Hk; change (INR 9) with (1+1+1+1+1+1+1+1+1)%R in Hk; lra).
    apply B. destruct X as [-> | [-> | [-> | [-> | -> ]]]]; vm_compute; lia.
  - exists fuel. intros fuel' Hf. destruct (H fuel' Hf) as (pade & E & _ & P & _ & _ & _ & Ev). exists pade. split; [exact E|]. split; [exact P|].
    replace ((0, - (10 / 101))%R : CF) with (polesum 0 ex_pr ((0, 10)%R : CF)) by (rewrite ex_val by lra; f_equal; lra).
    apply Ev. intros [F|[F|[]]]; apply (f_equal snd) in F; cbn in F; lra.
Qed.
