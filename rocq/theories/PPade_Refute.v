(** * Where the pole based Padé continuation does not do what one expects *)
From Coq Require Import List Arith ZArith Lia Lra Bool Reals Field Permutation.
From Coquelicot Require Import Complex.
From Verif Require Import Base FSum CBase LinPred_Burg Herm_Model Herm_Spec Herm_Proofs Herm_Gauss Pade_Spec PadeKind_Proofs Linalg_Model Linalg_Proofs Mat Cauchy Backend
  NPoles_Model NPoles_Proofs Rat_Model Pole_Model PPade_Lin PPade_Rank PPade_Rat PPade_Spec PPade_Model PPade_Basis PPade_Proofs PPade_Cont PPade_Main PPade_Sat.
Import ListNotations.
Local Open Scope fld_scope.
Ltac cring := PPade_Basis.cring.

Section G.
Variable K : Fld.
Add Field KFpf : (Fth K).
Lemma gone : 1 / 1 * 1 / 1 = (1 : K).
Proof. field. apply F1_neq_0. Qed.
End G.

Section One.
Variable phi : nat -> CF -> CF.
Hypothesis Hphi : graded phi.
Variables (qr qrr : mat CF -> mat CF * mat CF) (svd : mat CF -> list R * mat CF) (eig : mat CF -> mat CF -> list CF) (median : list CF -> CF) (real_close0 : list CF -> bool)
  (solve_triangular : mat CF -> list CF -> result (list CF)) (lstsq : mat CF -> list CF -> list CF * list CF) (allclose0 : list CF -> bool) (tol : R).
Hypothesis HB : backend_ok CF Cconj cle qr solve_triangular lstsq allclose0.
Hypothesis Hqrr : forall A, qrr_spec CF A (qrr A).
Hypothesis Hsvd : forall M, svd_spec M (svd M).
Hypothesis Heig : eig_ok eig.
Hypothesis Htol : (0 < tol)%R.
Notation continuation := (continuation phi qr qrr svd eig median real_close0 solve_triangular lstsq allclose0 tol).

Lemma frame_one c pr weight z fct : samples_of c pr 1 weight z fct -> length pr = 1%nat -> median fct <> 0 ->
  exists pls, poles phi qr qrr svd eig median z fct (Some (Z.of_nat 1 + - Z.of_nat 1)%Z) 1 weight = Ok pls /\
  zeros phi qr qrr svd eig median z fct pls (Some (Z.of_nat 1 + - Z.of_nat 1)%Z) weight = Err ValueError.
Proof.
  intros HS L1 Hm. assert (Hqr : forall A, qr_spec CF Cconj A (qr A)) by apply HB. destruct (amp_lead c pr 1 weight z fct HS) as (Ha & Ha0 & Hk & Hdn).
  destruct (poles_exact phi Hphi (length pr) (length pr - 1) 1 (pp CF pr) (qc CF pr) (bc CF pr c) z fct weight Hdn Hk (pp_distinct CF pr (so_nodup _ _ _ _ _ _ HS)) (q_prod pr) (qc_lead CF pr)
    (p_numer _ _ _ _ _ _ HS) (z_distinct _ _ _ _ _ _ HS) (z_off _ _ _ _ _ _ HS) (fct_length _ _ _ _ _ _ HS) (f_data _ _ _ _ _ _ HS) (f_neq0 _ _ _ _ _ _ HS) (w_neq0 _ _ _ _ _ _ HS) (so_n _ _ _ _ _ _ HS) qr qrr svd eig median Hqr Hqrr Hsvd Heig Hm ltac:(lia)) as (pls & P1 & _ & _).
  rewrite L1 in P1. exists pls. split; [exact P1|]. unfold zeros, feqb. destruct (Feq_dec (median fct) 0); [contradiction|]. reflexivity.
Qed.

Theorem single_pole_fails p r weight z fct moms rotate real_asymp :
  samples_of 0 [(p, r)] 1 weight z fct -> median fct <> 0 ->
  let zr := if match rotate with Some b => b | None => real_close0 z end then map (fun x : CF => x / (Ci : CF)) z else z in
  (2 * Z.min ((Z.of_nat (length z) + 1) / 2) 50 - 1 < Z.of_nat (length z))%Z ->
  (forall n, (0 <= n <= (Z.of_nat (length z) + 1) / 2)%Z -> resolved tol (np_mat phi qrr zr fct weight (-1) n) (fst (svd (np_mat phi qrr zr fct weight (-1) n)))) ->
  exists fuel, forall fuel', (fuel <= fuel')%nat -> continuation fuel' z fct (-1) weight moms rotate real_asymp = Err ValueError.
Proof.
  intros HS Hm zr Hst Hres.
  assert (exists pr', samples_of 0 pr' 1 weight zr fct /\ length pr' = 1%nat) as (pr' & HS' & L').
  { unfold zr. destruct (match rotate with Some b => b | None => real_close0 z end); [exists (rot_pr (Ci : CF) [(p, r)]); split; [apply samples_rot; [exact Ci_neq0|exact HS]|reflexivity]|exists [(p, r)]; split; [exact HS|reflexivity]]. }
  assert (Lz : length zr = length z) by (unfold zr; destruct (match rotate with Some b => b | None => real_close0 z end); [apply map_length|reflexivity]).
  destruct (frame_number 0 pr' 1 weight zr fct HS' phi Hphi qrr svd tol Hqrr Hsvd Htol None) as [fuel Hf].
  { rewrite Lz. change (- Z.of_nat 1)%Z with (-1)%Z. unfold Z.sub. change (- -1)%Z with 1%Z. lia. }
  { rewrite Lz. exact Hres. }
  exists fuel. intros fuel' Hle. specialize (Hf fuel' Hle). rewrite L' in Hf. destruct (frame_one 0 pr' weight zr fct HS' L' Hm) as (pls & P & Z).
  unfold PPade_Model.continuation. cbn [Z.ltb Z.compare]. fold zr. change (number_poles_data phi qrr svd tol fuel' zr fct (-1) weight None = Ok (1%Z, false)) in Hf. rewrite Hf. cbn [bind fst].
  change (Z.to_nat 1) with 1%nat. change (1 + -1)%Z with (Z.of_nat 1 + - Z.of_nat 1)%Z. rewrite P. cbn [bind]. rewrite Z. reflexivity.
Qed.

(** the default real_asymp=True: the amplitude is real whatever the data *)
Theorem real_asymp_real fuel z fct degree weight moms rotate pade :
  continuation fuel z fct degree weight moms rotate true = Ok pade -> Im (pa_amplitude pade) = 0%R.
Proof.
  unfold PPade_Model.continuation. destruct (0 <? degree)%Z; [discriminate|].
  destruct (number_poles_data _ _ _ _ _ _ _ _ _ _) as [m|]; [|discriminate]. cbn [bind].
  destruct (poles _ _ _ _ _ _ _ _ _ _ _) as [pls|]; [|discriminate]. cbn [bind].
  destruct (zeros _ _ _ _ _ _ _ _ _ _ _) as [zrs|]; [|discriminate]. cbn [bind].
  destruct (asymptotic _ _ _ _ _) as [a|]; [|discriminate]. cbn [bind].
  destruct (residues_ols _ _ _ _ _ _ _ _ _) as [r|]; [|discriminate]. cbn [bind].
  intros E. injection E as <-. reflexivity.
Qed.
End One.

(** a data point at a computed zero: no asymptotic *)
Theorem asymptotic_at_zero z fct zrs pls weight x : In x z -> In x zrs -> asymptotic z fct zrs pls weight = Err NonFinite.
Proof.
  intros Hz H0. unfold asymptotic. assert (E : sequence (map (zp_reciprocal (ZeroPole zrs pls 1)) z) = Err NonFinite).
  { induction z as [|y z IH]; [contradiction|]. cbn [map sequence].
    assert (Hy : In y zrs -> zp_reciprocal (ZeroPole zrs pls 1) y = Err NonFinite).
    { intros Hy. unfold zp_reciprocal, fdiv. cbn [zp_poles zp_zeros zp_amplitude]. destruct (Feq_dec (1 : CF) 0) as [F|F]; [contradiction (F1_neq_0 CF)|]. cbn [bind].
      destruct (Feq_dec (prod (map (fun x0 => y - x0) zrs)) 0) as [_|N]; [reflexivity|]. exfalso. apply N. rewrite prod_prodsub. now apply (prodsub_eq0 CF). }
    destruct Hz as [->|Hz]; [rewrite (Hy H0); reflexivity|].
    destruct (zp_reciprocal (ZeroPole zrs pls 1) y) as [v|e] eqn:Ey; cbn [bind]; [now rewrite (IH Hz)|].
    unfold zp_reciprocal, fdiv in Ey. cbn [zp_poles zp_zeros zp_amplitude] in Ey. destruct (Feq_dec (1 : CF) 0) as [F|F]; [contradiction (F1_neq_0 CF)|]. cbn [bind] in Ey. destruct (Feq_dec _ 0) in Ey; [now injection Ey as <-|discriminate]. }
  rewrite E. reflexivity.
Qed.

(** the weighted "standard deviation" is a variance: doubling the data quadruples it *)
Theorem std_variance : exists z fct w a s a' s', asymptotic z fct [] [] (Some w) = Ok (a, Ok s) /\ asymptotic z (map (fun x => (1 + 1) * x) fct) [] [] (Some w) = Ok (a', Ok s') /\
  (s <> 0)%R /\ a' = (1 + 1) * a /\ (s' = 4 * s)%R.
Proof.
  exists [0; 1], [1; 0 - 1], [1%R; 1%R], 0, 1%R, 0, 4%R.
  assert (Q : forall x : CF, zp_reciprocal (ZeroPole [] [] 1) x = Ok 1).
  { intros x. unfold zp_reciprocal, fdiv. cbn [zp_poles zp_zeros zp_amplitude map prod fold_right]. destruct (Feq_dec (1 : CF) 0) as [F|F]; [contradiction (F1_neq_0 CF)|]. cbn [bind].
    f_equal. apply gone. }
  assert (G : forall a b : R, asymptotic [0; 1] [RtoC a : CF; RtoC b : CF] [] [] (Some [1%R; 1%R]) = Ok ((RtoC ((a + b) / 2) : CF), Ok (((a - b) / 2) * ((a - b) / 2))%R)).
  { intros a b. unfold asymptotic. cbn [map]. rewrite !Q. cbn [sequence bind]. unfold vmul. cbn [combine map fst snd rsum fold_right].
    destruct (Req_EM_T (1 + (1 + 0)) 0) as [F|_]; [lra|].
    assert (A : forall x y : R, lsum (K := CF) [(RtoC x : CF) * 1 * (RtoC 1 : CF); (RtoC y : CF) * 1 * (RtoC 1 : CF)] / (RtoC (1 + (1 + 0)) : CF) = (RtoC ((x + y) / 2) : CF)).
    { intros x y. assert (N : (RtoC (1 + (1 + 0)) : CF) <> 0) by (intros E; apply (f_equal fst) in E; cbn in E; lra).
      apply (fmul_cancel_l CF (RtoC (1 + (1 + 0)) : CF) _ _ N). rewrite (gmul_div CF _ _ N). apply C_ext; cbn; field. }
    rewrite A. f_equal. f_equal. f_equal.
    assert (Md : forall x y : R, Cmod ((RtoC x : CF) * 1 - (RtoC ((x + y) / 2) : CF)) = Rabs ((x - y) / 2)).
    { intros x y. rewrite <- Cmod_R. f_equal. apply C_ext; cbn; field. }
    assert (Md' : forall x y : R, Cmod ((RtoC y : CF) * 1 - (RtoC ((x + y) / 2) : CF)) = Rabs ((x - y) / 2)).
    { intros x y. replace ((x + y) / 2)%R with ((y + x) / 2)%R by lra. rewrite Md. replace ((x - y) / 2)%R with (- ((y - x) / 2))%R by lra. now rewrite Rabs_Ropp. }
    rewrite Md, Md'. assert (S := Rsqr_abs ((a - b) / 2)). unfold Rsqr in S. rewrite <- S. field. }
  assert (E1 : ([1; 0 - 1] : list CF) = [RtoC 1 : CF; RtoC (-1) : CF]) by (f_equal; f_equal; apply C_ext; cbn; lra).
  assert (E2 : map (fun x => (1 + 1) * x) ([1; 0 - 1] : list CF) = [RtoC 2 : CF; RtoC (-2) : CF]) by (cbn [map]; f_equal; [|f_equal]; apply C_ext; cbn; lra).
  rewrite E2, E1, !G. split; [|split; [|split; [lra|split; [cring|lra]]]]; f_equal; f_equal; try (f_equal; lra); apply C_ext; cbn; lra.
Qed.
