(** * residues_ols: constrained least squares and the returned residual *)
From Coq Require Import List Arith ZArith Lia Lra Bool Reals Field.
From Coquelicot Require Import Complex.
From Verif Require Import Base FSum CBase LinPred_Burg Herm_Model Herm_Spec Herm_Proofs Herm_Gauss Pade_Spec PadeKind_Proofs Linalg_Model Linalg_Proofs Mat Cauchy Backend
  NPoles_Model NPoles_Proofs Rat_Model Pole_Model PPade_Lin PPade_Rank PPade_Rat PPade_Spec PPade_Model PPade_Basis PPade_Proofs PPade_Cont PResid_Spec.
Import ListNotations.
Local Open Scope fld_scope.
Ltac cring := PPade_Basis.cring.

Definition sumsq (u : list C) : R := fold_right (fun d s => (Cmod d * Cmod d + s)%R) 0%R u.
Lemma rsum_sumsq (u : list C) : rsum (map (fun d : C => (Cmod d * Cmod d)%R) u) = sumsq u.
Proof. induction u as [|a u IH]; [reflexivity|]. cbn [map]. unfold rsum, sumsq in *. cbn [fold_right]. now rewrite IH. Qed.
Lemma sumsq_nsum (u : list C) : sumsq u = nsum (K := RF) (length u) (fun i => (Cmod (nth i u (RtoC 0)) * Cmod (nth i u (RtoC 0)))%R).
Proof.
  induction u as [|a u IH]; [reflexivity|]. unfold sumsq in *. cbn [fold_right length]. rewrite IH, (nsum_S_l RF). reflexivity.
Qed.
Lemma sumsq_nonneg u : (0 <= sumsq u)%R.
Proof. induction u as [|a u IH]; [apply Rle_refl|]. unfold sumsq in *. cbn [fold_right]. assert (X := Rle_0_sqr (Cmod a)). unfold Rsqr in X. lra. Qed.

Section Res.
Variables (qr : mat CF -> mat CF * mat CF) (solve_triangular : mat CF -> list CF -> result (list CF)) (lstsq : mat CF -> list CF -> list CF * list CF) (allclose0 : list CF -> bool).
Hypothesis HB : backend_ok CF Cconj cle qr solve_triangular lstsq allclose0.
Variables (z f p : list CF) (weight : option (list R)).
Hypothesis Hoff : forall x, In x z -> ~ In x p.
Let N := length z.
Let k := length p.
Let A := Mat N k (fun i j => (1 / (nth i z 0 - nth j p 0) : CF) * RtoC (wgt weight i)) : mat CF.
Let rhs := map (fun i => nth i f 0 * RtoC (wgt weight i)) (seq 0 N) : list CF.

Lemma off_test : existsb (fun x => existsb (fun p => feqb (x - p) 0) p) z = false.
Proof.
  apply not_true_is_false. intros E. apply existsb_exists in E. destruct E as (x & Hx & E). apply existsb_exists in E. destruct E as (q & Hq & E). unfold feqb in E. destruct (Feq_dec (x - q) 0) as [F|F]; [|discriminate].
  rewrite (fsub_eq0 CF x q) in F. subst q. exact (Hoff x Hx Hq).
Qed.
Lemma rhs_length : length rhs = N.
Proof. unfold rhs. now rewrite map_length, seq_length. Qed.
Lemma comb_sum r (h : CF * CF -> CF) : length r = k -> lsum (map h (combine p r)) = nsum k (fun j => h (nth j p 0, nth j r 0)).
Proof.
  intros L. rewrite lsum_nth, map_length, combine_length. fold k. rewrite L, Nat.min_id. apply nsum_ext. intros j Hj.
  rewrite (nth_map_in _ _ _ _ ((0, 0) : CF * CF)) by (rewrite combine_length; fold k; lia). rewrite combine_nth by (symmetry; exact L). reflexivity.
Qed.
Lemma row_misfit r i : length r = k -> (i < N)%nat -> nth i (vsub (mv A r) rhs) 0 = (RtoC (wgt weight i) : CF) * (pole_sum p r (nth i z 0) - nth i f 0).
Proof.
  intros L Hi. rewrite vsub_nth by (rewrite mv_length, ?rhs_length; cbn [A nr]; lia). rewrite mv_nth by exact Hi. cbn [A nc me]. unfold rhs. rewrite nth_map_seq by exact Hi.
  unfold pole_sum. rewrite (comb_sum r _ L). cbn [fst snd].
  rewrite (nsum_ext CF k _ (fun j => (RtoC (wgt weight i) : CF) * (nth j r 0 / (nth i z 0 - nth j p 0)))) by (intros; rewrite !(Fdiv_def (Fth CF)); cring). rewrite nsum_mul_l. cring.
Qed.
Lemma misfit_sumsq r : length r = k -> sumsq (vsub (K := CF) (mv A r) rhs) = misfit2 z f p weight r.
Proof.
  intros L. rewrite sumsq_nsum. unfold misfit2. fold N.
  assert (LL : length (vsub (mv A r) rhs) = N) by (rewrite vsub_length, mv_length, rhs_length; cbn [A nr]; apply Nat.min_id).
  match goal with |- context[@length C ?v] => replace (@length C v) with N by (symmetry; exact LL) end. apply (nsum_ext RF). intros i Hi.
  assert (RW := row_misfit r i L Hi).
  match goal with |- context[@nth C i ?v ?d] => replace (@nth C i v d) with ((RtoC (wgt weight i) : CF) * (pole_sum p r (nth i z 0) - nth i f 0)) by (symmetry; exact RW) end. cbn [Fmul CF]. rewrite Cmod_mult, Cmod_R. fold (wgt weight i).
  set (d := Cmod _). cbn [pow]. match goal with |- @eq _ ?a ?b => change (@eq R a b) end. assert (X : (Rabs (wgt weight i) * Rabs (wgt weight i) = wgt weight i * wgt weight i)%R) by (rewrite <- Rabs_mult; apply Rabs_pos_eq; apply Rle_0_sqr).
  transitivity ((Rabs (wgt weight i) * Rabs (wgt weight i)) * (d * d))%R; [ring|]. rewrite X. ring.
Qed.
Lemma misfit_le r r' : length r = k -> length r' = k -> cle (vsub (K := CF) (mv A r) rhs) (vsub (K := CF) (mv A r') rhs) <-> (misfit2 z f p weight r <= misfit2 z f p weight r')%R.
Proof. intros L L'. rewrite <- !misfit_sumsq by assumption. reflexivity. Qed.
Lemma misfit_nonneg r : length r = k -> (0 <= misfit2 z f p weight r)%R.
Proof. intros L. rewrite <- misfit_sumsq by exact L. apply sumsq_nonneg. Qed.

Let Cm (moms : list CF) := Mat (length moms) k (fun i j => fpow (nth j p 0) i) : mat CF.
Lemma moment_rows moms r : length r = k -> mv (Cm moms) r = moms <-> forall i, (i < length moms)%nat -> pole_moment p r i = nth i moms 0.
Proof.
  intros L. assert (X : forall i, (i < length moms)%nat -> nth i (mv (Cm moms) r) 0 = pole_moment p r i).
  { intros i Hi. rewrite mv_nth by exact Hi. cbn [Cm nc me]. unfold pole_moment. rewrite (comb_sum r _ L). cbn [fst snd]. apply nsum_ext. intros; cring. }
  split; intros H.
  - intros i Hi. now rewrite <- X, H by exact Hi.
  - apply (list_ext _ _ 0); [now rewrite mv_length|]. rewrite mv_length. cbn [Cm nr]. intros i Hi. rewrite X by exact Hi. now apply H.
Qed.

Theorem residues_moments moms : NoDup p -> (0 < length moms <= length p)%nat ->
  exists r, residues_ols qr solve_triangular lstsq allclose0 z f p weight moms = Ok (r, [RtoC (sqrt (misfit2 z f p weight r))]) /\ length r = length p /\
    (forall i, (i < length moms)%nat -> pole_moment p r i = nth i moms 0) /\
    forall r', length r' = length p -> (forall i, (i < length moms)%nat -> pole_moment p r' i = nth i moms 0) -> (misfit2 z f p weight r <= misfit2 z f p weight r')%R.
Proof.
  intros HD HM. unfold residues_ols. rewrite off_test. rewrite (proj2 (Nat.eqb_neq (length moms) 0)) by lia. rewrite (proj2 (Nat.ltb_ge (length p) (length moms))) by lia.
  fold N k. fold A rhs. fold (Cm moms).
  assert (Rank : full_row_rank CF (Cm moms)).
  { intros u Hu i Hi. cbn [Cm nr nc me] in *. apply (poly_roots CF (length moms) k (fun j => nth j p 0) u); [|unfold k; lia|exact Hu|exact Hi].
    intros a b Ha Hb Eab. apply (proj1 (NoDup_nth p 0) HD); assumption. }
  destruct (lstsq_ec_full CF Cconj qr solve_triangular lstsq allclose0 cle conj_ok_C A rhs (Cm moms) moms HB) as (x & Ex & Lx & Ec & Hmin); [cbn [Cm nr]; lia|reflexivity|exact rhs_length|reflexivity|exact Rank|].
  cbn [A nc] in Lx, Hmin. exists x. rewrite Ex. cbn [bind]. split; [|split; [exact Lx|split]].
  - do 4 f_equal. f_equal. rewrite rsum_sumsq. now apply misfit_sumsq.
  - now apply moment_rows.
  - intros r' L' H'. apply misfit_le; [exact Lx|exact L'|]. apply Hmin; [exact L'|]. now apply moment_rows.
Qed.

Theorem residues_free : exists r e, residues_ols qr solve_triangular lstsq allclose0 z f p weight [] = Ok (r, e) /\ length r = length p /\
  (forall r', length r' = length p -> (misfit2 z f p weight r <= misfit2 z f p weight r')%R) /\
  ((length z <= length p)%nat -> e = []) /\
  (lstsq_residuals lstsq -> NoDup p -> NoDup z -> (forall i, (i < length z)%nat -> wgt weight i <> 0%R) -> (length p < length z)%nat -> e = [RtoC (misfit2 z f p weight r)]).
Proof.
  destruct HB as (_ & _ & HLS & HE & _). unfold residues_ols. rewrite off_test. cbn [length Nat.eqb]. fold N k. fold A rhs.
  destruct (HLS A rhs rhs_length) as [L1 L2]. exists (fst (lstsq A rhs)), (snd (lstsq A rhs)). split; [now destruct (lstsq A rhs)|]. split; [exact L1|]. split; [|split].
  - intros r' L'. apply misfit_le; [exact L1|exact L'|]. now apply L2.
  - intros H. apply HE. exact H.
  - intros HR HD Hz Hw HL. rewrite (HR A rhs); [|exact rhs_length|exact HL|].
    + do 2 f_equal. now apply misfit_sumsq.
    + intros u Hu j Hj. cbn [A nr nc me] in *. apply (cauchy_inj CF k (fun j => nth j p 0) (fun i => nth i z 0) u); [| | | |exact Hj].
      * intros a b Ha Hb E. apply (proj1 (NoDup_nth p 0) HD); assumption.
      * intros a b Ha Hb E. apply (proj1 (NoDup_nth z 0) Hz); [unfold k in *; lia|unfold k in *; lia|exact E].
      * intros a b Ha Hb E. apply (Hoff (nth a z 0)); [apply nth_In; unfold k in *; lia|rewrite E; now apply nth_In].
      * intros i Hi. assert (HiN : (i < N)%nat) by (unfold N, k in *; lia). apply (fmul_cancel_l CF (RtoC (wgt weight i) : CF)); [intros E; apply RtoC_inj in E; exact (Hw i HiN E)|].
        transitivity (0 : CF); [|cring]. refine (eq_trans _ (Hu i HiN)). rewrite <- nsum_mul_l. apply nsum_ext. intros j0 Hj0. rewrite !(Fdiv_def (Fth CF)). cring.
Qed.
End Res.

(** ** at the points 1 and -1, one pole at 0: the misfit of the samples 1, 1 is sqrt 2 *)
Lemma two_points r : misfit2 [1; - (1)] [1; 1] [0] None [r] = (2 + 2 * (Cmod r * Cmod r))%R.
Proof.
  unfold misfit2, pole_sum. cbn [length nsum nth combine map fst snd lsum fold_right]. cbn [Fadd F0 RF]. 
  assert (E1 : (r / (1 - 0) + 0 - 1 : CF) = ((fst r - 1, snd r)%R : C)) by (apply C_ext; cbn; field).
  assert (E2 : (r / (- (1) - 0) + 0 - 1 : CF) = ((- fst r - 1, - snd r)%R : C)) by (apply C_ext; cbn; field).
  rewrite E1, E2. unfold Cmod. cbn [fst snd]. assert (P : forall a b : R, (0 <= a ^ 2 + b ^ 2)%R) by (intros a b; apply Rplus_le_le_0_compat; apply pow2_ge_0).
  rewrite !Rmult_1_l, !pow2_sqrt by apply P. rewrite sqrt_sqrt by apply P. match goal with |- @eq _ ?a ?b => change (@eq R a b) end. cbn [Fadd RF F0]. ring.
Qed.
Theorem residual_squared qr solve_triangular lstsq allclose0 : backend_ok CF Cconj cle qr solve_triangular lstsq allclose0 -> lstsq_residuals lstsq ->
  exists r, residues_ols qr solve_triangular lstsq allclose0 [1; - (1)] [1; 1] [0] None [] = Ok (r, [RtoC 2]) /\ sqrt (misfit2 [1; - (1)] [1; 1] [0] None r) = sqrt 2.
Proof.
  intros HB HR. destruct (residues_free qr solve_triangular lstsq allclose0 HB [1; - (1)] [1; 1] [0] None) as (r & e & E & L & M & _ & S).
  { intros x [<-|[<-|[]]] [F|[]]; apply (f_equal fst) in F; cbn in F; lra. }
  destruct r as [|r [|]]; try discriminate. assert (X := M [0] eq_refl). rewrite !two_points in X. change (Cmod (0 : CF)) with (Cmod (RtoC 0)) in X. rewrite Cmod_0 in X.
  assert (Y := Rle_0_sqr (Cmod r)). unfold Rsqr in Y. assert (Z : misfit2 [1; - (1)] [1; 1] [0] None [r] = 2%R) by (rewrite two_points; lra).
  exists [r]. rewrite Z. split; [|reflexivity]. rewrite E, S; [now rewrite Z|exact HR| | |intros i _; cbn; lra|cbn; lia].
  - constructor; [intros []|constructor].
  - constructor; [|constructor; [intros []|constructor]]. intros [F|[]]. apply (f_equal fst) in F. cbn in F. lra.
Qed.
Lemma moments_unique p r r' : NoDup p -> length r = length p -> length r' = length p -> (forall i, (i < length p)%nat -> pole_moment p r i = pole_moment p r' i) -> r = r'.
Proof.
  intros HD L L' H. apply (list_ext _ _ 0); [congruence|]. intros j Hj. rewrite L in Hj. apply fsub_eq0.
  apply (vander_inj CF (length p) (fun j => nth j p 0)) with (u := fun j => nth j r 0 - nth j r' 0) (j := j); [|intros i Hi|exact Hj].
  - intros a b Ha Hb E. apply (proj1 (NoDup_nth p 0) HD); assumption.
  - assert (X := H i Hi). unfold pole_moment in X. rewrite !(comb_sum [] p) in X by assumption. cbn [fst snd] in X.
    rewrite (nsum_ext CF (length p) _ (fun j => nth j r 0 * fpow (nth j p 0) i - nth j r' 0 * fpow (nth j p 0) i)) by (intros; cring). rewrite nsum_sub, X. cring.
Qed.
