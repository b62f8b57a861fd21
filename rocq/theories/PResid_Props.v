(** * Property C78: residues_ols, constrained least squares for the residues *)
From Coq Require Import List Arith ZArith Lia Lra Bool Reals.
From Coquelicot Require Import Complex.
From Verif Require Import Base FSum CBase Linalg_Model Linalg_Proofs Mat Backend PPade_Rank PPade_Model PPade_Proofs PPade_Cont PResid_Spec PResid_Proofs.
Import ListNotations.
Local Open Scope fld_scope.

(** With moments: the residues fulfil sum_j r_j p_j^i = moments[i], no other residues that do so fit the weighted samples
    better, and the second return value is the norm of the weighted misfit. *)
Theorem C78_moments : forall qr solve_triangular lstsq allclose0, backend_ok CF Cconj cle qr solve_triangular lstsq allclose0 ->
  forall z f p weight moms, (forall x, In x z -> ~ In x p) -> NoDup p -> (0 < length moms <= length p)%nat ->
  exists r, residues_ols qr solve_triangular lstsq allclose0 z f p weight moms = Ok (r, [RtoC (sqrt (misfit2 z f p weight r))]) /\ length r = length p /\
    (forall i, (i < length moms)%nat -> pole_moment p r i = nth i moms 0) /\
    forall r', length r' = length p -> (forall i, (i < length moms)%nat -> pole_moment p r' i = nth i moms 0) -> (misfit2 z f p weight r <= misfit2 z f p weight r')%R.
Proof. intros qr st ls ac HB z f p w moms Hoff. exact (residues_moments qr st ls ac HB z f p w Hoff moms). Qed.
Print Assumptions C78_moments.

(** Without moments the residues are those of the best fit. *)
Theorem C78_free : forall qr solve_triangular lstsq allclose0, backend_ok CF Cconj cle qr solve_triangular lstsq allclose0 ->
  forall z f p weight, (forall x, In x z -> ~ In x p) ->
  exists r e, residues_ols qr solve_triangular lstsq allclose0 z f p weight [] = Ok (r, e) /\ length r = length p /\
    (forall r', length r' = length p -> (misfit2 z f p weight r <= misfit2 z f p weight r')%R) /\
    ((length z <= length p)%nat -> e = []) /\
    (lstsq_residuals lstsq -> NoDup p -> NoDup z -> (forall i, (i < length z)%nat -> match weight with None => 1 | Some w => nth i w 0 end <> 0)%R ->
      (length p < length z)%nat -> e = [RtoC (misfit2 z f p weight r)]).
Proof. intros qr st ls ac HB z f p w Hoff. exact (residues_free qr st ls ac HB z f p w Hoff). Qed.
Print Assumptions C78_free.

(** The documented second return value "Norm of the residual" is its square without moments. *)
Theorem C78_norm_refuted : exists z f p, forall qr solve_triangular lstsq allclose0, backend_ok CF Cconj cle qr solve_triangular lstsq allclose0 -> lstsq_residuals lstsq ->
  exists r e, residues_ols qr solve_triangular lstsq allclose0 z f p None [] = Ok (r, [RtoC e]) /\ e <> sqrt (misfit2 z f p None r).
Proof.
  exists [1; - (1)], [1; 1], [0]. intros qr st ls ac HB HR. destruct (residual_squared qr st ls ac HB HR) as (r & E & M). exists r, 2%R. split; [exact E|]. rewrite M. intros F.
  assert (X := sqrt_sqrt 2 ltac:(lra)). rewrite <- F in X. lra.
Qed.
Print Assumptions C78_norm_refuted.

(** more moments than poles, and a sample on a pole *)
Theorem C78_errors : forall qr solve_triangular lstsq allclose0 z f p weight moms,
  ((forall x, In x z -> ~ In x p) -> (length p < length moms)%nat -> residues_ols qr solve_triangular lstsq allclose0 z f p weight moms = Err ValueError) /\
  ((exists x, In x z /\ In x p) -> residues_ols qr solve_triangular lstsq allclose0 z f p weight moms = Err NonFinite).
Proof.
  intros. split.
  - intros Hoff HL. unfold residues_ols. rewrite (off_test z p Hoff). rewrite (proj2 (Nat.eqb_neq (length moms) 0)) by lia. now rewrite (proj2 (Nat.ltb_lt (length p) (length moms)) HL).
  - intros (x & Hz & Hp). unfold residues_ols. replace (existsb _ z) with true; [reflexivity|]. symmetry. apply existsb_exists. exists x. split; [exact Hz|]. apply existsb_exists. exists x. split; [exact Hp|].
    unfold feqb. destruct (Feq_dec (x - x) 0) as [_|N]; [reflexivity|]. exfalso. apply N. now apply fsub_eq0.
Qed.
Print Assumptions C78_errors.

(** with as many moments as poles the samples do not matter *)
Theorem C78_all_moments : forall qr solve_triangular lstsq allclose0, backend_ok CF Cconj cle qr solve_triangular lstsq allclose0 ->
  forall z f p weight moms r0, (forall x, In x z -> ~ In x p) -> NoDup p -> (0 < length p)%nat -> length moms = length p -> length r0 = length p ->
  (forall i, (i < length p)%nat -> pole_moment p r0 i = nth i moms 0) ->
  exists e, residues_ols qr solve_triangular lstsq allclose0 z f p weight moms = Ok (r0, e).
Proof.
  intros qr st ls ac HB z f p w moms r0 Hoff HD Hp HM L0 H0. destruct (residues_moments qr st ls ac HB z f p w Hoff moms HD ltac:(lia)) as (r & E & L & M & _).
  assert (X : r = r0) by (apply (moments_unique p r r0 HD L L0); intros i Hi; rewrite H0 by exact Hi; apply M; lia). subst r0. eexists. exact E.
Qed.
Print Assumptions C78_all_moments.

(** ** Examples *)
(** factorizations that meet all contracts *)
Example C78_backend : exists qr solve_triangular lstsq allclose0, backend_ok CF Cconj cle qr solve_triangular lstsq allclose0 /\ lstsq_residuals lstsq.
Proof.
  destruct complex_backend as (qr & st & ls & ac & H1 & H2 & H3 & H4 & H5).
  exists qr, st, (fun A b => (fst (ls A b), if (nc A <? nr A)%nat then [RtoC (fold_right (fun d s => (Cmod d * Cmod d + s)%R) 0%R (vsub (K := CF) (mv A (fst (ls A b))) b))] else [])), ac. split; [split; [exact H1|split; [exact H2|split; [exact H3|split; [|exact H5]]]]|].
  - intros A b L. cbn [snd]. now rewrite (proj2 (Nat.ltb_ge _ _) L).
  - intros A b _ L _. cbn [fst snd]. now rewrite (proj2 (Nat.ltb_lt _ _) L).
Qed.
(** the pole 0, the samples f(1) = f(-1) = 1 and the moment 3: residue 3, residual sqrt 20 *)
Example C78_ex : exists qr solve_triangular lstsq allclose0,
  residues_ols qr solve_triangular lstsq allclose0 [1; - (1)] [1; 1] [0] None [RtoC 3 : CF] = Ok ([RtoC 3], [RtoC (sqrt 20)]).
Proof.
  destruct C78_backend as (qr & st & ls & ac & HB & _). exists qr, st, ls, ac.
  destruct (C78_moments qr st ls ac HB [1; - (1)] [1; 1] [0] None [RtoC 3 : CF]) as (r & E & L & M & _).
  - intros x [<-|[<-|[]]] [F|[]]; apply (f_equal fst) in F; cbn in F; lra.
  - constructor; [intros []|constructor].
  - cbn. lia.
  - destruct r as [|r [|]]; try discriminate. assert (X := M 0%nat ltac:(cbn; lia)). unfold pole_moment in X. cbn [combine map fst snd lsum fold_right nth fpow] in X.
    assert (R3 : r = (RtoC 3 : CF)) by (rewrite <- X; cring). subst r. rewrite E, two_points. change (Cmod (RtoC 3 : CF)) with (Cmod (RtoC 3)). rewrite Cmod_R, Rabs_pos_eq by lra. do 5 f_equal. lra.
Qed.
