(** * Properties of UDecomposition.s and the legacy constructors of gftool/matrix.py: C77 *)
From Coq Require Import List Arith Reals Lia Lra Permutation.
From Coquelicot Require Import Coquelicot.
From Verif Require Import Base FSum CBase Linalg_Model Linalg_Proofs Matrix_Model Matrix_Proofs Spectral UDec_Spec UDec_Model UDec_Proofs.
Import ListNotations.
Local Open Scope C_scope.

(** the attribute s of the decomposition of one Hermitian matrix holds its singular values in descending order *)
Theorem C77_singular_values : forall eighO close0 (A : mat CF) check d, nr A = nc A -> (forall ev, eighO A = Ok ev -> eigh_spec CF Cconj A ev) ->
  decompose_her (K := CF) Cconj eighO close0 A check = Ok d -> singular_values (nr A) (me A) (s (eig d)).
Proof. exact s_singular. Qed.
Print Assumptions C77_singular_values.
(** the largest and the smallest bound the matrix, and both bounds are attained: s[0] is the operator norm *)
Theorem C77_operator_norm : forall eighO close0 (A : mat CF) check d n, nr A = S n -> nc A = S n -> (forall ev, eighO A = Ok ev -> eigh_spec CF Cconj A ev) ->
  decompose_her (K := CF) Cconj eighO close0 A check = Ok d ->
  (forall x, nth n (s (eig d)) 0 * nth n (s (eig d)) 0 * fst (norm2 (S n) x) <= fst (norm2 (S n) (apply_mat (S n) (me A) x)) <= nth 0 (s (eig d)) 0 * nth 0 (s (eig d)) 0 * fst (norm2 (S n) x))%R /\
  forall k, (k < S n)%nat -> exists x, fst (norm2 (S n) x) = 1%R /\ fst (norm2 (S n) (apply_mat (S n) (me A) x)) = (nth k (s (eig d)) 0 * nth k (s (eig d)) 0)%R.
Proof.
  intros eighO close0 A check d n R1 R2 HE Hd. assert (H := s_singular eighO close0 A check d ltac:(congruence) HE Hd). rewrite R1 in H.
  split; [now apply sv_bounds|]. intros k Hk. now apply sv_attained.
Qed.
Print Assumptions C77_operator_norm.
(** stacked matrices: row i belongs to the i-th matrix from the end, and is ascending *)
Theorem C77_stacked_rows : forall eigs i, (i < length eigs)%nat -> nth i (s_stacked eigs) [] = rev (s (nth (length eigs - S i) eigs [])).
Proof. exact stacked_rows. Qed.
Print Assumptions C77_stacked_rows.
(** so that a row is not made of the singular values of its matrix, in no order *)
Theorem C77_stacked_refuted : exists (A : nat -> nat -> C) (eigs : list (list C)),
  singular_values 2 A (s (nth 0 eigs [])) /\ forall l, Permutation l (nth 0 (s_stacked eigs) []) -> ~ singular_values 2 A l.
Proof.
  exists (fun i j => if (i =? j)%nat then RtoC (INR (S i)) else RtoC 0), [[RtoC 1; RtoC 2]; [RtoC 3; RtoC 4]]. split.
  - apply (s_of_diag 2 _ (fun i j => delta i j)); [reflexivity| | |].
    + intros [|[|k]] [|[|l]] Hk Hl; try lia; apply C_ext; cbn; ring.
    + intros x [<-|[<-|[]]]; apply C_ext; cbn; ring.
    + intros [|[|i]] [|[|j]] Hi Hj; try lia; apply C_ext; cbn; ring.
  - intros l Hl HS. assert (E : nth 0 (s_stacked [[RtoC 1; RtoC 2]; [RtoC 3; RtoC 4]]) [] = [3; 4]%R).
    { cbn. rewrite !Cmod_R, !Rabs_pos_eq by lra. destruct (Rle_dec 3 4); [reflexivity|lra]. }
    rewrite E in Hl. assert (B := proj1 (sv_bounds 1 _ l HS (fun i => if (i =? 0)%nat then RtoC 1 else RtoC 0))). cbn in B.
    assert (M : (3 <= nth 1 l 0)%R).
    { assert (I : In (nth 1 l 0%R) [3; 4]%R) by (apply (Permutation_in _ Hl), nth_In; rewrite (Permutation_length Hl); cbn; lia). destruct I as [<-|[<-|[]]]; lra. }
    nra.
Qed.
Print Assumptions C77_stacked_refuted.
(** decompose_hamiltonian does not check: it gives back the matrix exactly if that is Hermitian *)
Theorem C77_hamiltonian_unchecked : forall eighO close0 (A : mat CF) d, nr A = nc A ->
  (forall ev, eighO A = Ok ev -> eigh_spec CF Cconj (Mat (K := CF) (nr A) (nr A) (lower_hermitian (me A))) ev) ->
  from_hamiltonian eighO close0 (Arr A) = Ok d ->
  (forall i j, (i < nr A)%nat -> (j < nr A)%nat -> me (recon_full d (eig d)) i j = lower_hermitian (me A) i j) /\
  ((forall i j, (i < nr A)%nat -> (j < nr A)%nat -> me (recon_full d (eig d)) i j = me A i j) <-> hermitian (nr A) (me A)).
Proof.
  intros eighO close0 A d Hs HE Hd. assert (R := hamiltonian_lower eighO close0 A d Hs HE Hd). split; [exact R|].
  rewrite <- lower_hermitian_iff. split; intros H i j Hi Hj; [now rewrite <- R, H|now rewrite R, H].
Qed.
Print Assumptions C77_hamiltonian_unchecked.
(** from_gf decomposes the given inverse Green's function; the reciprocal eigenvalues give the Green's function *)
Theorem C77_from_gf : forall eigO invO (A : mat CF) d, nr A = nc A ->
  (forall B Ci : mat CF, nr B = nc B -> invO B = Ok Ci -> square CF (nr B) Ci /\ minv CF (nr B) (me B) (me Ci)) ->
  (forall ev, eigO A = Ok ev -> eig_spec CF A ev) -> from_gf eigO invO (Arr A) = Ok d ->
  (forall i j, (i < nr A)%nat -> (j < nr A)%nat -> me (recon_full d (eig d)) i j = me A i j) /\
  (~ In (RtoC 0) (eig d) -> minv CF (nr A) (me A) (me (recon_full d (map (fun x => RtoC 1 / x) (eig d))))) /\
  from_gf eigO invO (Inst d) = Ok d.
Proof.
  intros eigO invO A d Hs HI HE Hd. destruct (decompose_mat_spec CF eigO invO A Hs HI HE d Hd) as (Q1 & Q2 & Q3 & M & RE).
  split; [exact RE|]. split; [|reflexivity]. intros Hz i j Hi Hj.
  assert (X := proj1 (recon_inverse CF d (nr A) (eig d) Q1 Q2 Q3 M Hz) i j Hi Hj). rewrite <- X. apply (nsum_ext CF). intros l Hl. now rewrite (RE i l Hi Hl).
Qed.
Print Assumptions C77_from_gf.
(** numpy.linalg.inv where the argument is the 2x2 unit matrix *)
Definition inv_unit (B : mat CF) : result (mat CF) :=
  if (nr B =? 2)%nat then
    if Ceq_dec (me B 0%nat 0%nat) (RtoC 1) then if Ceq_dec (me B 0%nat 1%nat) (RtoC 0) then if Ceq_dec (me B 1%nat 0%nat) (RtoC 0) then if Ceq_dec (me B 1%nat 1%nat) (RtoC 1)
    then Ok (Mat (K := CF) 2 2 (fun i j => kron i j)) else Err LinAlgError else Err LinAlgError else Err LinAlgError else Err LinAlgError
  else Err LinAlgError.
Example C77_from_gf_example : let A := Mat (K := CF) 2 2 (fun i j => if (i =? j)%nat then RtoC (INR (S i)) else RtoC 0) in let ev := ([RtoC 1; RtoC 2], Mat (K := CF) 2 2 (fun i j => kron i j)) in
  exists d, from_gf (fun _ => Ok ev) inv_unit (Arr A) = Ok d /\ eig_spec CF A ev /\ ~ In (RtoC 0) (eig d) /\
    forall B Ci : mat CF, nr B = nc B -> inv_unit B = Ok Ci -> square CF (nr B) Ci /\ minv CF (nr B) (me B) (me Ci).
Proof.
  intros A ev. eexists. split; [|split; [|split]].
  - cbn. unfold inv_unit. cbn. destruct (Ceq_dec _ _) as [_|N]; [|now destruct N]. destruct (Ceq_dec _ _) as [_|N]; [|now destruct N]. reflexivity.
  - split; [now split|]. split; [reflexivity|]. intros [|[|i]] [|[|j]] Hi Hj; cbn in Hi, Hj; try lia; apply C_ext; cbn; ring.
  - cbn. intros [E|[E|[]]]; apply (f_equal fst) in E; cbn in E; lra.
  - intros B Ci Hs H. unfold inv_unit in H. destruct (nr B =? 2)%nat eqn:Q; [|discriminate]. apply Nat.eqb_eq in Q. do 4 (destruct (Ceq_dec _ _); [|discriminate]). injection H as <-. rewrite Q. split; [now split|].
    intros i j Hi Hj. cbn [me nsum]. assert (i = 0 \/ i = 1)%nat as [->| ->] by lia; assert (j = 0 \/ j = 1)%nat as [->| ->] by lia; rewrite ?e, ?e0, ?e1, ?e2; apply C_ext; cbn; ring.
Qed.

(** the Pauli matrix sigma_y has a decomposition as required, with singular values 1, 1 *)
Example C77_example : let A := Mat (K := CF) 2 2 (fun i j => if (i =? j)%nat then RtoC 0 else if (i <? j)%nat then Copp Ci else Ci) in
  nr A = nc A /\ exists ev, eigh_spec CF Cconj A ev /\ singular_values 2 (me A) (s (fst ev)).
Proof.
  intros A. split; [reflexivity|]. destruct (eigh_exists A eq_refl) as (ev & He); [intros [|[|i]] [|[|j]] Hi Hj; cbn in *; try lia; apply C_ext; cbn; ring|].
  exists ev. split; [exact He|]. assert (HE : forall ev', Ok ev = Ok ev' -> eigh_spec CF Cconj A ev') by (intros ev' E; injection E as <-; exact He).
  exact (s_singular (fun _ => Ok ev) (fun _ => true) A false _ eq_refl HE eq_refl).
Qed.
