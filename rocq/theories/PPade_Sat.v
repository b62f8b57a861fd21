(** * The contracts of PPade_Spec.v: consequences of a singular value decomposition, and satisfiable *)
From Coq Require Import List Arith ZArith Lia Lra Bool Reals Field IndefiniteDescription.
From Coquelicot Require Import Complex.
From Verif Require Import Base FSum CBase LinPred_Burg Herm_Model Herm_Spec Herm_Proofs Herm_Gauss Linalg_Model Linalg_Proofs Mat Backend FTA Schur
  PPade_Lin PPade_Rank PPade_Rat PPade_Spec PPade_Model PPade_Basis PPade_Proofs.
Import ListNotations.
Local Open Scope fld_scope.
Ltac cring := PPade_Basis.cring.

Lemma hor_ev n : forall (d : nat -> CF) (x : CF) t, hor (map d (seq t n)) x = ev CF n (fun j => d (t + j)%nat) x.
Proof.
  induction n as [|n IH]; intros d x t; [reflexivity|]. cbn [seq map hor]. rewrite IH, ev_cons, Nat.add_0_r.
  change (d t + x * ev CF n (fun j => d (S t + j)%nat) x = d t + x * ev CF n (fun j => d (t + S j)%nat) x). f_equal. f_equal. apply ev_ext. intros j _. f_equal. lia.
Qed.
Theorem C_alg_closed : alg_closed CF.
Proof.
  intros n d Hd. destruct (fta (d 0%nat) (map d (seq 1 (S n)))) as [x Hx].
  - intros E. apply Hd. rewrite seq_S, map_app in E. cbn [map] in E. rewrite last_last in E. exact E.
  - exists x. rewrite <- (ev_ext CF _ (fun j => d (0 + j)%nat)) by reflexivity. rewrite <- hor_ev. exact Hx.
Qed.

(** ** from M = U S vh with regular (e.g. unitary) U and vh *)
Theorem svd_from_factorization (M U vh : mat CF) (s : list R) :
  length s = Nat.min (nr M) (nc M) -> (forall i, (i < length s)%nat -> (0 <= nth i s 0)%R) -> (forall i j, (i <= j)%nat -> (j < length s)%nat -> (nth j s 0 <= nth i s 0)%R) ->
  nr vh = nc M -> nc vh = nc M -> inj CF (nr M) (me U) -> inj CF (nc M) (me vh) ->
  (forall i j, (i < nr M)%nat -> (j < nc M)%nat -> me M i j = nsum (length s) (fun k => me U i k * (RtoC (nth k s 0%R) : CF) * me vh k j)) ->
  svd_spec M (s, vh).
Proof.
  intros Ls Hp Hd N1 N2 IU IV HM. unfold svd_spec. split; [exact Ls|]. split; [exact Hp|]. split; [exact Hd|]. split; [exact N1|]. split; [exact N2|]. split; [exact IV|].
  intros w. assert (E : forall i, (i < nr M)%nat -> nsum (nc M) (fun j => me M i j * w j) = nsum (length s) (fun k => me U i k * ((RtoC (nth k s 0%R) : CF) * nsum (nc M) (fun j => me vh k j * w j)))).
  { intros i Hi. rewrite (nsum_ext CF (nc M) _ (fun j => nsum (length s) (fun k => me U i k * (RtoC (nth k s 0%R) : CF) * (me vh k j * w j)))) by (intros j Hj; rewrite HM by assumption; rewrite <- nsum_mul_r; apply nsum_ext; intros; cring).
    rewrite nsum_swap. apply nsum_ext. intros k Hk. rewrite nsum_mul_l. cring. }
  split.
  - intros H i Hi Hs. assert (X := IU (fun k => if (k <? length s)%nat then (RtoC (nth k s 0%R) : CF) * nsum (nc M) (fun j => me vh k j * w j) else 0)).
    assert (Y : (RtoC (nth i s 0%R) : CF) * nsum (nc M) (fun j => me vh i j * w j) = 0).
    { assert (Y := fun P => X P i ltac:(lia)). cbv beta in Y. rewrite (proj2 (Nat.ltb_lt i (length s)) Hi) in Y. apply Y. intros l Hl. refine (eq_trans _ (H l Hl)). rewrite E by exact Hl.
      assert (Lm : (length s <= nr M)%nat) by lia. replace (nr M) with (length s + (nr M - length s))%nat by lia. rewrite nsum_split. rewrite (nsum_0' CF (nr M - length s)).
      2:{ intros j Hj. rewrite (proj2 (Nat.ltb_ge (length s + j) (length s))) by lia. change (me U l (length s + j)%nat * (0 : CF) = 0). cring. }
      rewrite (nsum_ext CF (length s) _ (fun k => me U l k * ((RtoC (nth k s 0%R) : CF) * nsum (nc M) (fun j => me vh k j * w j)))) by (intros k Hk; now rewrite (proj2 (Nat.ltb_lt k (length s)) Hk)). cring. }
    destruct (fmul_eq0 CF _ _ Y) as [Z|Z]; [|exact Z]. exfalso. apply Hs. apply (f_equal fst) in Z. exact Z.
  - intros H i Hi. rewrite E by exact Hi. apply nsum_0'. intros k Hk. destruct (Req_EM_T (nth k s 0%R) 0) as [Z|Z].
    + rewrite Z. change (RtoC 0 : CF) with (0 : CF). cring.
    + rewrite H by assumption. cring.
Qed.

(** ** back-ends meeting the contracts *)
Lemma svd_one (M : mat CF) : exists sv, svd_spec M sv /\ forall tol, (tol * INR (Nat.max (nr M) (nc M)) <= 1)%R -> resolved tol M (fst sv).
Proof.
  destruct (basis_exists CF (nc M) (me M) (nr M)) as (r & V & Hr & HI & Hc & HV).
  set (s := repeat 1%R r ++ repeat 0%R (Nat.min (nr M) (nc M) - r)).
  assert (Ls : length s = Nat.min (nr M) (nc M)) by (unfold s; rewrite app_length, !repeat_length; lia).
  assert (Ns : forall i, nth i s 0%R = if (i <? r)%nat then 1%R else 0%R).
  { intros i. unfold s. destruct (Nat.ltb_spec i r) as [L|G].
    - rewrite app_nth1 by (rewrite repeat_length; exact L). rewrite (nth_indep _ 0%R 1%R) by (rewrite repeat_length; exact L). apply nth_repeat.
    - rewrite app_nth2 by (rewrite repeat_length; exact G). apply nth_repeat. }
  exists (s, Mat (nc M) (nc M) V). split.
  - unfold svd_spec. split; [exact Ls|]. split; [intros i _; rewrite Ns; destruct (i <? r)%nat; lra|]. split.
    { intros i j Hij _. rewrite !Ns. destruct (Nat.ltb_spec i r), (Nat.ltb_spec j r); try lra. lia. }
    split; [reflexivity|]. split; [reflexivity|]. split; [exact HI|]. intros w. cbn [me]. rewrite HV. split.
    + intros H i Hi Hs. apply H. rewrite Ns in Hs. destruct (Nat.ltb_spec i r); [assumption|contradiction].
    + intros H i Hi. apply H; [lia|]. rewrite Ns, (proj2 (Nat.ltb_lt i r) Hi). lra.
  - intros tol Ht i Hi Hs. cbn [fst] in *. rewrite !Ns in *. destruct (Nat.ltb_spec i r) as [L|_]; [|contradiction]. destruct (Nat.ltb_spec 0 r) as [_|X]; [lra|lia].
Qed.
Lemma qrr_triv (A : mat CF) : qrr_spec CF A (A, Mat (nc A) (nc A) kron).
Proof.
  intros _. cbn [fst snd nr nc me]. repeat split. intros i j Hi Hj. symmetry. rewrite (nsum_single CF (nc A) j); [unfold kron; rewrite Nat.eqb_refl; cring|exact Hj|].
  intros l Hl Hne. unfold kron. destruct (Nat.eqb_spec l j); [contradiction|cring].
Qed.
Theorem backends_exist : exists qr qrr svd eig solve_triangular lstsq allclose0,
  backend_ok CF Cconj cle qr solve_triangular lstsq allclose0 /\ (forall A, qrr_spec CF A (qrr A)) /\ (forall M, svd_spec M (svd M)) /\ eig_ok eig /\
  (forall tol M, (tol * INR (Nat.max (nr M) (nc M)) <= 1)%R -> resolved tol M (fst (svd M))) /\ forall A, fst (qrr A) = A.
Proof.
  destruct complex_backend as (qr & tri & lstsq & ac & HB).
  destruct (functional_choice _ svd_one) as [svd Hsvd].
  assert (HE : forall AB : mat CF * mat CF, exists lam, eig_spec CF (nr (fst AB)) (me (fst AB)) (me (snd AB)) lam) by (intros AB; apply (eig_exists CF C_alg_closed)).
  destruct (functional_choice _ HE) as [eig Heig].
  exists qr, (fun A => (A, Mat (nc A) (nc A) kron)), svd, (fun A B => eig (A, B)), tri, lstsq, ac.
  split; [exact HB|]. split; [exact qrr_triv|]. split; [intros M; apply Hsvd|]. split.
  - intros m A B E1 E2 E3 E4. subst m. exact (Heig (A, B)).
  - split; [intros tol M; apply Hsvd|reflexivity].
Qed.
