(** * Generalised Vandermonde matrices: a change of basis of the monomials *)
From Coq Require Import List Arith ZArith Lia Lra Bool Reals Field.
From Coquelicot Require Import Complex.
From Verif Require Import Base FSum CBase LinPred_Burg Herm_Spec Herm_Proofs Herm_Gauss Linalg_Model Linalg_Proofs Mat PPade_Lin PPade_Rank PPade_Spec PPade_Model.
Import ListNotations.
Local Open Scope fld_scope.
Lemma C_eq_aux (a b : C) : Cplus (RtoC 0) a = Cplus (RtoC 0) b -> a = b.
Proof. intros H. transitivity (Cplus (RtoC 0) a); [ring|]. rewrite H. ring. Qed.
Ltac cring := cbn [Fadd Fmul Fsub Fopp Fdiv Finv F0 F1 CF]; match goal with |- @eq _ ?a ?b => change (@eq C a b) end; apply C_eq_aux; ring.

(** ** polynomials of exact degree *)
Lemma graded_monomial : graded monomial.
Proof.
  intros j. exists (fun l => if (l =? j)%nat then 1 else 0). split; [rewrite Nat.eqb_refl; apply F1_neq_0|]. intros x. unfold monomial. cbn [nsum]. rewrite Nat.eqb_refl.
  rewrite (nsum_0' CF) by (intros i Hi; destruct (Nat.eqb_spec i j); [lia|cring]). cring.
Qed.
(** a recurrence with three terms: Chebyshev, Legendre, Hermite, Laguerre, ... *)
Lemma graded_three (phi : nat -> CF -> CF) (k : CF) (a b c : nat -> CF) : k <> 0 -> (forall j, a j <> 0) -> (forall x, phi 0%nat x = k) ->
  (forall x, phi 1%nat x = (a 0%nat * x + b 0%nat) * phi 0%nat x) ->
  (forall j x, phi (S (S j)) x = (a (S j) * x + b (S j)) * phi (S j) x + c j * phi j x) -> graded phi.
Proof.
  intros Hk Ha H0 H1 HS.
  assert (L : forall j t s (x : CF), ev CF (S (S j)) (fun l => a j * (match l with O => 0 | S i => t i end) + (if (l <? S j)%nat then b j * t l + s l else 0)) x
     = a j * (x * ev CF (S j) t x) + (b j * ev CF (S j) t x + ev CF (S j) s x)).
  { intros j t s x. rewrite (ev_add CF), (ev_scal CF). f_equal; [f_equal; rewrite (ev_cons CF); change (fun j => t j) with t; cring|].
    change (ev CF (S (S j)) ?d x) with (nsum (S j) (fun l => d l * fpow x l) + d (S j) * fpow x (S j)). cbv beta. rewrite Nat.ltb_irrefl.
    rewrite (nsum_ext CF (S j) _ (fun l => (b j * t l + s l) * fpow x l)) by (intros l Hl; now rewrite (proj2 (Nat.ltb_lt l (S j)) Hl)).
    fold (ev CF (S j) (fun l => b j * t l + s l) x). rewrite (ev_add CF), (ev_scal CF). cring. }
  assert (P : forall j, (exists t : nat -> CF, t j <> 0 /\ forall x, phi j x = ev CF (S j) t x) /\ (exists t : nat -> CF, t (S j) <> 0 /\ forall x, phi (S j) x = ev CF (S (S j)) t x)).
  { induction j as [|j [(s & Hs & Es) (t & Ht & Et)]].
    - assert (X0 : exists t : nat -> CF, t 0%nat <> 0 /\ forall x, phi 0%nat x = ev CF 1 t x).
      { exists (fun _ => k). split; [exact Hk|]. intros x. rewrite H0. unfold ev. cbn [nsum fpow]. cring. }
      split; [exact X0|]. destruct X0 as (t & Ht & Et). eexists. split; [|intros x; rewrite H1, Et; symmetry; rewrite (L 0%nat t (fun _ => 0)); rewrite (ev_ext CF 1 (fun _ => 0) (fun l => 0 * 0)) by (intros; cring); rewrite (ev_scal CF); cring].
      cbv beta. cbn [Nat.ltb Nat.leb]. intros E. destruct (fmul_eq0 CF (a 0%nat) (t 0%nat)) as [F|F]; [refine (eq_trans _ E); cring|exact (Ha _ F)|exact (Ht F)].
    - split; [exists t; split; assumption|].
      eexists. split; [|intros x; rewrite HS, Et, Es; symmetry; rewrite (L (S j) t (fun l => c j * (if (l <? S j)%nat then s l else 0)))].
      + cbv beta. rewrite Nat.ltb_irrefl. intros E. destruct (fmul_eq0 CF (a (S j)) (t (S j))) as [F|F]; [refine (eq_trans _ E); cring|exact (Ha _ F)|exact (Ht F)].
      + rewrite (ev_scal CF). change (ev CF (S (S j)) (fun l => if (l <? S j)%nat then s l else 0) x) with (nsum (S j) (fun l => (if (l <? S j)%nat then s l else 0) * fpow x l) + (if (S j <? S j)%nat then s (S j) else 0) * fpow x (S j)).
        rewrite Nat.ltb_irrefl. rewrite (nsum_ext CF (S j) _ (fun l => s l * fpow x l)) by (intros l Hl; now rewrite (proj2 (Nat.ltb_lt l (S j)) Hl)). fold (ev CF (S j) s x). cring. }
  intros j. exact (proj1 (P j)).
Qed.

(** ** the triangular change of basis *)
Lemma inj_triangular c (T : nat -> nat -> CF) : (forall l, T l l <> 0) -> (forall l j, (j < l)%nat -> T l j = 0) -> inj CF c T.
Proof.
  intros Hd Hl. induction c as [|c IH]; intros u Hu j Hj; [lia|].
  assert (U : u c = 0).
  { assert (E := Hu c ltac:(lia)). cbn [nsum] in E. rewrite (nsum_0' CF) in E by (intros i Hi; rewrite Hl by exact Hi; cring).
    destruct (fmul_eq0 CF (T c c) (u c)) as [F|F]; [refine (eq_trans _ E); cring|contradiction (Hd c)|exact F]. }
  destruct (Nat.eq_dec j c) as [->|N]; [exact U|]. apply (IH u); [|lia]. intros i Hi. refine (eq_trans _ (Hu i ltac:(lia))). cbn [nsum]. rewrite U. cring.
Qed.
Lemma basis_change phi c : graded phi -> exists T, inj CF c T /\
  forall (u : nat -> CF) x, nsum c (fun j => phi j x * u j) = ev CF c (fun l => nsum c (fun j => T l j * u j)) x.
Proof.
  intros H. destruct (finite_choice (fun _ => 0) c (fun j (t : nat -> CF) => t j <> 0 /\ forall x, phi j x = nsum (S j) (fun l => t l * fpow x l))) as [F HF]; [intros j _; apply H|].
  set (T := fun l j => if (l <=? j)%nat then (if (j <? c)%nat then F j l else 1) else 0). exists T. split.
  - apply inj_triangular.
    + intros l. unfold T. rewrite Nat.leb_refl. destruct (Nat.ltb_spec l c) as [A|A]; [apply (HF l A)|apply F1_neq_0].
    + intros l j Hj. unfold T. now rewrite (proj2 (Nat.leb_gt l j) Hj).
  - intros u x. unfold ev.
    rewrite (nsum_ext CF c (fun j => nsum c (fun j0 => T j j0 * u j0) * fpow x j) (fun l => nsum c (fun j => T l j * u j * fpow x l))) by (intros; symmetry; apply nsum_mul_r).
    rewrite nsum_swap. apply nsum_ext. intros j Hj. rewrite (proj2 (HF j Hj)).
    replace c with (S j + (c - S j))%nat at 1 by lia. rewrite nsum_split.
    rewrite (nsum_0' CF (c - S j)) by (intros i Hi; unfold T; rewrite (proj2 (Nat.leb_gt (S j + i) j)) by lia; cring).
    rewrite <- nsum_mul_r. transitivity (nsum (S j) (fun l => F j l * fpow x l * u j)); [reflexivity|].
    transitivity (nsum (S j) (fun l => T l j * u j * fpow x l)); [|cring]. apply nsum_ext. intros l Hl. unfold T. rewrite (proj2 (Nat.leb_le l j)), (proj2 (Nat.ltb_lt j c)) by lia. cring.
Qed.
Lemma graded_first phi x : graded phi -> phi 0%nat x <> 0.
Proof. intros H. destruct (H 0%nat) as (t & Ht & E). rewrite E. cbn [nsum fpow]. intros F. apply Ht. refine (eq_trans _ F). cring. Qed.

(** ** factorizations of scaled generalised Vandermonde matrices *)
Section Fac.
Variables (phi : nat -> CF -> CF) (N c : nat) (zi a : nat -> CF) (A : mat CF).
Hypothesis Hphi : graded phi.
Hypothesis Hz : distinct CF N zi.
Hypothesis Ha : forall i, (i < N)%nat -> a i <> 0.
Hypothesis HAr : nr A = N.
Hypothesis HAc : nc A = c.
Hypothesis HA : forall i j, (i < N)%nat -> me A i j = a i * phi j (zi i).

Lemma basis_row T (u : nat -> CF) i : (forall (u : nat -> CF) x, nsum c (fun j => phi j x * u j) = ev CF c (fun l => nsum c (fun j => T l j * u j)) x) -> (i < N)%nat ->
  nsum c (fun j => me A i j * u j) = a i * ev CF c (fun l => nsum c (fun j => T l j * u j)) (zi i).
Proof. intros HT Hi. rewrite <- HT, <- nsum_mul_l. apply nsum_ext. intros j Hj. rewrite HA by exact Hi. cring. Qed.
Lemma basis_trivial : (c <= N)%nat -> trivial_kernel CF A.
Proof.
  intros Hc u Hu. rewrite HAr, HAc in *. destruct (basis_change phi c Hphi) as (T & IT & HT). apply IT. apply (ev_zero CF c N zi _ Hz Hc).
  intros i Hi. assert (E := Hu i Hi). rewrite (basis_row T) in E by assumption. destruct (fmul_eq0 CF _ _ E) as [F|F]; [contradiction (Ha i Hi)|exact F].
Qed.
Lemma qrr_basis QR : qrr_spec CF A QR -> (c <= N)%nat -> nr (fst QR) = N /\ nc (fst QR) = c /\ exists W, inj CF c W /\
  forall (x : nat -> CF) i, (i < N)%nat -> nsum c (fun k => me (fst QR) i k * x k) = a i * ev CF c (fun j => nsum c (fun k => W j k * x k)) (zi i).
Proof.
  intros HQ Hc. destruct (qrr_coords CF A QR HQ) as (R1 & C1 & W & HW & TW); [lia|now apply basis_trivial|]. rewrite HAr, HAc in *. split; [exact R1|]. split; [exact C1|].
  destruct (basis_change phi c Hphi) as (T & IT & HT). exists (fun j k => nsum c (fun l => T j l * W l k)).
  assert (X : forall (x : nat -> CF) j, nsum c (fun k => nsum c (fun l => T j l * W l k) * x k) = nsum c (fun l => T j l * nsum c (fun k => W l k * x k))).
  { intros x j. rewrite (nsum_ext CF c _ (fun k => nsum c (fun l => T j l * W l k * x k))) by (intros; symmetry; apply nsum_mul_r). rewrite nsum_swap. apply nsum_ext. intros l Hl. rewrite <- nsum_mul_l. apply nsum_ext. intros; cring. }
  split.
  - intros u Hu. apply HW. apply (IT (fun l => nsum c (fun k => W l k * u k))). intros i Hi. rewrite <- X. now apply Hu.
  - intros x i Hi. rewrite TW by exact Hi. rewrite (basis_row T) by assumption. f_equal. apply ev_ext. intros j Hj. symmetry. apply X.
Qed.
Lemma orth_basis qr : conj_ok CF Cconj -> qr_spec CF Cconj A (qr A) -> (c < N)%nat ->
  exists P, orth_compl (K := CF) Cconj qr A = Ok P /\ nr P = (N - c)%nat /\ nc P = N /\
  forall v : nat -> CF, (forall i, (i < nr P)%nat -> nsum N (fun j => me P i j * v j) = 0) <-> exists u : nat -> CF, forall i, (i < N)%nat -> v i = a i * ev CF c u (zi i).
Proof.
  intros HJ HQ Hc. destruct (orth_kernel CF Cconj qr A HJ HQ) as (P & EP & P1 & P2 & P3); [lia|apply basis_trivial; lia|]. rewrite HAr, HAc in *.
  exists P. split; [exact EP|]. split; [exact P1|]. split; [exact P2|]. intros v. rewrite P3. destruct (basis_change phi c Hphi) as (T & IT & HT). split.
  - intros [u Hu]. eexists. intros i Hi. rewrite Hu by exact Hi. apply (basis_row T); assumption.
  - intros [u Hu]. destruct (inj_surj CF c T u IT) as [w Hw]. exists w. intros i Hi. rewrite Hu by exact Hi. rewrite (basis_row T) by assumption. f_equal. apply ev_ext. intros j Hj. symmetry. now apply Hw.
Qed.
End Fac.
