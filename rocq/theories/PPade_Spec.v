(** * Specification vocabulary for the pole based Padé approximation *)
From Coq Require Import List Arith ZArith Bool Reals.
From Coquelicot Require Import Complex.
From Verif Require Import Base CBase Linalg_Model Linalg_Proofs Mat PPade_Lin PPade_Rank.
Import ListNotations.
Local Open Scope fld_scope.

(** f(x) = c + sum_j r_j / (x - p_j) *)
Definition polesum (c : CF) (pr : list (CF * CF)) (x : CF) : CF := c + lsum (map (fun a => snd a / (x - fst a)) pr).
(** sum_j r_j p_j^i *)
Definition true_moment (pr : list (CF * CF)) (i : nat) : CF := lsum (map (fun a => snd a * fpow (fst a) i) pr).

(** the leading coefficient of f at infinity: f(x) ~ amplitude * x^(-dn) *)
Definition amplitude (c : CF) (pr : list (CF * CF)) : CF := if Feq_dec c 0 then lsum (map snd pr) else c.
(** the data: samples of f = c + sum r/(x-p) at distinct points, not at poles or zeros; dn is the order of the decay of f;
    at least 2k+5-dn points for k poles *)
Record samples_of (c : CF) (pr : list (CF * CF)) (dn : nat) (weight : option (list R)) (z fct : list CF) : Prop := {
  so_nodup : NoDup (map fst pr);
  so_res : forall a, In a pr -> snd a <> 0;
  so_deg : (dn = 0%nat /\ c <> 0) \/ (dn = 1%nat /\ c = 0 /\ lsum (map snd pr) <> 0);
  so_z : NoDup z;
  so_off : forall x, In x z -> ~ In x (map fst pr);
  so_f : fct = map (polesum c pr) z;
  so_f0 : forall x, In x z -> polesum c pr x <> 0;
  so_w : match weight with None => True | Some w => length w = length z /\ forall x, In x w -> x <> 0%R end;
  so_n : (2 * length pr + 5 <= length z + dn)%nat }.

(** ** contracts of the back-ends *)
(** np.linalg.svd: min(rows, columns) singular values, not negative, in descending order; vh regular; the null space
    consists of the vectors orthogonal to the rows of vh that belong to singular values different from zero.  All of this
    follows from M = U S vh with unitary U, vh, see [svd_from_factorization]. *)
Definition svd_spec (M : mat CF) (sv : list R * mat CF) : Prop :=
  let (s, vh) := sv in
  length s = Nat.min (nr M) (nc M) /\ (forall i, (i < length s)%nat -> (0 <= nth i s 0)%R) /\
  (forall i j, (i <= j)%nat -> (j < length s)%nat -> (nth j s 0 <= nth i s 0)%R) /\
  nr vh = nc M /\ nc vh = nc M /\ inj CF (nc M) (me vh) /\
  forall w : nat -> CF, (forall i, (i < nr M)%nat -> nsum (nc M) (fun j => me M i j * w j) = 0)
    <-> forall i, (i < length s)%nat -> nth i s 0%R <> 0%R -> nsum (nc M) (fun j => me vh i j * w j) = 0.
(** the singular values that are not zero are not below the tolerance of number_poles *)
Definition resolved (tol : R) (M : mat CF) (s : list R) : Prop :=
  forall i, (i < length s)%nat -> nth i s 0%R <> 0%R -> (tol * nth 0 s 0 * INR (Nat.max (nr M) (nc M)) <= nth i s 0)%R.
(** scipy.linalg.eig of a pencil with regular second matrix: the diagonal of a triangular form *)
Definition eig_ok (eig : mat CF -> mat CF -> list CF) : Prop :=
  forall m A B, nr A = m -> nc A = m -> nr B = m -> nc B = m -> eig_spec CF m (me A) (me B) (eig A B).

(** the argument [vandermond]: its column j holds the values of a polynomial of exact degree j *)
Definition graded (phi : nat -> CF -> CF) : Prop :=
  forall j, exists t : nat -> CF, t j <> 0 /\ forall x, phi j x = nsum (S j) (fun l => t l * fpow x l).
