(** * Bloch Hamiltonians of the lattices of LatMom_Spec and averages over the Brillouin zone *)
From Coq Require Import Reals List ZArith Bool.
From Coquelicot Require Import Coquelicot.
From Verif Require Import Base CBase CExp LatMom_Spec.
Import ListNotations.
Local Open Scope C_scope.

(** phase of the cell of a site at the wave vector (k1, k2) of a two-dimensional lattice *)
Definition phase (k : R * R) (n : site) : C :=
  let '(a, b, _, _) := n in cexp (Ci * RtoC (IZR a * fst k + IZR b * snd k)).
(** H_ij(k): hopping from the site i of the cell at the origin to the sites j of all cells *)
Definition bloch (nbrs : site -> list site) (t : R) (k : R * R) (i j : nat) : C :=
  RtoC t * fold_right Cplus 0 (map (fun n => if Nat.eqb (snd n) j then phase k n else 0) (nbrs (origin i))).
(** G = (z - H)^-1, size N *)
Definition is_resolvent (N : nat) (H : nat -> nat -> C) (z : C) (G : nat -> nat -> C) : Prop :=
  forall i j, (i < N)%nat -> (j < N)%nat ->
    nsum (K := CF) N (fun l => ((if Nat.eqb i l then z else RtoC 0) - H i l) * G l j) = (if Nat.eqb i j then RtoC 1 else RtoC 0).
Definition site_average (N : nat) (G : nat -> nat -> C) : C := nsum (K := CF) N (fun i => G i i) / RtoC (INR N).
(** the normalised average over wave vectors: a functional which is affine on the resolvents of the band eps *)
Definition averages (mean : (R * R -> C) -> C) (eps : R * R -> C) : Prop :=
  forall a b x, (forall k, x - eps k <> 0) -> mean (fun k => a + b / (x - eps k)) = a + b * mean (fun k => 1 / (x - eps k)).
(** the local Green's function of a single band *)
Definition is_local_gf (mean : (R * R -> C) -> C) (eps : R * R -> C) (gf : C -> result C) : Prop :=
  forall x, (forall k, x - eps k <> 0) -> gf x = Ok (mean (fun k => 1 / (x - eps k))).
(** boundary value on the real axis from above *)
Definition boundary (gf : C -> R -> result C) (x D : R) (g : C) : Prop :=
  forall t, (0 < t)%R -> exists r, (0 < r)%R /\ forall w : C, (0 < snd w)%R -> (Cmod (w - RtoC x)%C < r)%R -> exists G, gf w D = Ok G /\ (Cmod (G - g)%C < t)%R.
(** normalisation: z G(z) -> l at infinity *)
Definition normalised (gf : C -> result C) : Prop :=
  forall t, (0 < t)%R -> exists r, (0 < r)%R /\ forall z : C, (r < Cmod z)%R -> exists G, gf z = Ok G /\ (Cmod (z * G - 1)%C < t)%R.
(** what is used of the complete elliptic integral as a function of the parameter: off its branch cut [1, oo) it is finite,
    continuous and takes conjugate values at conjugate arguments *)
Definition elliptic_like (ellipk : C -> result C) : Prop :=
  forall m : C, snd m <> 0%R \/ (fst m < 1)%R -> exists k, ellipk m = Ok k /\ ellipk (Cconj m) = Ok (Cconj k) /\
    forall t, (0 < t)%R -> exists r, (0 < r)%R /\ forall w : C, (Cmod (w - m)%C < r)%R -> exists k', ellipk w = Ok k' /\ (Cmod (k' - k)%C < t)%R.
