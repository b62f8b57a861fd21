(** * Bands and averages over the Brillouin zone of the lattices given by elliptic integrals *)
From Coq Require Import Reals List ZArith.
From Coquelicot Require Import Coquelicot.
From Verif Require Import Base CBase CExp LatMom_Spec LatDer_Spec Fourier_Filon.
Import ListNotations.
Local Open Scope C_scope.

(** rectangular lattice, hopping amplitudes t along the first and s t along the second lattice vector *)
Definition rectangular_band (t s : R) (k : R * R) : C :=
  bloch (bravais [(1,0,0); (-1,0,0)]%Z) t k 0 0 + bloch (bravais [(0,1,0); (0,-1,0)]%Z) (s * t) k 0 0.
(** the parameter 16 r / ((r - 1)^3 (r + 3)), r^2 = 2 w + 3, Re r >= 0, of the elliptic integral of the triangular lattice at the
    frequency w, in units of twice the hopping amplitude, is on the branch cut [1, oo) of K *)
Definition tri_cut (w : C) : Prop := exists (r : C) (q : R), (0 <= fst r)%R /\ r * r = 2 * w + 3 /\ (r - 1) * (r - 1) * (r - 1) * (r + 3) = RtoC q * r /\ (0 < q < 16)%R.
(** the parameter q = -(T + 1)^3 (T - 3) / (16 T), w + 1 = 16 T^2 / ((T^2 - 1) (9 - T^2)), |T|^2 > 3, of an elliptic integral of the
    face-centred cubic lattice at the frequency w, in units of half the half bandwidth, is on the branch cut (1, oo) of K *)
Definition fcc_cut (w : C) : Prop := exists (T : C) (q : R), (0 < fst T)%R /\ (3 < fst T * fst T + snd T * snd T)%R /\ (w + 1) * ((T * T - 1) * (9 - T * T)) = 16 * (T * T) /\ (T + 1) * (T + 1) * (T + 1) * (3 - T) = 16 * RtoC q * T /\ (1 < q)%R.
(** phase of a cell at the wave vector (k1, k2, k3) and the band of a lattice with one site in the cell *)
Definition phase3 (k : R * R * R) (n : site) : C :=
  let '(k1, k2, k3) := k in let '(a, b, c, _) := n in cexp (Ci * RtoC (IZR a * k1 + IZR b * k2 + IZR c * k3)).
Definition band3 (nbrs : site -> list site) (t : R) (k : R * R * R) : C := RtoC t * fold_right Cplus 0 (map (phase3 k) (nbrs (origin 0))).
(** average over the Brillouin zone [-pi, pi]^3 *)
Definition is_bz_average3 (f : R * R * R -> C) (l : C) : Prop :=
  exists (inner : R -> R -> C) (middle : R -> C),
    (forall k1 k2, is_CInt (fun k3 => f (k1, k2, k3)) (- PI) PI (inner k1 k2)) /\
    (forall k1, is_CInt (inner k1) (- PI) PI (middle k1)) /\ is_CInt middle (- PI) PI (RtoC (8 * (PI * PI * PI)) * l).
