(** * Integrals over energies and over the Brillouin zone *)
From Coq Require Import Reals.
From Coquelicot Require Import Coquelicot.
From Verif Require Import Base CBase CExp CSqrt Fourier_Filon.
Local Open Scope C_scope.

(** the value of the integral [is_CInt], component by component *)
Definition CInt (f : R -> C) (a b : R) : C := (RInt (fun t => fst (f t)) a b, RInt (fun t => snd (f t)) a b).
(** G is the Hilbert transform int d(e)/(z - e) de of a density of states supported on [-D, D] *)
Definition is_hilbert (d : R -> R) (D : R) (z G : C) : Prop := is_CInt (fun e => RtoC (d e) / (z - RtoC e)) (- D) D G.
(** improper integral over the open band *)
Definition is_improper (f : R -> C) (D : R) (l : C) : Prop :=
  forall t, (0 < t)%R -> exists r, (0 < r < D)%R /\ forall s, (0 < s < r)%R -> exists I, is_CInt f (- D + s) (D - s) I /\ (Cmod (I - l)%C < t)%R.
(** average over the Brillouin zone [-pi, pi] x [-pi, pi] *)
Definition is_bz_average (f : R * R -> C) (l : C) : Prop :=
  exists inner : R -> C, (forall k1, is_CInt (fun k2 => f (k1, k2)) (- PI) PI (inner k1)) /\ is_CInt inner (- PI) PI (RtoC (4 * (PI * PI)) * l).
Definition bz_mean (f : R * R -> C) : C := CInt (fun k1 => CInt (fun k2 => f (k1, k2)) (- PI) PI) (- PI) PI / RtoC (4 * (PI * PI)).
(** Legendre's complete elliptic integral of the first kind for the parameter m *)
Definition legendre_K (m k : C) : Prop := is_CInt (fun t => 1 / csqrt (1 - m * RtoC (sin t * sin t))) 0 (PI / 2) k.
(** the oracle for the elliptic integral is right off the branch cut [1, oo) *)
Definition computes_K (ellipk : C -> result C) : Prop := forall m : C, snd m <> 0%R \/ (fst m < 1)%R -> exists k, ellipk m = Ok k /\ legendre_K m k.
