(** * Spectral functions of lattices *)
From Coq Require Import Reals List.
From Coquelicot Require Import Coquelicot.
From Verif Require Import Base CBase LatMom_Spec LatDer_Spec LatInt_Spec.
Local Open Scope C_scope.

(** d is the spectral function -Im G(e + i0)/pi at the energy e of the local Green's function G, where [gf z G] says that G
    is its value at the frequency z; the limit is taken over the upper half plane *)
Definition spectral (gf : C -> C -> Prop) (e d : R) : Prop :=
  forall t, (0 < t)%R -> exists r, (0 < r)%R /\ forall z : C, (0 < snd z)%R -> (Cmod (z - RtoC e)%C < r)%R ->
    exists G, gf z G /\ (Rabs (- snd G / PI - d) < t)%R.
(** average over the Brillouin zone of the site average of the resolvent of a lattice with N sites in the cell *)
Definition is_lattice_gf (N : nat) (nbrs : site -> list site) (t : R) (z g : C) : Prop :=
  exists G : R * R -> nat -> nat -> C, (forall k, is_resolvent N (bloch nbrs t k) z (G k)) /\ is_bz_average (fun k => site_average N (G k)) g.
(** the oracle for scipy.special.ellipkm1 computes K at the parameter 1 - p *)
Definition computes_Km1 (ellipkm1 : R -> result R) : Prop := forall p, (0 < p <= 1)%R -> exists k, ellipkm1 p = Ok k /\ legendre_K (RtoC (1 - p)) (RtoC k).
