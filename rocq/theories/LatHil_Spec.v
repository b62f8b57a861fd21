(** * Integrals over a band with singular points *)
From Coq Require Import Reals List.
From Coquelicot Require Import Coquelicot.
From Verif Require Import Base CBase Fourier_Filon LatMom_Spec LatDer_Spec LatInt_Spec.
Local Open Scope C_scope.

(** I is the sum of the integrals of f over [p + d, q - d] where p < q are consecutive points of the list *)
Fixpoint is_pint (f : R -> C) (d p : R) (ps : list R) (I : C) : Prop :=
  match ps with
  | nil => I = 0
  | q :: qs => exists J I', is_CInt f (p + d) (q - d) J /\ is_pint f d q qs I' /\ I = J + I'
  end.
(** l is the improper integral of f from the first to the last of the listed points, at which f need not be defined *)
Definition is_band_integral (f : R -> C) (p : R) (ps : list R) (l : C) : Prop :=
  forall t, (0 < t)%R -> exists r, (0 < r)%R /\ forall d, (0 < d < r)%R -> exists I, is_pint f d p ps I /\ (Cmod (I - l)%C < t)%R.
(** the last of the points *)
Fixpoint final (p : R) (ps : list R) : R := match ps with nil => p | q :: qs => final q qs end.
(** d is the density of the values of [band] over the wave vectors, in the range from the first to the last of the listed points:
    the integral of d phi is the average of phi (band k), for every function phi which is continuous on this range; [is_av f l]
    says that l is the average of f over the wave vectors *)
Definition distribution {T} (is_av : (T -> C) -> C -> Prop) (band : T -> C) (d : R -> R) (p : R) (ps : list R) : Prop :=
  forall phi : R -> C, (forall x, (p <= x <= final p ps)%R -> continuous (fun y => fst (phi y)) x /\ continuous (fun y => snd (phi y)) x) ->
    exists l, is_av (fun k => phi (fst (band k))) l /\ is_band_integral (fun e => RtoC (d e) * phi e) p ps l.
(** several sites in the unit cell: [es] are the eigenvalues of the N x N matrix H, with their multiplicities: every other z has
    a resolvent, and its trace is the sum of 1/(z - e) *)
Definition mean_of (phi : R -> C) (es : list R) : C := fold_right Cplus 0 (map phi es) / RtoC (INR (length es)).
Definition is_spectrum (N : nat) (H : nat -> nat -> C) (es : list R) : Prop :=
  length es = N /\ forall z : C, (forall e, In e es -> z <> RtoC e) -> (exists G, is_resolvent N H z G) /\ forall G, is_resolvent N H z G -> site_average N G = mean_of (fun e => 1 / (z - RtoC e)) es.
(** the eigenvalues of the Bloch Hamiltonian of a lattice with N sites in the cell are between the first and the last of the
    points, and d is their density, normalised to one, apart from the flat bands at the energies [flat] *)
Definition distributions (N : nat) (nbrs : site -> list site) (t : R) (d : R -> R) (p : R) (ps flat : list R) : Prop :=
  exists es : R * R -> list R, (forall k, is_spectrum N (bloch nbrs t k) (es k)) /\ (forall k e, In e (es k) -> (p <= e <= final p ps)%R) /\
  forall phi : R -> C, (forall x, (p <= x <= final p ps)%R -> continuous (fun y => fst (phi y)) x /\ continuous (fun y => snd (phi y)) x) ->
    exists l, is_bz_average (fun k => mean_of phi (es k)) l /\
      is_band_integral (fun e => RtoC (d e) * phi e) p ps (l - fold_right Cplus 0 (map phi flat) / RtoC (INR N)).
