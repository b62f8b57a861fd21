(** * Exact diagonalisation of the Hubbard dimer: what hubbard_dimer_gf_z has to be

    Fock space of the four orbitals 1up, 1down, 2up, 2down; a vector gives the amplitude of every occupation. *)
From Coq Require Import Reals Bool.
From Coquelicot Require Import Coquelicot.
From Verif Require Import Base CBase.
Local Open Scope C_scope.

Definition ket := bool -> bool -> bool -> bool -> C.
Inductive orb := O1u | O1d | O2u | O2d.
Definition sgn (b : bool) : C := if b then RtoC (-1) else RtoC 1.
(** annihilation and creation with the usual sign, the number of occupied orbitals before the one acted on *)
Definition ann (o : orb) (v : ket) : ket := fun a b c d =>
  match o with
  | O1u => if a then 0 else v true b c d
  | O1d => if b then 0 else sgn a * v a true c d
  | O2u => if c then 0 else sgn a * sgn b * v a b true d
  | O2d => if d then 0 else sgn a * sgn b * sgn c * v a b c true
  end.
Definition cre (o : orb) (v : ket) : ket := fun a b c d =>
  match o with
  | O1u => if a then v false b c d else 0
  | O1d => if b then sgn a * v a false c d else 0
  | O2u => if c then sgn a * sgn b * v a b false d else 0
  | O2d => if d then sgn a * sgn b * sgn c * v a b c false else 0
  end.
Definition kadd (v w : ket) : ket := fun a b c d => v a b c d + w a b c d.
Definition kscal (k : C) (v : ket) : ket := fun a b c d => k * v a b c d.
Definition keq (v w : ket) : Prop := forall a b c d, v a b c d = w a b c d.
Definition sum2 (f : bool -> C) : C := f false + f true.
(** bilinear form; for real v it is the scalar product <v|w> *)
Definition bra (v w : ket) : C := sum2 (fun a => sum2 (fun b => sum2 (fun c => sum2 (fun d => v a b c d * w a b c d)))).
Definition kconj (v : ket) : ket := fun a b c d => Cconj (v a b c d).

(** H = -t sum_s (c1s^+ c2s + c2s^+ c1s) + U sum_i n_iu n_id, the documented Hamiltonian *)
Definition hop (i j : orb) (v : ket) : ket := cre i (ann j v).
Definition num (i : orb) (v : ket) : ket := cre i (ann i v).
Definition ham (t U : R) (v : ket) : ket :=
  kadd (kscal (- RtoC t) (kadd (kadd (hop O1u O2u v) (hop O2u O1u v)) (kadd (hop O1d O2d v) (hop O2d O1d v))))
       (kscal (RtoC U) (kadd (num O1u (num O1d v)) (num O2u (num O2d v)))).
Definition bnat (b : bool) : nat := if b then 1%nat else 0%nat.
(** two electrons *)
Definition half_filled (v : ket) : Prop := forall a b c d, (bnat a + bnat b + bnat c + bnat d)%nat <> 2%nat -> v a b c d = 0.
(** v is a ground state at half filling with energy E: normalised eigenvector, real amplitudes, E minimal *)
Definition ground_state (t U E : R) (v : ket) : Prop :=
  half_filled v /\ (forall a b c d, snd (v a b c d) = 0%R) /\ bra v v = 1 /\ keq (ham t U v) (kscal (RtoC E) v) /\
  forall x, half_filled x -> (E * fst (bra (kconj x) x) <= fst (bra (kconj x) (ham t U x)))%R.
(** c_{s,sigma} = (c_1sigma + s c_2sigma)/sqrt 2 and its adjoint *)
Definition cpm (up : bool) (s : R) (v : ket) : ket := kscal (RtoC (/ sqrt 2)) (kadd (ann (if up then O1u else O1d) v) (kscal (RtoC s) (ann (if up then O2u else O2d) v))).
Definition cpm_dag (up : bool) (s : R) (v : ket) : ket := kscal (RtoC (/ sqrt 2)) (kadd (cre (if up then O1u else O1d) v) (kscal (RtoC s) (cre (if up then O2u else O2d) v))).
(** zero-temperature Green's function <v| c (z - H + E)^-1 c^+ |v> + <v| c^+ (z + H - E)^-1 c |v>; any solutions x, y of
    the linear equations give the same value since H is symmetric *)
Definition lehmann (t U E : R) (v : ket) (up : bool) (s : R) (z G : C) : Prop :=
  exists x y : ket,
    keq (kadd (kscal (z - RtoC E) x) (ham t U x)) (cpm up s v) /\
    keq (kadd (kscal (z + RtoC E) y) (kscal (-(1)) (ham t U y))) (cpm_dag up s v) /\
    G = bra (cpm up s v) x + bra (cpm_dag up s v) y.
