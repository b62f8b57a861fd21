(** * Specification of functions given by poles and residues, independent of the model *)
From Coq Require Import List Arith Reals.
From Coquelicot Require Import Coquelicot.
From Verif Require Import Base CBase.
Import ListNotations.

Section Gen.
Context {K : Fld}.
Local Open Scope fld_scope.
(** the moment sum_j r_j p_j^k *)
Fixpoint moment (poles resid : list K) (k : nat) : K :=
  match poles, resid with p :: ps, r :: rs => r * fpow p k + moment ps rs k | _, _ => 0 end.
End Gen.

Local Open Scope R_scope.
(** sum_j r_j/(z - p_j) *)
Fixpoint green_z (z : C) (poles resid : list R) : C :=
  match poles, resid with p :: ps, r :: rs => (RtoC r / (z - RtoC p) + green_z z ps rs)%C | _, _ => RtoC 0 end.
(** -sum_j r_j exp(-p_j tau)/(1 + exp(-beta p_j)) *)
Fixpoint green_tau (tau : R) (poles resid : list R) (beta : R) : R :=
  match poles, resid with
  | p :: ps, r :: rs => - r * exp (- (tau * p)) / (1 + exp (- (beta * p))) + green_tau tau ps rs beta
  | _, _ => 0
  end.
(** sum_j r_j/(exp(beta p_j) + 1) *)
Fixpoint occupation (poles resid : list R) (beta : R) : R :=
  match poles, resid with p :: ps, r :: rs => r / (exp (beta * p) + 1) + occupation ps rs beta | _, _ => 0 end.

(** weighted squared distances; without weights every point counts equally *)
Definition weight_at (weight : option (list R)) (i : nat) : R := match weight with None => 1 | Some w => nth i w 0 end.
Definition dist_z (z gfz : list C) (weight : option (list R)) (poles resid : list R) : R :=
  nsum (K := RF) (length z) (fun i => (weight_at weight i * Cmod (green_z (nth i z 0%C) poles resid - nth i gfz 0%C)%C) ^ 2).
(** the data are given at tau_i = beta i/(n - 1) *)
Definition dist_tau (gftau : list R) (beta : R) (weight : option (list R)) (poles resid : list R) : R :=
  nsum (K := RF) (length gftau) (fun i =>
    (weight_at weight i * (green_tau (beta * (INR i / INR (length gftau - 1))) poles resid beta - nth i gftau 0)) ^ 2).

(** Chebyshev points of the first kind in ascending order: cos(pi (2(n-1-i)+1)/(2n)) scaled with the width *)
Definition cheb_node (n i : nat) : R := cos (PI * (2 * INR (n - 1 - i) + 1) / (2 * INR n)).
Definition nodes (w : R) (n : nat) : list R := map (fun i => w * cheb_node n i) (seq 0 n).
(** the scale of the nodes: the given width; without it the largest node is the modulus of the second moment if that is not small *)
Definition node_scale (width : option R) (moms : list R) (n : nat) : R :=
  match width with
  | Some w => w
  | None => match moms with
            | _ :: m1 :: _ => if Rle_dec (1 / 10) (Rabs m1) then Rabs m1 / cheb_node n (n - 1) else 1
            | _ => 1
            end
  end.

(** grids: i (2j+1) pi/beta, 2 i j pi/beta and the n points beta k/(n-1) *)
Definition iw (beta : R) (j : nat) : C := (Ci * RtoC ((2 * INR j + 1) * PI) / RtoC beta)%C.
Definition iv (beta : R) (j : nat) : C := (Ci * RtoC (2 * INR j * PI) / RtoC beta)%C.
Definition tau_pt (beta : R) (n k : nat) : R := beta * (INR k / INR (n - 1)).
