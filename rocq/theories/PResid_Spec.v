(** * Specification vocabulary for polepade.residues_ols *)
From Coq Require Import List Arith Bool Reals.
From Coquelicot Require Import Complex.
From Verif Require Import Base CBase Linalg_Model Linalg_Proofs PPade_Rank.
Import ListNotations.
Local Open Scope fld_scope.

(** sum_j r_j / (x - p_j) *)
Definition pole_sum (p r : list CF) (x : CF) : CF := lsum (map (fun a => snd a / (x - fst a)) (combine p r)).
(** sum_j r_j p_j^i *)
Definition pole_moment (p r : list CF) (i : nat) : CF := lsum (map (fun a => snd a * fpow (fst a) i) (combine p r)).
(** sum_i |w_i (sum_j r_j/(z_i - p_j) - f_i)|^2 *)
Definition misfit2 (z f p : list CF) (weight : option (list R)) (r : list CF) : R :=
  nsum (K := RF) (length z) (fun i => let w := match weight with None => 1%R | Some w => nth i w 0%R end in
    let d : C := pole_sum p r (nth i z 0) - nth i f 0 in ((w * Cmod d) ^ 2)%R).
(** np.linalg.lstsq: "residuals: sums of squared residuals, empty if the rank is smaller than the number of columns or
    there are no more rows than columns" *)
Definition lstsq_residuals (lstsq : mat CF -> list CF -> list CF * list CF) : Prop :=
  forall A b, length b = nr A -> (nc A < nr A)%nat -> trivial_kernel CF A ->
    snd (lstsq A b) = [RtoC (fold_right (fun d s => (Cmod d * Cmod d + s)%R) 0%R (vsub (K := CF) (mv A (fst (lstsq A b))) b))].
