(** * Properties C10-C14: (Hermite-)Padé approximants from Taylor coefficients. *)
From Coq Require Import List Arith ZArith QArith Qcanon Reals Lia Bool.
From Coquelicot Require Import Coquelicot.
From Verif Require Import Base FSum CBase Herm_Model Herm_Spec Herm_Proofs Herm_Proofs2 Herm_Gauss Herm_Refute
  HermEval_Model HermEval_Proofs.
Import ListNotations.
Local Open Scope fld_scope.

(** C10. [nullvec] and [solve] are whatever the back-end returns, subject to solving their system. *)
Theorem C10_pade_accurate :
  forall (K : Fld) nullvec solve, @nullvec_ok K nullvec -> solve_ok solve ->
  forall an num den fast p q,
  pade nullvec solve an num den fast = Ok (p, q) ->
  length p = S num /\ length q = S den /\ nonzero q /\ accurate p q an (num + den + 1).
Proof. exact pade_accurate. Qed.
Print Assumptions C10_pade_accurate.

Theorem C10_pade_accepts :
  forall (K : Fld) nullvec solve, @nullvec_ok K nullvec ->
  forall an num den, (num + den + 1 <= length an)%nat ->
  exists p q, pade nullvec solve an num den false = Ok (p, q).
Proof. exact pade_total. Qed.
Print Assumptions C10_pade_accepts.

Theorem C10_pade_rejects :
  forall (K : Fld) (nullvec : list (list K) -> list K) solve an num den fast, (length an < num + den + 1)%nat ->
  pade nullvec solve an num den fast = Err ValueError.
Proof. exact pade_rejects. Qed.
Print Assumptions C10_pade_rejects.

(** The contracts are satisfiable in every field (elimination). *)
Theorem C10_contracts_satisfiable :
  forall K : Fld, @nullvec_ok K gauss_nullvec /\ @solve_ok K gauss_solve.
Proof. exact (fun K => conj gauss_nullvec_ok gauss_solve_ok). Qed.
Print Assumptions C10_contracts_satisfiable.

(** [2/2] of exp: 1 + x/2 + x^2/12 over 1 - x/2 + x^2/12 up to normalisation; [2/1] fast path. *)
Example C10_example :
  show_pq (pade gauss_nullvec gauss_solve (lq [1; 1; 1#2; 1#6; 1#24]%Q) 2 2 false)
  = Ok ([12; 6; 1], [12; -6; 1])%Q /\
  show_pq (pade gauss_nullvec gauss_solve (lq [1; 1; 1#2; 1#6; 1#24]%Q) 1 2 true)
  = Ok ([6; 2], [6; -4; 1])%Q /\
  show_pq (pade gauss_nullvec gauss_solve (lq [1; 1; 1#2; 1#6; 1#24]%Q) 3 2 true) = Err ValueError.
Proof. vm_compute. repeat split. Qed.

(** C11 *)
Theorem C11_hermite2_accurate :
  forall (K : Fld) nullvec, @nullvec_ok K nullvec ->
  forall an pd qd rd p q r,
  hermite2 nullvec an pd qd rd = Ok (p, q, r) ->
  length p = S pd /\ length q = S qd /\ length r = S rd /\ (nonzero q \/ nonzero r) /\
  accurate2 p q r an (pd + qd + rd + 2).
Proof. exact hermite2_accurate. Qed.
Print Assumptions C11_hermite2_accurate.

Theorem C11_hermite2_accepts :
  forall (K : Fld) nullvec, @nullvec_ok K nullvec ->
  forall an pd qd rd, (pd + qd + rd + 2 <= length an)%nat ->
  exists p q r, hermite2 nullvec an pd qd rd = Ok (p, q, r).
Proof. exact hermite2_total. Qed.
Print Assumptions C11_hermite2_accepts.

Theorem C11_hermite2_rejects :
  forall (K : Fld) (nullvec : list (list K) -> list K) an pd qd rd, (length an < pd + qd + rd + 2)%nat ->
  hermite2 nullvec an pd qd rd = Err ValueError.
Proof. exact hermite2_rejects. Qed.
Print Assumptions C11_hermite2_rejects.

(** hermite2_lstsq uses all coefficients: requested degrees, the fixed coefficient is 1, and if some
    triple with that coefficient equal to 1 is exact for all given coefficients, so is the result. *)
Theorem C11_hermite2_lstsq :
  forall (K : Fld) lstsq, @lstsq_ok K lstsq ->
  forall svd_fix an pd qd rd fix_qr p q r,
  hermite2_lstsq lstsq svd_fix an pd qd rd fix_qr = Ok (p, q, r) ->
  length p = S pd /\ length q = S qd /\ length r = S rd /\ (nonzero q \/ nonzero r) /\
  (forall i, fix_qr = Some (Z.of_nat i) -> nonzero an ->
     nth i (q ++ r) 0 = 1 /\
     ((exists p' q' r', length p' = S pd /\ length q' = S qd /\ length r' = S rd /\
         nth i (q' ++ r') 0 = 1 /\ accurate2 p' q' r' an (length an)) ->
       accurate2 p q r an (length an))) /\
  (~ nonzero an -> accurate2 p q r an (length an)).
Proof. exact hermite2_lstsq_ok. Qed.
Print Assumptions C11_hermite2_lstsq.

(** [1/0/0] for sqrt(1+x) = 1 + x/2 - x^2/8 + ...: -(1+x) + f^2 = 0. *)
Example C11_example :
  show_pqr (hermite2 gauss_nullvec (lq [1; 1#2; -(1#8); 1#16]%Q) 1 0 0) = Ok ([-1; -1], [0], [1])%Q /\
  show_pqr (hermite2_lstsq gauss_lstsq (fun _ => 0%nat) (lq [1; 1#2; -(1#8); 1#16]%Q) 1 0 0 (Some 1%Z))
  = Ok ([-1; -1], [0], [1])%Q.
Proof. vm_compute. split; reflexivity. Qed.

(** The guiding Padé degrees chosen by Hermite2.from_taylor are non-negative and need no more
    coefficients than the Hermite-Padé approximant: it never fails if hermite2 does not. *)
Theorem C11_from_taylor :
  forall (K : Fld) nullvec solve an dp dq dr, @nullvec_ok K nullvec ->
  (dp + dq + dr + 2 <= length an)%nat ->
  exists pqr num den pq, from_taylor nullvec solve an dp dq dr = Ok (pqr, pq) /\
    hermite2 nullvec an dp dq dr = Ok pqr /\
    (num + den <= dp + dq + dr)%nat /\ pade nullvec solve an num den false = Ok pq.
Proof. exact from_taylor_total. Qed.
Print Assumptions C11_from_taylor.

Theorem C11_lstsq_contract_satisfiable : forall K : Fld, @lstsq_ok K gauss_lstsq.
Proof. exact @gauss_lstsq_ok. Qed.
Print Assumptions C11_lstsq_contract_satisfiable.

(** C12. [quad p q r z G] is p(z) + q(z) G + r(z) G^2 = 0. *)
Theorem C12_branches_solve :
  forall (p q r : list C) z a b, eval_branches p q r z = Ok (a, b) ->
  forall G, quad p q r z G <-> G = a \/ G = b.
Proof. exact branches_solve. Qed.
Print Assumptions C12_branches_solve.

Theorem C12_branches_defined :
  forall (p q r : list C) z, cpoly r z <> RtoC 0 <-> exists a b, eval_branches p q r z = Ok (a, b).
Proof. exact branches_defined. Qed.
Print Assumptions C12_branches_defined.

(** The stable evaluation returns the + branch first and the - branch second. *)
Theorem C12_branches_order :
  forall (p q r : list C) z a b, eval_branches p q r z = Ok (a, b) ->
  cpoly r z <> RtoC 0 /\
  (let s := csqrt (cpoly q z * cpoly q z - 4 * cpoly p z * cpoly r z) in
   a = (- cpoly q z + s) / (2 * cpoly r z) /\ b = (- cpoly q z - s) / (2 * cpoly r z))%C.
Proof. exact branches_value. Qed.
Print Assumptions C12_branches_order.

Theorem C12_eval_nearest :
  forall (p q r numer denom : list C) z g, hermite2_eval p q r numer denom z = Ok g ->
  quad p q r z g /\ cpoly denom z <> RtoC 0 /\
  forall G, quad p q r z G ->
    Rle (Cmod (g - cpoly numer z / cpoly denom z)%C) (Cmod (G - cpoly numer z / cpoly denom z)%C).
Proof. exact hermite2_eval_nearest. Qed.
Print Assumptions C12_eval_nearest.

Theorem C12_eval_retarded :
  forall (p q r : list C) z g, hermite2ret_eval p q r z = Ok g ->
  quad p q r z g /\
  ((exists G, quad p q r z G /\ (snd G <= 0)%R) ->
     (snd g <= 0)%R /\ forall G, quad p q r z G -> (snd G <= 0)%R -> (snd G <= snd g)%R) /\
  ((forall G, quad p q r z G -> (0 < snd G)%R) -> forall G, quad p q r z G -> (snd g <= snd G)%R).
Proof. exact hermite2ret_eval_ok. Qed.
Print Assumptions C12_eval_retarded.

(** G^2 = 1 at every z, guided by the constant 1: both evaluations are defined there. *)
Example C12_example :
  forall z : C, (exists a b, eval_branches [RtoC (-1)] [RtoC 0] [RtoC 1] z = Ok (a, b)) /\
  (exists g, hermite2_eval [RtoC (-1)] [RtoC 0] [RtoC 1] [RtoC 1] [RtoC 1] z = Ok g) /\
  (exists g, hermite2ret_eval [RtoC (-1)] [RtoC 0] [RtoC 1] z = Ok g).
Proof. exact c12_example. Qed.

(** C13 *)
Theorem C13_zero_refuted :
  forall (K : Fld) (nullvec : list (list K) -> list K) rank,
  exists an num den p q, (num + den + 1 <= length an)%nat /\
    pader nullvec small0 rank an num den = Ok (p, q) /\ ~ accurate p q an 1.
Proof. exact pader_zero_refuted. Qed.
Print Assumptions C13_zero_refuted.

Theorem C13_polynomial_refuted :
  forall (K : Fld) (nullvec : list (list K) -> list K) rank,
  pader nullvec small0 rank [1; 1] 1 0 = Err ValueError.
Proof. exact pader_poly_refuted. Qed.
Print Assumptions C13_polynomial_refuted.

(** No polynomial request returns anything but zero. *)
Theorem C13_polynomial_never :
  forall (K : Fld) (nullvec : list (list K) -> list K) small rank an num, (num + 1 <= length an)%nat ->
  pader nullvec small rank an num 0 = Ok ([0], [1]) \/ pader nullvec small rank an num 0 = Err ValueError.
Proof. exact pader_den0. Qed.
Print Assumptions C13_polynomial_never.

(** The constant 1 requested with degrees [1/1] raises after the degree reduction. *)
Theorem C13_reduction_refuted :
  forall (K : Fld) (nullvec : list (list K) -> list K) rank, rank [[0; 0]] = 0%nat ->
  pader nullvec small0 rank [1; 0; 0] 1 1 = Err ValueError.
Proof. exact pader_reduced_refuted. Qed.
Print Assumptions C13_reduction_refuted.

(** What is returned otherwise: q(0) <> 0, degrees reduced by [del] (0 at full rank), and the
    approximation order drops by twice that and by the number [lam] of stripped leading zeros. *)
Theorem C13_accuracy_partial :
  forall (K : Fld) (nullvec : list (list K) -> list K) small rank, nullvec_ok nullvec ->
  forall an num den p q,
  existsb (fun x => negb (small (firstn (num + den + 1) an) x)) (firstn num an) = true ->
  pader nullvec small rank an num den = Ok (p, q) ->
  exists del lam,
    (length p + del <= S num)%nat /\ (length q + del + lam <= S den)%nat /\ nth 0 q 0 <> 0 /\
    (rank (tblock K (firstn (num + den + 1) an) num den) = den -> del = 0%nat) /\
    accurate p q an (num + den + 1 - 2 * del - lam).
Proof. exact pader_accurate. Qed.
Print Assumptions C13_accuracy_partial.

Example C13_example :
  show_pq (pader gauss_nullvec small0 rank1 (lq [1; 1; 1; 1]%Q) 1 1) = Ok ([-1], [-1; 1])%Q.
Proof. vm_compute. reflexivity. Qed.

(** C14 *)
Theorem C14_degrees_partial :
  forall (K : Fld) lstsq, @lstsq_ok K lstsq ->
  forall an num den fix_q p q, (0 < den)%nat ->
  pade_lstsq lstsq an num den fix_q = Ok (p, q) ->
  length p = S num /\ length q = S den /\ nth 0 q 0 = 1 /\
  ((exists p' q', length p' = S num /\ length q' = S den /\ nth 0 q' 0 = 1 /\ accurate p' q' an (length an)) ->
   accurate p q an (length an)).
Proof. exact pade_lstsq_ok. Qed.
Print Assumptions C14_degrees_partial.

Theorem C14_degree_refuted :
  forall (K : Fld) lstsq,
  exists (an : list K) num den p q, pade_lstsq lstsq an num den None = Ok (p, q) /\
    exists k, (num < k)%nat /\ nth k p 0 <> 0.
Proof. exact pade_lstsq_degree_refuted. Qed.
Print Assumptions C14_degree_refuted.

(** The argument fix_q never influences the result. *)
Theorem C14_fix_q_ignored :
  forall (K : Fld) lstsq (an : list K) num den fix1 fix2,
  pade_lstsq lstsq an num den fix1 = pade_lstsq lstsq an num den fix2.
Proof. exact pade_lstsq_fix_ignored. Qed.
Print Assumptions C14_fix_q_ignored.

(** 1/(1-2x) from five coefficients *)
Example C14_example :
  show_pq (pade_lstsq gauss_lstsq (lq [1; 2; 4; 8; 16]%Q) 1 1 None) = Ok ([1; 0], [1; -2])%Q.
Proof. vm_compute. reflexivity. Qed.
