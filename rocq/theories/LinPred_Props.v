(** * Properties C15-C18, C56, C57: linear prediction. *)
From Coq Require Import List Arith ZArith QArith Qcanon Reals Lia Lra Bool.
From Coquelicot Require Import Coquelicot.
From Verif Require Import Base FSum CBase Herm_Model Herm_Spec Herm_Proofs Herm_Gauss LinPred_Model LinPred_Proofs LinPred_Burg.
Import ListNotations.
Local Open Scope fld_scope.

(** C15 *)
Theorem C15_predict_recurrence :
  forall (K : Fld) decompose bad (x pcoeff : list K) (num : Z),
  (length pcoeff <= length x)%nat -> (0 <= num)%Z ->
  exists y, predict decompose bad x pcoeff num false = Ok y /\
    length y = (length x + Z.to_nat num)%nat /\ firstn (length x) y = x /\
    forall l, (length x <= l)%nat -> (l < length y)%nat ->
      nth l y 0 = - nsum (length pcoeff) (fun k => nth k pcoeff 0 * nth (l - 1 - k) y 0).
Proof. exact predict_spec. Qed.
Print Assumptions C15_predict_recurrence.

Theorem C15_predict_negative_num :
  forall (K : Fld) decompose bad (x pcoeff : list K) num stable, (num < 0)%Z ->
  predict decompose bad x pcoeff num stable = Err ValueError.
Proof. exact predict_negative. Qed.
Print Assumptions C15_predict_negative_num.

(** Fibonacci: x_l = x_{l-1} + x_{l-2}; and the series 2^l with one coefficient. *)
Definition no_dec (m : list (list QcF)) : decomp (K := QcF) := {| d_rv := []; d_eig := []; d_rv_inv := [] |}.
Definition show_l (r : result (list QcF)) : result (list Q) := match r with Ok l => Ok (map this l) | Err e => Err e end.
Example C15_example :
  show_l (predict no_dec (fun _ => false) (map qc [1; 1]%Q) (map qc [-1; -1]%Q) 5 false)
  = Ok [1; 1; 2; 3; 5; 8; 13]%Q /\
  show_l (predict no_dec (fun _ => false) (map qc [1; 3; 2]%Q) (map qc [-2; 1#2]%Q) 2 false)
  = Ok [1; 3; 2; 5#2; 4]%Q /\
  show_l (predict no_dec (fun _ => false) (map qc [1]%Q) (map qc [-2]%Q) (-1) false) = Err ValueError.
Proof. vm_compute. repeat split. Qed.

(** C16.  [res] is the vector whose norm the code returns as error. *)
Theorem C16_covar_reproduces :
  forall (K : Fld) decompose bad lstsq (x : list K) order coeff res m,
  (0 < order)%nat -> lstsq_ok lstsq ->
  pcoeff_covar lstsq x order = Ok (coeff, res) ->
  (forall r, In r res -> r = 0) ->
  (order <= m)%nat -> (m <= length x)%nat ->
  predict decompose bad (firstn m x) coeff (Z.of_nat (length x - m)) false = Ok x.
Proof. exact covar_reproduces. Qed.
Print Assumptions C16_covar_reproduces.

Theorem C16_covar_rejects :
  forall (K : Fld) lstsq (x : list K) order, (length x <= order)%nat -> pcoeff_covar lstsq x order = Err ValueError.
Proof. exact covar_rejects. Qed.
Print Assumptions C16_covar_rejects.

Definition show_ll (r : result (list QcF * list QcF)) : result (list Q * list Q) :=
  match r with Ok (a, b) => Ok (map this a, map this b) | Err e => Err e end.
Example C16_example :
  show_ll (pcoeff_covar gauss_lstsq (map qc [1; 1; 2; 3; 5; 8]%Q) 2) = Ok ([-1; -1]%Q, [0; 0; 0; 0]%Q) /\
  show_ll (pcoeff_covar gauss_lstsq (map qc [1; 2; 4; 8]%Q) 1) = Ok ([-2]%Q, [0; 0; 0]%Q) /\
  show_ll (pcoeff_covar gauss_lstsq (map qc [1; 2]%Q) 2) = Err ValueError.
Proof. vm_compute. repeat split. Qed.

(** C17 *)
Theorem C17_companion_steps :
  forall (K : Fld) (pcoeff xs : list K) M ys,
  companion (1 :: pcoeff) = Ok M -> (length pcoeff <= length xs)%nat ->
  predict_loop 1 pcoeff xs = Ok ys ->
  matvec M (rev (lastn (length pcoeff) xs)) = rev (lastn (length pcoeff) ys).
Proof. exact companion_step. Qed.
Print Assumptions C17_companion_steps.

Theorem C17_companion_eigenvalues :
  forall (K : Fld) (a : list K) M lam, companion a = Ok M ->
  (exists v, length v = (length a - 1)%nat /\ nonzero v /\ matvec M v = map (Fmul lam) v) <->
  nsum (length a) (fun k => nth k a 0 * fpow lam (length a - 1 - k)) = 0.
Proof. exact companion_eigen. Qed.
Print Assumptions C17_companion_eigenvalues.

Theorem C17_companion_rejects :
  forall (K : Fld) (a : list K), companion a = Err ValueError <-> ((length a < 2)%nat \/ nth 0 a 0 = 0).
Proof. exact companion_rejects. Qed.
Print Assumptions C17_companion_rejects.

Definition show_m (r : result (list (list QcF))) : result (list (list Q)) :=
  match r with Ok l => Ok (map (map this) l) | Err e => Err e end.
Example C17_example :
  show_m (companion (map qc [2; -6; 4; 8]%Q)) = Ok [[3; -2; -4]; [1; 0; 0]; [0; 1; 0]]%Q /\
  show_m (companion (map qc [0; 1]%Q)) = Err ValueError /\
  show_m (companion (map qc [1]%Q)) = Err ValueError.
Proof. vm_compute. repeat split. Qed.

(** C18 *)
Theorem C18_burg_stable :
  forall (x : list C) order a rho, pcoeff_burg x order = Ok (a, rho) ->
  length a = order /\
  (0 <= rho <= rsum (map abs2 x) / INR (length x))%R /\
  (forall z, (1 < Cmod z)%R -> lp_poly a z <> RtoC 0) /\
  ((0 < rho)%R -> forall z, (1 <= Cmod z)%R -> lp_poly a z <> RtoC 0).
Proof. exact burg_spec. Qed.
Print Assumptions C18_burg_stable.

Theorem C18_burg_reflection_bounded :
  forall (x : list C) order a rho, pcoeff_burg x order = Ok (a, rho) -> (Cmod (nth (order - 1) a (RtoC 0)) <= 1)%R.
Proof. exact burg_reflection. Qed.
Print Assumptions C18_burg_reflection_bounded.

(** residual power does not increase with the order *)
Theorem C18_burg_monotone :
  forall (x : list C) order a rho a' rho', pcoeff_burg x order = Ok (a, rho) -> pcoeff_burg x (S order) = Ok (a', rho') ->
  (rho' <= rho)%R /\ rho' = ((1 - abs2 (nth order a' (RtoC 0))) * rho)%R.
Proof. exact burg_monotone. Qed.
Print Assumptions C18_burg_monotone.

Example C18_example : pcoeff_burg [RtoC 1; RtoC 1; RtoC 0] 1 = Ok ([RtoC (-2/3)], (10/27)%R).
Proof. exact burg_example. Qed.

(** C56 *)
Theorem C56_burg_errors :
  forall (x : list C) k s0 s, burg_init x = Ok s0 -> burg_loop k s0 = Ok s ->
  forall t, (t < length x - 1 - k)%nat ->
    nth t (b_forw s) (RtoC 0) = ferr (b_a s) x t /\ nth t (b_back s) (RtoC 0) = berr (b_a s) x t.
Proof. exact burg_errors. Qed.
Print Assumptions C56_burg_errors.

Theorem C56_burg_optimal :
  forall (x : list C) k s0 s s', burg_init x = Ok s0 -> burg_loop k s0 = Ok s -> burg_step s = Ok s' ->
  let kk := last (b_a s') (RtoC 0) in
  let E := fun c : C => (rsum (map abs2 (zipc (fun f b => Cplus f (Cmult c b)) (b_forw s) (b_back s)))
                        + rsum (map abs2 (zipc (fun b f => Cplus b (Cmult (Cconj c) f)) (b_back s) (b_forw s))))%R in
  (forall c, (E kk <= E c)%R) /\ (forall c, E c = E kk -> c = kk).
Proof. exact burg_optimal. Qed.
Print Assumptions C56_burg_optimal.

(** C57 *)
Theorem C57_stable_equals_naive :
  forall (K : Fld) decompose bad (x pcoeff : list K) num M,
  companion (1 :: pcoeff) = Ok M -> decomp_ok M (decompose M) ->
  (forall e, In e (d_eig (decompose M)) -> bad e = false) ->
  (length pcoeff <= length x)%nat ->
  predict decompose bad x pcoeff num true = predict decompose bad x pcoeff num false.
Proof. exact predict_stable_eq. Qed.
Print Assumptions C57_stable_equals_naive.

Theorem C57_stable_bounded :
  forall (decompose : list (list C) -> decomp (K := CF)) (x pcoeff : list C),
  exists B : R, forall num (y : list C), predict (K := CF) decompose outside_unit x pcoeff num true = Ok y ->
    length y = (length x + Z.to_nat num)%nat /\ firstn (length x) y = x /\
    forall i, (length x <= i)%nat -> (i < length y)%nat -> (Cmod (nth i y (RtoC 0)) <= B)%R.
Proof. exact predict_stable_bounded. Qed.
Print Assumptions C57_stable_bounded.

(** companion of [1, -3/4, 1/8]: eigenvalues 1/2 and 1/4. *)
Definition ex_dec (m : list (list QcF)) : decomp (K := QcF) :=
  {| d_rv := map (map qc) [[1#2; 1#4]; [1; 1]]%Q; d_eig := map qc [1#2; 1#4]%Q;
     d_rv_inv := map (map qc) [[4; -1]; [-4; 2]]%Q |}.
Definition qbad (e : QcF) : bool := match Qccompare e (Q2Qc 1) with Gt => true | _ => false end.
Example C57_example :
  show_l (predict ex_dec qbad (map qc [1; 2; 3]%Q) (map qc [-3#4; 1#8]%Q) 2 true)
  = show_l (predict ex_dec qbad (map qc [1; 2; 3]%Q) (map qc [-3#4; 1#8]%Q) 2 false) /\
  show_l (predict ex_dec qbad (map qc [1; 2; 3]%Q) (map qc [-3#4; 1#8]%Q) 2 true) = Ok [1; 2; 3; 2; 9#8]%Q.
Proof. vm_compute. repeat split. Qed.
