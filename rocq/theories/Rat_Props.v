(** * Property C55: rational function representations *)
From Coq Require Import List Bool Reals QArith Qcanon.
From Coquelicot Require Import Coquelicot.
From Verif Require Import Base CBase Rat_Model Rat_Proofs.
Import ListNotations.
Local Open Scope fld_scope.

(** The polynomial representation evaluates like the representation by zeros and poles, also where it is singular. *)
Theorem C55_to_ratpol : forall (K : Fld) (zeros poles : list K) (a z : K),
  rp_eval (to_ratpol (ZeroPole zeros poles a)) z = zp_eval (ZeroPole zeros poles a) z.
Proof. intros. apply eval_ratpol. Qed.
Print Assumptions C55_to_ratpol.

(** eval is finite exactly off the poles and vanishes exactly at the zeros *)
Theorem C55_poles_zeros : forall (K : Fld) (zeros poles : list K) (a z : K),
  ((exists v, zp_eval (ZeroPole zeros poles a) z = Ok v) <-> ~ In z poles)
  /\ (a <> 0 -> ~ In z poles -> (zp_eval (ZeroPole zeros poles a) z = Ok 0 <-> In z zeros)).
Proof. intros. split; [apply (eval_defined K (ZeroPole zeros poles a))|intros Ha Hp; apply (eval_zero K (ZeroPole zeros poles a)); assumption]. Qed.
Print Assumptions C55_poles_zeros.

(** reciprocal is one over eval; it is the function with zeros and poles exchanged *)
Theorem C55_reciprocal : forall (K : Fld) (zeros poles : list K) (a z : K),
  (forall v, zp_eval (ZeroPole zeros poles a) z = Ok v -> v <> 0 -> zp_reciprocal (ZeroPole zeros poles a) z = Ok (1 / v))
  /\ (a <> 0 -> zp_reciprocal (ZeroPole zeros poles a) z = zp_eval (ZeroPole poles zeros (1 / a)) z).
Proof. intros. split; [intros v; apply reciprocal_ok|apply (reciprocal_swap K (ZeroPole zeros poles a))]. Qed.
Print Assumptions C55_reciprocal.

(** The amplitude is the large z limit: eval(z) ~ amplitude * z^(Nz-Np). *)
Theorem C55_amplitude : forall (zeros poles : list C) (a : C) (eps : R), (0 < eps)%R -> exists M, forall z : C, (M < Cmod z)%R ->
  exists v, zp_eval (K := CF) (ZeroPole (K := CF) zeros poles a) z = Ok v /\
   (Cmod ((v : C) * fpow (K := CF) z (length poles) / fpow (K := CF) z (length zeros) - a)%C < eps)%R.
Proof. intros zeros poles a. exact (eval_limit (ZeroPole (K := CF) zeros poles a)). Qed.
Print Assumptions C55_amplitude.

(** ** concrete case: 2 (z-1)(z+1/2)/((z-3)(z+2)) at z = 2, at a zero and at a pole *)
Definition ex_zp : zeropole QcF := ZeroPole (K := QcF) [qc 1; qc (-1#2)] [qc 3; qc (-2)] (qc 2).
Example C55_ex : show (zp_eval ex_zp (qc 2)) = Ok (-5#4)%Q /\ show (rp_eval (to_ratpol ex_zp) (qc 2)) = Ok (-5#4)%Q
  /\ show (zp_reciprocal ex_zp (qc 2)) = Ok (-4#5)%Q /\ show (zp_eval ex_zp (qc 1)) = Ok 0%Q
  /\ zp_eval ex_zp (qc 3) = Err NonFinite /\ map this (rp_numer (to_ratpol ex_zp)) = [(-1)%Q; (-1)%Q; 2%Q].
Proof. repeat split; vm_compute; reflexivity. Qed.
