(** * Properties of the pole fits: C26 *)
From Coq Require Import List Arith ZArith Reals Lia Lra Bool.
From Coquelicot Require Import Coquelicot.
From Verif Require Import Base FSum CBase CExp Stat_Model Stat_Proofs Linalg_Model Linalg_Proofs Mat Backend Pole_Model Pole_Proofs Pole_Proofs2 Pole_Time Pole_Fit Pole_Spec Pole_Bridge.
Import ListNotations.
Local Open Scope R_scope.

(** [backend_ok] is the contract of numpy's qr/lstsq and scipy's solve_triangular in exact arithmetic
    (Linalg_Proofs); C24_backend_exists shows it can be met.  [EC] is the modelled lstsq_ec. *)
Notation EC qr tri lstsq allclose0 := (Linalg_Model.lstsq_ec (K := RF) (fun x => x) qr tri lstsq allclose0).

(** gf_from_z: moments exact, poles distinct and inside the width, least squares among all admissible residues *)
Theorem C26_from_z : forall qr tri lstsq allclose0, backend_ok RF (fun x => x) rle qr tri lstsq allclose0 ->
  forall z gfz n moms width weight,
  length gfz = length z -> (1 <= n)%nat -> (length moms <= n)%nat -> width <> Some 0 ->
  (forall w p, In w z -> In p (nodes (node_scale width moms n) n) -> w <> RtoC p) ->
  exists poles resid, gf_from_z lstsq (EC qr tri lstsq allclose0) z gfz n moms width weight = Ok (poles, resid) /\
    length poles = n /\ length resid = n /\ NoDup poles /\
    (forall w, width = Some w -> forall p, In p poles -> Rabs p <= Rabs w) /\
    (forall k, (k < length moms)%nat -> moment (K := RF) poles resid k = nth k moms 0) /\
    (forall resid' : list R, length resid' = n -> (forall k, (k < length moms)%nat -> moment (K := RF) poles resid' k = nth k moms 0) ->
       dist_z z gfz weight poles resid <= dist_z z gfz weight poles resid').
Proof.
  unspec. intros qr tri lstsq allclose0 HB z gfz n moms width weight Hl Hn Hm Hw Hz. rewrite node_scale_eq in Hz by exact Hn.
  destruct (gf_from_z_spec qr tri lstsq allclose0 HB z gfz n moms width weight Hl Hn Hm Hw Hz) as (p & r & E & L1 & L2 & N & B & M & C).
  exists p, r. repeat (split; [assumption|]). intros r' L' M'. rewrite <- !z_cost_spec. now apply C.
Qed.
Print Assumptions C26_from_z.

Theorem C26_from_z_overconstrained : forall qr tri lstsq allclose0 z gfz n moms width weight,
  (1 <= n)%nat -> (n < length moms)%nat ->
  gf_from_z lstsq (EC qr tri lstsq allclose0) z gfz n moms width weight = Err ValueError.
Proof. exact gf_from_z_overconstrained. Qed.
Print Assumptions C26_from_z_overconstrained.

(** gf_from_tau without occupation *)
Theorem C26_from_tau : forall qr tri lstsq allclose0, backend_ok RF (fun x => x) rle qr tri lstsq allclose0 ->
  forall gftau n beta moms width weight,
  0 <= beta -> (1 <= n)%nat -> (length moms <= n)%nat -> width <> 0 ->
  exists poles resid, gf_from_tau lstsq (EC qr tri lstsq allclose0) gftau n beta moms 0 width weight = Ok (poles, resid) /\
    length poles = n /\ length resid = n /\ NoDup poles /\ (forall p, In p poles -> Rabs p <= Rabs width) /\
    (forall k, (k < length moms)%nat -> moment (K := RF) poles resid k = nth k moms 0) /\
    (forall resid' : list R, length resid' = n -> (forall k, (k < length moms)%nat -> moment (K := RF) poles resid' k = nth k moms 0) ->
       dist_tau gftau beta weight poles resid <= dist_tau gftau beta weight poles resid').
Proof.
  unspec. intros qr tri lstsq allclose0 HB gftau n beta moms width weight Hb Hn Hm Hw.
  destruct (gf_from_tau_moments qr tri lstsq allclose0 HB gftau n beta moms width weight Hb Hn Hm Hw) as (p & r & E & L1 & L2 & N & B & M & C).
  exists p, r. repeat (split; [assumption|]). intros r' L' M'. rewrite <- !tau_cost_spec by exact Hb. now apply C.
Qed.
Print Assumptions C26_from_tau.

Theorem C26_from_tau_overconstrained : forall qr tri lstsq allclose0 gftau n beta moms occ width weight,
  0 <= beta -> (1 <= n)%nat -> (0 < length moms)%nat -> (Z.of_nat n < Z.of_nat (length moms) + trunc occ)%Z ->
  gf_from_tau lstsq (EC qr tri lstsq allclose0) gftau n beta moms occ width weight = Err ValueError.
Proof. exact gf_from_tau_overconstrained. Qed.
Print Assumptions C26_from_tau_overconstrained.

(** gf_from_tau with occupation.  Partial: the property asks for every n >= m + 1, but the code stacks one occupation
    row per moment; it holds for n >= 2 m (and for m = 1 the fit is optimal). *)
Theorem C26_from_tau_occ_partial : forall qr tri lstsq allclose0, backend_ok RF (fun x => x) rle qr tri lstsq allclose0 ->
  forall gftau n beta moms occ width weight,
  0 < beta -> occ <> 0 -> (1 <= length moms)%nat -> (2 * length moms <= n)%nat ->
  (Z.of_nat (length moms) + trunc occ <= Z.of_nat n)%Z -> width <> 0 ->
  exists poles resid, gf_from_tau lstsq (EC qr tri lstsq allclose0) gftau n beta moms occ width weight = Ok (poles, resid) /\
    length poles = n /\ length resid = n /\ NoDup poles /\ (forall p, In p poles -> Rabs p <= Rabs width) /\
    (forall k, (k < length moms)%nat -> moment (K := RF) poles resid k = nth k moms 0) /\
    occupation poles resid beta = occ.
Proof. unspec. exact gf_from_tau_occ. Qed.
Print Assumptions C26_from_tau_occ_partial.

Theorem C26_from_tau_occ_optimal_partial : forall qr tri lstsq allclose0, backend_ok RF (fun x => x) rle qr tri lstsq allclose0 ->
  forall gftau n beta mom occ width weight,
  0 < beta -> occ <> 0 -> (2 <= n)%nat -> (1 + trunc occ <= Z.of_nat n)%Z -> width <> 0 ->
  exists poles resid, gf_from_tau lstsq (EC qr tri lstsq allclose0) gftau n beta [mom] occ width weight = Ok (poles, resid) /\
    length poles = n /\ length resid = n /\
    moment (K := RF) poles resid 0 = mom /\ occupation poles resid beta = occ /\
    forall resid' : list R, length resid' = n -> moment (K := RF) poles resid' 0 = mom -> occupation poles resid' beta = occ ->
       dist_tau gftau beta weight poles resid <= dist_tau gftau beta weight poles resid'.
Proof.
  unspec. intros qr tri lstsq allclose0 HB gftau n beta mom occ width weight Hb Ho Hn Hz Hw.
  destruct (gf_from_tau_occ1 qr tri lstsq allclose0 HB gftau n beta mom occ width weight Hb Ho Hn Hz Hw) as (p & r & E & L1 & L2 & M & O & C).
  exists p, r. repeat (split; [assumption|]). intros r' L' M' O'. rewrite <- !tau_cost_spec by lra. now apply C.
Qed.
Print Assumptions C26_from_tau_occ_optimal_partial.

(** the remaining cases fail *)
Theorem C26_from_tau_occ_shape : forall qr tri lstsq allclose0, backend_ok RF (fun x => x) rle qr tri lstsq allclose0 ->
  forall gftau n beta moms occ width weight,
  0 <= beta -> occ <> 0 -> (1 <= n)%nat -> (n < 2 * length moms)%nat ->
  gf_from_tau lstsq (EC qr tri lstsq allclose0) gftau n beta moms occ width weight = Err ValueError.
Proof. exact gf_from_tau_occ_shape. Qed.
Print Assumptions C26_from_tau_occ_shape.

Theorem C26_from_tau_occ_only : forall qr tri lstsq allclose0 gftau n beta occ width weight,
  0 <= beta -> occ <> 0 -> (1 <= n)%nat ->
  gf_from_tau lstsq (EC qr tri lstsq allclose0) gftau n beta [] occ width weight = Err ValueError.
Proof. exact gf_from_tau_occ_only. Qed.
Print Assumptions C26_from_tau_occ_only.

Lemma ex_cheb3 : poles_of 1 3 = [- (sqrt 3 / 2); 0; sqrt 3 / 2].
Proof.
  unfold poles_of. cbn [seq map]. unfold cheb. cbn [INR].
  replace (1 / 2 * PI / (1 + 1 + 1) * (- (1 + 1 + 1) + 1 + 2 * 0)) with (- (PI / 3)) by field.
  replace (1 / 2 * PI / (1 + 1 + 1) * (- (1 + 1 + 1) + 1 + 2 * 1)) with 0 by field.
  replace (1 / 2 * PI / (1 + 1 + 1) * (- (1 + 1 + 1) + 1 + 2 * (1 + 1))) with (PI / 3) by field.
  rewrite sin_neg, sin_PI3, sin_0. now rewrite !Rmult_1_l.
Qed.

(** "raises ValueError iff there are more constraints than poles" is false: two moments and one occupation are three
    constraints, three poles can meet them, yet the fit raises ValueError *)
Theorem C26_iff_overconstrained_refuted : exists moms occ beta n,
  (length moms + 1 <= n)%nat /\
  (exists resid : list R, length resid = n /\ (forall k, (k < length moms)%nat -> moment (K := RF) (nodes 1 n) resid k = nth k moms 0) /\
     occupation (nodes 1 n) resid beta = occ) /\
  forall qr tri lstsq allclose0, backend_ok RF (fun x => x) rle qr tri lstsq allclose0 ->
  forall gftau weight, gf_from_tau lstsq (EC qr tri lstsq allclose0) gftau n beta moms occ 1 weight = Err ValueError.
Proof.
  unspec. exists [1; 0], (1/2), 1, 3%nat. split; [cbn; lia|]. split.
  - exists [0; 1; 0]. rewrite ex_cheb3. split; [reflexivity|]. split.
    + intros [|[|k]] Hk; [| |cbn in Hk; lia]; unfold moments; cbn [combine map fst snd Nat.sub fpow nth]; rewrite !(lsum_cons RF);
        cbn [Fmul Fadd RF lsum fold_right F0 F1 fold_left]; unfold lsum; cbn; ring.
    + unfold pole_occ. cbn [combine map fst snd]. rewrite !(lsum_cons RF). change (0 * fermi_fct (- (sqrt 3 / 2)) 1 + (1 * fermi_fct 0 1 + (0 * fermi_fct (sqrt 3 / 2) 1 + 0)) = 1 / 2).
      rewrite (fermi_def 0), Rmult_0_r, exp_0. lra.
  - intros qr tri lstsq ac HB gftau weight. apply (gf_from_tau_occ_shape qr tri lstsq ac HB); try lra; cbn; lia.
Qed.
Print Assumptions C26_iff_overconstrained_refuted.
(** an occupation alone is one constraint, but is rejected for every number of poles *)
Theorem C26_occ_only_refuted : forall n occ, (1 <= n)%nat -> occ <> 0 -> exists gftau beta, 0 < beta /\
  forall qr tri lstsq allclose0 weight, gf_from_tau lstsq (EC qr tri lstsq allclose0) gftau n beta [] occ 1 weight = Err ValueError.
Proof. intros n occ Hn Ho. exists [0], 1. split; [lra|]. intros. apply gf_from_tau_occ_only; try assumption; lra. Qed.
Print Assumptions C26_occ_only_refuted.
(** occ = 0 is ignored: the result can have occupation 1/2 *)
Theorem C26_occ_zero_refuted : forall qr tri lstsq allclose0, backend_ok RF (fun x => x) rle qr tri lstsq allclose0 ->
  forall gftau beta weight, 0 <= beta ->
  exists resid, gf_from_tau lstsq (EC qr tri lstsq allclose0) gftau 1 beta [1] 0 1 weight = Ok ([0], resid) /\ occupation [0] resid beta = 1 / 2.
Proof. unspec. exact gf_from_tau_occ_zero_ignored. Qed.
Print Assumptions C26_occ_zero_refuted.

(** a case meeting all hypotheses *)
Example C26_example : exists qr tri lstsq allclose0 poles resid,
  gf_from_tau lstsq (EC qr tri lstsq allclose0) [-1/2; -1/4; -1/2] 4 2 [1; 1/3] (1/2) 1 None = Ok (poles, resid) /\
  moment (K := RF) poles resid 0 = 1 /\ moment (K := RF) poles resid 1 = 1/3 /\ occupation poles resid 2 = 1/2.
Proof.
  destruct real_backend as (qr & tri & ls & ac & HB). exists qr, tri, ls, ac.
  destruct (C26_from_tau_occ_partial qr tri ls ac HB [-1/2; -1/4; -1/2] 4 2 [1; 1/3] (1/2) 1 None) as (p & r & E & _ & _ & _ & _ & HM & HO);
    try lra; [cbn; lia|cbn; lia| |].
  - assert (trunc (1/2) = 0%Z) as ->; [|cbn; lia].
    unfold trunc. destruct (Rle_dec 0 (1/2)); [|lra]. unfold Int_part. rewrite <- (tech_up (1/2) 1); cbn; lra || lia.
  - exists p, r. split; [exact E|]. split; [exact (HM 0%nat ltac:(cbn; lia))|]. split; [exact (HM 1%nat ltac:(cbn; lia))|exact HO].
Qed.
