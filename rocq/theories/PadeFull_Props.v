(** * C76: averaged and avg_no_neg_imag from end to end *)
From Coq Require Import Reals List ZArith Lia Lra.
From Coquelicot Require Import Coquelicot.
From Verif Require Import Base CBase Bethe_Proofs Pade_Model Pade_Spec Pade_Proofs PadeAvg_Model PadeKind_Proofs PadeMod_Spec PadeMod_Model PadeMod_Proofs PadeFull_Model PadeFull_Spec PadeFull_Proofs Masked_Spec Masked_Proofs.
Import ListNotations.
Local Open Scope C_scope.

(** [good_kind] holds of every selector KindGf and KindSelf create (C06_accepted_kinds_are_good); [yields zin a kappa z v]: the
    value number kappa which calc_iterator(z, zin, a) yields is the number v.

    avg_no_neg_imag: mean and error are those of exactly the approximants of the kind whose imaginary part at all points of
    valid_z exists and is below the threshold. *)
Theorem C76_no_neg_imag :
  forall z_out z_in valid_z g th k res, good_kind k -> avg_no_neg_imag z_out z_in valid_z g th k = Ok res ->
  let zin := firstn (Z.to_nat (k_stop k)) z_in in
  let vz := match valid_z with Some z => z | None => z_out end in
  exists a ks, given_coeff zin (Z.to_nat (k_stop k)) g = Ok a /\ length a = length zin /\ NoDup ks /\ ks <> [] /\
    (forall kappa, In kappa ks <-> (exists i, Z.of_nat kappa = (k_start k + 2 * Z.of_nat i)%Z) /\ (Z.of_nat kappa < k_stop k)%Z /\ (kappa + 1 < length a)%nat /\
       forall w, In w vz -> exists v, yields zin a kappa w v /\ (snd v < th)%R) /\
    length res = length z_out /\
    forall j z xe, nth_error z_out j = Some z -> nth_error res j = Some xe ->
      exists vs, Forall2 (fun kappa v => yields zin a kappa z v) ks vs /\ column_spec vs xe.
Proof. exact no_neg_imag_spec. Qed.
Print Assumptions C76_no_neg_imag.

(** With any filters, or none, the average reproduces the samples that all approximants use, with vanishing error (NaN if only
    one approximant is left). *)
Theorem C76_reproduces_samples :
  forall z_out z_in valid_z f fs k res i zi fi j xe, good_kind k ->
  averaged z_out z_in valid_z (FctZ f) fs k = Ok res ->
  (Z.of_nat i <= k_start k + 1)%Z -> (Z.of_nat i < k_stop k)%Z -> nth_error z_in i = Some zi -> nth_error f i = Some fi ->
  nth_error z_out j = Some zi -> nth_error res j = Some xe -> fst xe = Some fi /\ (snd xe = Some (RtoC 0) \/ snd xe = None).
Proof. exact reproduces. Qed.
Print Assumptions C76_reproduces_samples.

(** Without filter the call returns whenever the approximants are finite at the output points. *)
Theorem C76_returns :
  forall (z_out z_in : list C) valid_z (f : list C) k (a : list (option C)), good_kind k ->
  let zin := firstn (Z.to_nat (k_stop k)) z_in in
  coefficients (K := CF) zin (firstn (Z.to_nat (k_stop k)) f) = Ok a -> (k_start k + 1 < Z.of_nat (length a))%Z ->
  (forall kappa z, (exists i, Z.of_nat kappa = (k_start k + 2 * Z.of_nat i)%Z) -> (Z.of_nat kappa < k_stop k)%Z -> (kappa + 1 < length a)%nat -> In z z_out ->
     exists v, yields zin a kappa z v) ->
  exists res, averaged z_out z_in valid_z (FctZ f) None k = Ok res.
Proof. exact averaged_returns. Qed.
Print Assumptions C76_returns.

(** A case: four samples, two approximants, evaluated at the second sample. *)
Lemma example_coefficients :
  coefficients (K := CF) [RtoC 0; RtoC 1; RtoC 2; RtoC 3] [RtoC 1; RtoC (1 / 2); RtoC (1 / 2); RtoC (5 / 14)] = Ok (map Some [RtoC 1; RtoC 1; RtoC 1; RtoC 2]).
Proof.
  rewrite coefficients_thiele by reflexivity. f_equal.
  assert (NZ : forall x : R, x <> 0%R -> RtoC x <> RtoC 0) by (intros x Hx E; injection E; exact Hx).
  assert (NE : forall x y : R, x <> y -> RtoC x <> RtoC y) by (intros x y Hx E; injection E; exact Hx).
  change (map Some [RtoC 1; RtoC (1 / 2); RtoC (1 / 2); RtoC (5 / 14)]) with (Some (RtoC 1) :: map Some [RtoC (1 / 2); RtoC (1 / 2); RtoC (5 / 14)]).
  cbn [thiele]. rewrite cmap_inv_diff.
  2: { intros x [<-|[<-|[<-|[]]]]; apply NZ; lra. }
  2: { intros x [<-|[<-|[<-|[]]]]; apply NE; lra. }
  replace (inv_diff 0 1 [RtoC 1; RtoC 2; RtoC 3] [RtoC (1 / 2); RtoC (1 / 2); RtoC (5 / 14)]) with [RtoC 1; RtoC (1 / 2); RtoC (3 / 5)].
  2: { cbn [inv_diff]. repeat f_equal; apply C_ext; cbn; field. }
  change (map Some [RtoC 1; RtoC (1 / 2); RtoC (3 / 5)]) with (Some (RtoC 1) :: map Some [RtoC (1 / 2); RtoC (3 / 5)]).
  cbn [thiele]. rewrite cmap_inv_diff.
  2: { intros x [<-|[<-|[]]]; apply NZ; lra. }
  2: { intros x [<-|[<-|[]]]; apply NE; lra. }
  replace (inv_diff 1 1 [RtoC 2; RtoC 3] [RtoC (1 / 2); RtoC (3 / 5)]) with [RtoC 1; RtoC (1 / 3)].
  2: { cbn [inv_diff]. repeat f_equal; apply C_ext; cbn; field. }
  change (map Some [RtoC 1; RtoC (1 / 3)]) with (Some (RtoC 1) :: map Some [RtoC (1 / 3)]).
  cbn [thiele]. rewrite cmap_inv_diff.
  2: { intros x [<-|[]]; apply NZ; lra. }
  2: { intros x [<-|[]]; apply NE; lra. }
  replace (inv_diff 2 1 [RtoC 3] [RtoC (1 / 3)]) with [RtoC 2].
  2: { cbn [inv_diff]. repeat f_equal; apply C_ext; cbn; field. }
  reflexivity.
Qed.
Example C76_example :
  exists k res xe, KindGf 1 5 = Ok k /\ good_kind k /\
  averaged [RtoC 1] [RtoC 0; RtoC 1; RtoC 2; RtoC 3] None (FctZ [RtoC 1; RtoC (1 / 2); RtoC (1 / 2); RtoC (5 / 14)]) None k = Ok res /\
  nth_error res 0 = Some xe /\ fst xe = Some (RtoC (1 / 2)).
Proof.
  exists (mkKind 0 4 2). assert (Hk : good_kind (mkKind 0 4 2)) by (repeat split; cbn; lia).
  destruct (averaged_returns [RtoC 1] [RtoC 0; RtoC 1; RtoC 2; RtoC 3] None [RtoC 1; RtoC (1 / 2); RtoC (1 / 2); RtoC (5 / 14)] (mkKind 0 4 2) _ Hk example_coefficients) as (res & E).
  - cbn. lia.
  - intros kappa z (i & Hi) L B [<-|[]]. cbn in L, B.
    destruct (calc_iterator_finite CF (RtoC 1) [RtoC 0; RtoC 1; RtoC 2; RtoC 3] [RtoC 1; RtoC 1; RtoC 1; RtoC 2] kappa eq_refl) as (l & v & El & Ev).
    + cbn. lia.
    + intros [|[|[|j]]] Hj; [| | |lia]; cbn; intros E; injection E; lra.
    + exists v, l. split; [exact El|exact Ev].
  - destruct res as [|xe res].
    { destruct (averaged_general _ _ _ _ _ _ _ Hk E) as (? & ? & _ & _ & _ & _ & Lr & _). discriminate Lr. }
    exists (xe :: res), xe. split; [reflexivity|]. split; [exact Hk|]. split; [exact E|]. split; [reflexivity|].
    apply (reproduces _ _ _ _ _ _ _ 1 (RtoC 1) (RtoC (1 / 2)) 0 xe Hk E); try reflexivity; cbn; lia.
Qed.
