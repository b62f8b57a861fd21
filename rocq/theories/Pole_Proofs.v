(** * Proofs about the pole basis *)
From Coq Require Import List Arith ZArith Reals Lia Lra Bool Field.
From Coquelicot Require Import Coquelicot.
From Verif Require Import Base FSum CBase CExp Stat_Model Stat_Proofs Herm_Proofs LinPred_Burg Linalg_Model Linalg_Proofs Mat Pole_Model.
Import ListNotations.

(** ** Generic field: gf_z, moments *)
Section Gen.
Variable K : Fld.
Add Field KFpole : (Fth K).
Local Open Scope fld_scope.

Lemma no_pole (z : K) poles : existsb (fun p => feqb (z - p) 0) poles = false <-> ~ In z poles.
Proof.
  split.
  - intros H Hin. assert (E : existsb (fun p => feqb (z - p) 0) poles = true); [|congruence].
    apply existsb_exists. exists z. split; [exact Hin|]. apply feqb_true. ring.
  - intros H. destruct (existsb _ _) eqn:E; [|reflexivity]. exfalso. apply existsb_exists in E.
    destruct E as (p & Hin & Hp). apply feqb_true in Hp. apply H. apply (proj1 (fsub_eq0 K z p)) in Hp. now rewrite Hp.
Qed.

Theorem gf_z_ok (z : K) poles weights : ~ In z poles ->
  gf_z z poles weights = Ok (lsum (map (fun pw => snd pw / (z - fst pw)) (combine poles weights))).
Proof. intros H. unfold gf_z. now rewrite (proj2 (no_pole z poles) H). Qed.
Theorem gf_z_pole (z : K) poles weights : In z poles -> gf_z z poles weights = Err NonFinite.
Proof.
  intros H. unfold gf_z. destruct (existsb _ _) eqn:E; [reflexivity|]. exfalso. apply no_pole in E. contradiction.
Qed.

Lemma sub_neq0 (z p : K) : z <> p -> z - p <> 0.
Proof. intros H E. apply H. now apply fsub_eq0. Qed.

Lemma pole_expand (z p w : K) n : z <> 0 -> z <> p ->
  w / (z - p) - nsum n (fun k => w * fpow p k / fpow z (S k)) = w * fpow p n / (z - p) / fpow z n.
Proof.
  intros Hz Hp. assert (Hs := sub_neq0 z p Hp). induction n as [|n IH]; cbn [nsum].
  - cbn [fpow]. field. split; [exact Hs|apply F1_neq_0].
  - transitivity (w / (z - p) - nsum n (fun k => w * fpow p k / fpow z (S k)) - w * fpow p n / fpow z (S n)); [ring|].
    rewrite IH. cbn [fpow]. assert (Hpz := fpow_neq0 K z n Hz). field. auto.
Qed.

Theorem pole_moments_expansion (z : K) poles weights n : z <> 0 -> ~ In z poles -> 
  exists g, gf_z z poles weights = Ok g /\
  g - nsum n (fun k => moments poles weights (S k) / fpow z (S k))
  = lsum (map (fun pw => snd pw * fpow (fst pw) n / (z - fst pw)) (combine poles weights)) / fpow z n.
Proof.
  intros Hz Hp. eexists. split; [now apply gf_z_ok|].
  unfold moments. assert (Hin : forall pw, In pw (combine poles weights) -> z <> fst pw).
  { intros [p w] H E. apply Hp. rewrite E. now apply in_combine_l in H. }
  induction (combine poles weights) as [|[p w] l IH].
  - cbn [map lsum fold_right]. rewrite nsum_0'; [|intros k Hk; field; apply fpow_neq0; exact Hz].
    field. apply fpow_neq0; exact Hz.
  - cbn [map]. rewrite !lsum_cons. cbn [fst snd].
    assert (Hpz := fpow_neq0 K z n Hz). assert (Hs := sub_neq0 z p (Hin (p, w) (or_introl eq_refl))).
    rewrite (nsum_ext K n _ (fun k => w * fpow p k / fpow z (S k) + lsum (map (fun pw => snd pw * fpow (fst pw) (S k - 1)) l) / fpow z (S k))).
    2:{ intros k Hk. rewrite lsum_cons. cbn [fst snd]. replace (S k - 1)%nat with k by lia. field. apply fpow_neq0; exact Hz. }
    rewrite nsum_add.
    transitivity ((w / (z - p) - nsum n (fun k => w * fpow p k / fpow z (S k))) +
      (lsum (map (fun pw => snd pw / (z - fst pw)) l) - nsum n (fun k => lsum (map (fun pw => snd pw * fpow (fst pw) (S k - 1)) l) / fpow z (S k)))); [ring|].
    rewrite IH by (intros; apply Hin; now right). rewrite pole_expand by (try exact Hz; apply (Hin (p, w)); now left).
    field. auto.
Qed.
End Gen.

(** ** Complex: the expansion is asymptotic *)
Section Asym.
Local Open Scope R_scope.
Lemma Cmod_fpow (z : C) n : Cmod (fpow (K := CF) z n) = Cmod z ^ n.
Proof. induction n as [|n IH]; [cbn; apply Cmod_1|]. change (Cmod (Cmult z (fpow (K := CF) z n)) = Cmod z * Cmod z ^ n). now rewrite Cmod_mult, IH. Qed.

Theorem pole_moments_asymptotic (poles weights : list C) n :
  exists M R0, 0 < R0 /\ forall z, R0 <= Cmod z ->
    exists g, gf_z (K := CF) z poles weights = Ok g /\
      Cmod (Cminus g (nsum (K := CF) n (fun k => Cdiv (moments (K := CF) poles weights (S k)) (fpow (K := CF) z (S k))))) <= M / Cmod z ^ (S n).
Proof.
  set (l := combine poles weights).
  assert (HB : exists M R0, 0 < R0 /\ forall z, R0 <= Cmod z -> Cmod (lsum (K := CF) (map (fun pw => Cdiv (Cmult (snd pw) (fpow (K := CF) (fst pw) n)) (Cminus z (fst pw))) l)) <= M / Cmod z).
  { induction l as [|[p w] l (M & R0 & HR & H)].
    - exists 0, 1. split; [lra|]. intros z Hz. cbn [map lsum fold_right]. change (Cmod (RtoC 0) <= 0 / Cmod z). rewrite Cmod_0. lra.
    - exists (2 * (Cmod w * Cmod p ^ n) + M), (Rmax R0 (2 * Cmod p + 1)). assert (Hp := Cmod_ge_0 p). split.
      { apply Rlt_le_trans with (2 * Cmod p + 1); [lra|apply Rmax_r]. }
      intros z Hz. assert (H1 : R0 <= Cmod z) by (eapply Rle_trans; [apply Rmax_l|exact Hz]).
      assert (H2 : 2 * Cmod p + 1 <= Cmod z) by (eapply Rle_trans; [apply Rmax_r|exact Hz]).
      cbn [map]. rewrite lsum_cons. eapply Rle_trans; [apply Cmod_triangle|]. cbn [fst snd].
      specialize (H z H1). assert (Hd : Cmod z / 2 <= Cmod (Cminus z p)).
      { assert (T := Cmod_triangle (Cminus z p) p). replace (Cplus (Cminus z p) p) with z in T by ring. lra. }
      assert (Hne : Cminus z p <> RtoC 0). { intros E. rewrite E, Cmod_0 in Hd. lra. }
      assert (Hf : Cmod (Cdiv (Cmult w (fpow (K := CF) p n)) (Cminus z p)) <= 2 * (Cmod w * Cmod p ^ n) / Cmod z).
      { rewrite Cmod_div by exact Hne. rewrite Cmod_mult, Cmod_fpow.
        assert (Ha : 0 <= Cmod w * Cmod p ^ n) by (apply Rmult_le_pos; [apply Cmod_ge_0|now apply pow_le]).
        apply (Rmult_le_reg_r (Cmod (Cminus z p))); [lra|]. unfold Rdiv at 1. rewrite Rmult_assoc, Rinv_l, Rmult_1_r by lra.
        replace (Cmod w * Cmod p ^ n) with (2 * (Cmod w * Cmod p ^ n) / Cmod z * (Cmod z / 2)) at 1 by (field; lra).
        apply Rmult_le_compat_l; [|exact Hd]. apply Rmult_le_pos; [lra|]. apply Rlt_le, Rinv_0_lt_compat; lra. }
      replace ((2 * (Cmod w * Cmod p ^ n) + M) / Cmod z) with (2 * (Cmod w * Cmod p ^ n) / Cmod z + M / Cmod z) by (field; lra).
      apply Rplus_le_compat; assumption. }
  assert (HP : exists R1, 0 < R1 /\ forall z, R1 <= Cmod z -> ~ In z poles).
  { clear. induction poles as [|p ps (R1 & H1 & H2)].
    - exists 1. split; [lra|]. intros z _ [].
    - exists (Rmax R1 (Cmod p + 1)). split; [apply Rlt_le_trans with R1; [lra|apply Rmax_l]|].
      intros z Hz [E|Hin].
      + subst. assert (Cmod z + 1 <= Cmod z) by (eapply Rle_trans; [apply Rmax_r|exact Hz]). lra.
      + apply (H2 z); [|exact Hin]. eapply Rle_trans; [apply Rmax_l|exact Hz]. }
  destruct HB as (M & R0 & HR0 & HM). destruct HP as (R1 & HR1 & HP).
  exists M, (Rmax R0 R1). split; [apply Rlt_le_trans with R0; [lra|apply Rmax_l]|].
  intros z Hz. assert (Hz0 : R0 <= Cmod z) by (eapply Rle_trans; [apply Rmax_l|exact Hz]).
  assert (Hz1 : R1 <= Cmod z) by (eapply Rle_trans; [apply Rmax_r|exact Hz]).
  assert (Hzn : z <> RtoC 0). { intros E. rewrite E, Cmod_0 in Hz0. lra. }
  destruct (pole_moments_expansion CF z poles weights n Hzn (HP z Hz1)) as (g & Eg & E).
  exists g. split; [exact Eg|].
  match type of E with ?l = _ => change (Cmod l <= M / Cmod z ^ S n) end. rewrite E.
  assert (Hne : fpow (K := CF) z n <> RtoC 0) by (apply (fpow_neq0 CF); exact Hzn).
  match goal with |- Cmod (?x / ?y)%fld <= _ => change (Cmod (Cdiv x y) <= M / Cmod z ^ S n) end.
  rewrite Cmod_div by exact Hne. rewrite Cmod_fpow. specialize (HM z Hz0).
  assert (Hpow : 0 < Cmod z ^ n) by (apply pow_lt; lra).
  cbn [pow]. replace (M / (Cmod z * Cmod z ^ n)) with (M / Cmod z / Cmod z ^ n) by (field; lra).
  apply Rmult_le_compat_r; [apply Rlt_le, Rinv_0_lt_compat; exact Hpow|]. exact HM.
Qed.

(** ** Derivative *)
Local Open Scope C_scope.
Definition vsum (z : C) (l : list (C * C)) : C := lsum (K := CF) (map (fun pw => snd pw / (z - fst pw)) l).
Lemma gf_z_derive (poles weights : list C) (z : C) : ~ In z poles ->
  exists d, gf_d1_z (K := CF) z poles weights = Ok d /\
    is_cderive (fun w => match gf_z (K := CF) w poles weights with Ok g => g | Err _ => 0 end) z d.
Proof.
  intros H. unfold gf_d1_z. rewrite (proj2 (no_pole CF z poles) H). eexists. split; [reflexivity|].
  assert (HP : exists d0, (0 < d0)%R /\ forall h, (Cmod h < d0)%R -> ~ In (z + h) poles).
  { clear weights. induction poles as [|p ps IH].
    - exists 1%R. split; [lra|]. intros h _ [].
    - destruct IH as (d0 & Hd0 & H0); [intros Hin; apply H; now right|].
      assert (Hzp : p - z <> 0). { intros E. apply H. left. transitivity (p - z + z); [ring|]. rewrite E. ring. }
      exists (Rmin d0 (Cmod (p - z))). split; [apply Rmin_glb_lt; [exact Hd0|now apply Cmod_gt_0]|].
      intros h Hh [E|Hin].
      + assert (Hlt : (Cmod h < Cmod (p - z)%C)%R) by (eapply Rlt_le_trans; [exact Hh|apply Rmin_r]).
        rewrite E in *. replace (z + h - z) with h in * by ring. lra.
      + apply (H0 h); [eapply Rlt_le_trans; [exact Hh|apply Rmin_l]|exact Hin]. }
  destruct HP as (d0 & Hd0 & HP).
  apply (is_cderive_ext_near (fun w => vsum w (combine poles weights)) _ z _ d0 Hd0).
  { intros h Hh. rewrite (gf_z_ok CF) by (now apply HP). reflexivity. }
  assert (Hin : forall pw, In pw (combine poles weights) -> z - fst pw <> 0).
  { intros [p w] Hin E. apply H. replace z with p; [now apply in_combine_l in Hin|].
    cbn [fst] in E. transitivity (z - (z - p)); [ring|]. rewrite E. ring. }
  change (@combine (car CF) (car CF) poles weights) with (@combine C C poles weights).
  induction (@combine C C poles weights) as [|[p w] l IH].
  - match goal with |- is_cderive _ _ ?d => replace d with (RtoC 0) end.
    + exact (is_cderive_const 0 z).
    + change (RtoC 0 = Copp (RtoC 0)). ring.
  - cbn [map]. rewrite lsum_cons. cbn [fst snd] in *.
    assert (Hs := Hin (p, w) (or_introl eq_refl)). cbn [fst] in Hs.
    set (dl := lsum _).
    assert (IH' : is_cderive (fun w0 => vsum w0 l) z (- dl)) by (apply IH; intros; apply Hin; now right).
    apply (is_cderive_ext (fun w0 => w * / (w0 - p) + vsum w0 l)); [intros w0; reflexivity|].
    match goal with |- is_cderive _ _ ?d => replace d with (w * (- (1) / ((z - p) * (z - p))) + - dl) end.
    + apply is_cderive_add; [|exact IH']. apply is_cderive_scal.
      replace (- (1) / ((z - p) * (z - p))) with (- (1 - 0) / ((z - p) * (z - p))) by (field; exact Hs).
      apply (is_cderive_inv (fun w0 => w0 - p)); [|exact Hs]. apply is_cderive_sub; [apply is_cderive_id|apply is_cderive_const].
    + change (w * (- (1) / ((z - p) * (z - p))) + - dl = - (w * (1 / ((z - p) * ((z - p) * 1))) + dl)). field. exact Hs.
Qed.
End Asym.
