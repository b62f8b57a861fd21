(** * Simple cubic lattice: differential equation of the Brillouin zone average *)
From Coq Require Import Reals Lra Lia.
From Coquelicot Require Import Coquelicot.
From Verif Require Import Base CBase CExp CSqrt Fourier_Filon LatInt_Proofs CAnal CHol CEll CHolo CTheta CTheta2 LatBcc_Proofs LatSc_Red LatSc_Proofs.
Local Open Scope C_scope.

Lemma L_ode_sc : exists L1 L2 L3, th offK (II Hn) L1 /\ th offK L1 L2 /\ th offK L2 L3 /\
  forall w, offK w -> 9 * L3 w = w * (10 * L3 w + RtoC 15 * L2 w + 8 * L1 w + RtoC (3 / 2) * II Hn w) + w * w * (- (1) * L3 w + - (3) * L2 w + - RtoC (11 / 4) * L1 w + - RtoC (3 / 4) * II Hn w).
Proof.
  assert (HH := th_holo _ _ _ HT_th). assert (H1 := th_holo _ _ _ HT2_th). assert (H2 := th_holo' _ _ _ offK_open HT2_th). destruct (th_ex offK HT2 offK_open H2) as (HT3 & T3 & H3). assert (T1 := HT_th). assert (T2 := HT2_th).
  exists (II HT), (II HT2), (II HT3). split; [exact (II_th _ _ T1 H1)|]. split; [exact (II_th _ _ T2 H2)|]. split; [exact (II_th _ _ T3 H3)|].
  set (g1 := fun m => 10 * HT2 m + 10 * HT m + 3 * Hn m). set (g1' := fun m => 10 * HT3 m + 10 * HT2 m + 3 * HT m).
  set (h := fun m => Hn m + HT m). set (h' := fun m => HT m + HT2 m). set (g2 := fun m => Hn m + 2 * HT m + HT2 m). set (g2' := fun m => HT m + 2 * HT2 m + HT3 m).
  assert (Tg1 : th offK g1 g1'). { eapply th_val; [|unfold g1; thr]. intros m _. unfold g1'. cbv beta. ring. }
  assert (Th : th offK h h'). { eapply th_val; [|unfold h; thr]. intros m _. unfold h'. cbv beta. ring. }
  assert (Tg2 : th offK g2 g2'). { eapply th_val; [|unfold g2; thr]. intros m _. unfold g2'. cbv beta. ring. }
  set (G := fun m => m * g2 m). set (G' := fun m => m * (g2 m + g2' m)). assert (TG : th offK G G'). { eapply th_val; [|unfold G; thr]. intros m _. unfold G'. cbv beta. ring. }
  assert (E2 : forall m, offK m -> 9 * HT2 m = m * g1 m - m * G m). { intros m Hm. assert (X := Hn_ode m Hm). unfold G, g1, g2. transitivity ((1 - m) * (9 - m) * HT2 m + m * (10 * HT2 m) - m * m * HT2 m); [sring|]. rewrite X. sring. }
  assert (E3 : forall m, offK m -> 9 * HT3 m = m * (g1 m + g1' m) - m * (G m + G' m)).
  { apply (th_unique offK (fun m => 9 * HT2 m) (fun m => m * g1 m - m * G m) (fun m => 9 * HT3 m) (fun m => m * (g1 m + g1' m) - m * (G m + G' m)) offK_open E2).
    - apply th_scal, T3.
    - eapply th_val; [|thr]. intros m _. cbv beta. ring. }
  intros w Hw. assert (Hg1 := th_holo _ _ _ Tg1). assert (Hg1' := th_holo' _ _ _ offK_open Tg1). assert (HG := th_holo _ _ _ TG). assert (HG' := th_holo' _ _ _ offK_open TG).
  assert (HA : holo offK (fun m => m * (g1 m + g1' m))) by (apply (holo_mult offK (fun m => m)); [apply holo_id|apply holo_plus; assumption]). assert (HB : holo offK (fun m => m * (G m + G' m))) by (apply (holo_mult offK (fun m => m)); [apply holo_id|apply holo_plus; assumption]).
  assert (Z : RtoC 9 * II HT3 w + 0 * II HT3 w = 1 * II (fun m => m * (g1 m + g1' m)) w + - (1) * II (fun m => m * (G m + G' m)) w).
  { rewrite <- (II_lin 9 0 HT3 HT3 w H3 H3 Hw), <- (II_lin 1 (- (1)) _ _ w HA HB Hw). apply II_ext; [|exact Hw]. intros m Hm. cbv beta. rewrite (E3 m Hm). ring. }
  rewrite (II_rule _ _ w Tg1 Hw), (II_rule _ _ w TG Hw) in Z.
  assert (J0 : II G w = w * (RtoC (1 / 2) * II h w + II h' w)). { rewrite <- (II_rule _ _ w Th Hw). apply II_ext; [|exact Hw]. intros m _. unfold G, g2, h, h'. sring. }
  assert (J1 : II G' w = w * (RtoC (1 / 2) * II g2 w + II g2' w)) by exact (II_rule _ _ w Tg2 Hw).
  assert (K : forall (a b c : C) F1 F2 F3, holo offK F1 -> holo offK F2 -> holo offK F3 -> II (fun m => a * F1 m + b * F2 m + c * F3 m) w = a * II F1 w + b * II F2 w + c * II F3 w).
  { intros a b c F1 F2 F3 X1 X2 X3. apply CInt_val. apply is_CInt_plus; [apply is_CInt_plus|]; apply is_CInt_scal; apply II_is; assumption. }
  assert (Q1 : II g1 w = 10 * II HT2 w + 10 * II HT w + 3 * II Hn w) by exact (K _ _ _ _ _ _ H2 H1 HH). assert (Q2 : II g1' w = 10 * II HT3 w + 10 * II HT2 w + 3 * II HT w) by exact (K _ _ _ _ _ _ H3 H2 H1).
  assert (Q3 : II h w = 1 * II Hn w + 1 * II HT w). { rewrite <- (II_lin 1 1 _ _ w HH H1 Hw). apply II_ext; [|exact Hw]. intros m _. unfold h. ring. } assert (Q4 : II h' w = 1 * II HT w + 1 * II HT2 w). { rewrite <- (II_lin 1 1 _ _ w H1 H2 Hw). apply II_ext; [|exact Hw]. intros m _. unfold h'. ring. }
  assert (Q5 : II g2 w = 1 * II Hn w + 2 * II HT w + 1 * II HT2 w). { rewrite <- (K _ _ _ _ _ _ HH H1 H2). apply II_ext; [|exact Hw]. intros m _. unfold g2. ring. } assert (Q6 : II g2' w = 1 * II HT w + 2 * II HT2 w + 1 * II HT3 w). { rewrite <- (K _ _ _ _ _ _ H1 H2 H3). apply II_ext; [|exact Hw]. intros m _. unfold g2'. ring. }
  rewrite J0, J1, Q1, Q2, Q3, Q4, Q5, Q6 in Z. clear - Z. generalize dependent (II HT3 w). generalize (II HT2 w) (II HT w) (II Hn w). intros l2 l1 l0 l3 Z. transitivity (RtoC 9 * l3 + 0 * l3); [ring|]. rewrite Z. clear Z.
  assert (E15 : RtoC 15 = (1 + 1 + 1) * (1 + 1 + 1) + (1 + 1) * (1 + 1 + 1)) by (rewrite <- !RtoC_plus, <- !RtoC_mult, <- RtoC_plus; f_equal; ring). assert (E11 : RtoC 11 = 10 + 1) by (rewrite <- RtoC_plus; f_equal; ring).
  rewrite E15, ?(RtoC_div 11 4), E11 by lra. sfield.
Qed.
