(** * Simple cubic lattice: squared elliptic integrals solve the same differential equation *)
From Coq Require Import Reals Lra Lia.
From Coquelicot Require Import Coquelicot.
From Verif Require Import Base CBase CExp CSqrt Bethe_Proofs Fourier_Filon LatInt_Proofs LatRect_Main CAnal CHol CEll CHolo CTheta CTheta2 LatBcc_Proofs CFub LatSc_Red LatSc_Proofs LatSc_L.
Local Open Scope C_scope.

Definition scA (w : C) : C := csqrt (1 - RtoC (1 / 9) * w).
Definition scB (w : C) : C := csqrt (1 - w).
Definition scv (w : C) : C := (1 - scB w) * / (1 + scA w).
Lemma scA_off w : offK w -> offcut (1 - RtoC (1 / 9) * w). Proof. destruct w as [a b]. unfold offK, offcut. cbn. intros [H|H]; [left|right]; lra. Qed.
Lemma scB_off w : offK w -> offcut (1 - w). Proof. destruct w as [a b]. unfold offK, offcut. cbn. intros [H|H]; [left|right]; lra. Qed.
Lemma scA_pos w : offK w -> (0 < fst (scA w))%R. Proof. intros H. now apply csqrt_pos, scA_off. Qed.
Lemma scB_pos w : offK w -> (0 < fst (scB w))%R. Proof. intros H. now apply csqrt_pos, scB_off. Qed.
Lemma scA_sqr w : scA w * scA w = 1 - RtoC (1 / 9) * w. Proof. apply csqrt_sqr. Qed.
Lemma scB_sqr w : scB w * scB w = 1 - w. Proof. apply csqrt_sqr. Qed.
Lemma fst_neq0 (z : C) : fst z <> 0%R -> z <> 0. Proof. intros H X. apply H. now rewrite X. Qed.
Lemma scA1 w : offK w -> 1 + scA w <> 0. Proof. intros H. apply fst_neq0. assert (X := scA_pos w H). destruct (scA w). cbn in *. lra. Qed.
Lemma scA0 w : offK w -> scA w <> 0. Proof. intros H. apply fst_neq0. assert (X := scA_pos w H). lra. Qed.
Lemma scB0 w : offK w -> scB w <> 0. Proof. intros H. apply fst_neq0. assert (X := scB_pos w H). lra. Qed.
Lemma sc_wA w : w = 9 * (1 - scA w * scA w). Proof. rewrite scA_sqr. snum. ffin. Qed.
Lemma sc_wB w : w = 1 - scB w * scB w. Proof. rewrite scB_sqr. ring. Qed.
Lemma scv_1 w : offK w -> scv w * scA w + scB w = 1 - scv w. Proof. intros H. assert (N := scA1 w H). unfold scv. field. exact N. Qed.
Lemma scv_2 w : offK w -> 9 * scA w + scv w * scB w = 9 - scv w.
Proof. intros H. assert (N := scA1 w H). assert (E : 1 - scB w * scB w = 9 * (1 - scA w * scA w)) by (rewrite <- sc_wA, <- sc_wB; reflexivity). unfold scv. set (a := scA w) in *. set (b := scB w) in *. clearbody a b. transitivity (9 - (1 - b) * / (1 + a) + ((1 - b * b) - 9 * (1 - a * a)) * / (1 + a)); [field; exact N|]. rewrite E. ring. Qed.
Definition n1 (v : C) : C := 9 - 2 * v + v * v.
Definition n2 (v : C) : C := 9 - 18 * v + v * v.
Definition dv (v : C) : C := 9 - v * v.
Lemma scA_v w : offK w -> scA w * dv (scv w) = n1 (scv w).
Proof. intros H. assert (E1 := scv_1 w H). assert (E2 := scv_2 w H). unfold dv, n1. set (v := scv w) in *. set (a := scA w) in *. set (b := scB w) in *. clearbody v a b. transitivity (9 * a + v * b - v * (v * a + b)); [ring|]. rewrite E1, E2. sring. Qed.
Lemma scB_v w : offK w -> scB w * dv (scv w) = n2 (scv w).
Proof. intros H. assert (E1 := scv_1 w H). assert (E2 := scv_2 w H). unfold dv, n2. set (v := scv w) in *. set (a := scA w) in *. set (b := scB w) in *. clearbody v a b. transitivity (9 * (v * a + b) - v * (9 * a + v * b)); [ring|]. rewrite E1, E2. sring. Qed.
Lemma dv_0 w : offK w -> dv (scv w) <> 0.
Proof.
  intros H Z. assert (X := scA_v w H). rewrite Z in X. unfold n1, dv in *. set (v := scv w) in *. clearbody v. assert (V : v = 9). { transitivity (v + RtoC (1 / 2) * (9 - 2 * v + v * v + (9 - v * v))); [rewrite <- X, Z; ring|]. snum. ffin. }
  rewrite V in Z. apply (f_equal fst) in Z. cbn in Z. lra.
Qed.
Lemma n1_0 w : offK w -> n1 (scv w) <> 0. Proof. intros H. rewrite <- (scA_v w H). apply Cmult_neq_0; [now apply scA0|now apply dv_0]. Qed.
Lemma n2_0 w : offK w -> n2 (scv w) <> 0. Proof. intros H. rewrite <- (scB_v w H). apply Cmult_neq_0; [now apply scB0|now apply dv_0]. Qed.
Lemma scA_q w : offK w -> scA w = n1 (scv w) / dv (scv w). Proof. intros H. rewrite <- scA_v by exact H. field. now apply dv_0. Qed.
Lemma scB_q w : offK w -> scB w = n2 (scv w) / dv (scv w). Proof. intros H. rewrite <- scB_v by exact H. field. now apply dv_0. Qed.
Lemma scv_off w : offK w -> offK (scv w).
Proof.
  intros H. assert (A := scA_v w H). assert (B := scB_v w H). assert (PA := scA_pos w H). assert (PB := scB_pos w H). unfold n1, n2, dv in *. set (v := scv w) in *. destruct (scA w) as [a a']. destruct (scB w) as [b b']. clearbody v. destruct v as [x y]. unfold offK. cbn [fst snd] in *.
  destruct (Req_dec y 0) as [-> |]; [|now left]. right. destruct (Rlt_dec x 1) as [|G]; [assumption|exfalso]. apply Rnot_lt_le in G. apply (f_equal fst) in A. apply (f_equal fst) in B. cbn in A, B.
  assert (A' : (a * (9 - x * x) = 9 - 2 * x + x * x)%R) by lra. assert (B' : (b * (9 - x * x) = 9 - 18 * x + x * x)%R) by lra. assert (D : (0 < 9 - x * x)%R). { destruct (Rlt_dec 0 (9 - x * x)) as [|Q]; [assumption|exfalso]. apply Rnot_lt_le in Q. assert (a * (9 - x * x) <= 0)%R by nra. nra. }
  assert (x < 3)%R by nra. assert (0 < b * (9 - x * x))%R by nra. nra.
Qed.
Lemma scv_ne w : offK w -> 1 - scv w <> 0 /\ 9 - scv w <> 0.
Proof. intros H. apply scv_off in H. destruct (scv w) as [x y]. unfold offK in H. cbn in H. split; intros E; assert (F1 := f_equal fst E); assert (F2 := f_equal snd E); cbn in F1, F2; destruct H; lra. Qed.
Definition pv (v : C) : C := (1 - v) * (9 - v).
Definition Nv (v : C) : C := n1 v * n2 v.
Definition muv (v : C) : C := pv v * dv v * / Nv v.
Lemma Nv_0 w : offK w -> Nv (scv w) <> 0. Proof. intros H. apply Cmult_neq_0; [now apply n1_0|now apply n2_0]. Qed.
Lemma pv_0 w : offK w -> pv (scv w) <> 0. Proof. intros H. apply Cmult_neq_0; now apply scv_ne. Qed.
Lemma scv_th : th offK scv (fun w => muv (scv w) * scv w).
Proof.
  assert (A : th offK (fun w => 1 - RtoC (1 / 9) * w) _) by thr. assert (TA : th offK scA _) by exact (th_csqrt _ _ _ A scA_off). assert (B : th offK (fun w => 1 - w) _) by thr. assert (TB : th offK scB _) by exact (th_csqrt _ _ _ B scB_off).
  assert (T1 : th offK (fun w => 1 + scA w) _) by thr. assert (TI := th_inv _ _ _ T1 scA1). eapply th_val; [|unfold scv; thr]. intros w Hw. cbv beta. clear A B TA TB T1 TI.
  fold (scA w) (scB w). assert (N1 := scA1 w Hw). assert (NA := scA0 w Hw). assert (NB := scB0 w Hw). assert (EM : muv (scv w) = (scA w + scB w) / (2 * scA w * scB w)).
  { assert (D := dv_0 w Hw). assert (M1 := n1_0 w Hw). assert (M2 := n2_0 w Hw). rewrite (scA_q w Hw), (scB_q w Hw). unfold muv, Nv, pv. set (v := scv w) in *. transitivity ((n1 v + n2 v) * dv v / (2 * n1 v * n2 v)); [|snum; ffin]. replace (n1 v + n2 v) with (2 * ((1 - v) * (9 - v))) by (unfold n1, n2; sring). snum; ffin. }
  rewrite EM. unfold scv. assert (W9 : 0 - (0 * w + RtoC (1 / 9) * w) = - (1 - scA w * scA w)) by (rewrite scA_sqr; ring). assert (W1 : 0 - w = - (1 - scB w * scB w)) by (rewrite scB_sqr; ring). rewrite W9, W1. set (a := scA w) in *. set (b := scB w) in *. clearbody a b. clear W9 W1 EM. snum. ffin.
Qed.
Definition lav (v : C) : C := - (1) * (v * v) * pv v * / Nv v.
Definition rov (v : C) : C := 1 - RtoC (1 / 9) * (v * v).
Definition Pw (w : C) : C := w * (5 - w) * / ((1 - w) * (9 - w)).
Definition Qw (w : C) : C := RtoC (3 / 16) * (w * (4 - w)) * / ((1 - w) * (9 - w)).
Definition av (w : C) : C := Hn (scv w).
Definition bv (w : C) : C := HT (scv w).
Definition Ev (w : C) : C := muv (scv w) * bv w + lav (scv w) * av w.
Lemma offK_19 w : offK w -> (1 - w) * (9 - w) <> 0.
Proof. intros H. apply Cmult_neq_0; destruct w as [x y]; unfold offK in H; cbn in H; intros E; assert (F1 := f_equal fst E); assert (F2 := f_equal snd E); cbn in F1, F2; destruct H; lra. Qed.
Lemma av_th : th offK av (fun w => muv (scv w) * bv w). Proof. exact (th_comp offK offK Hn HT scv _ HT_th scv_th scv_off). Qed.
Lemma bv_th : th offK bv (fun w => muv (scv w) * HT2 (scv w)). Proof. exact (th_comp offK offK HT HT2 scv _ HT2_th scv_th scv_off). Qed.
Definition pv1 (v : C) : C := - (10) * v + 2 * (v * v).
Definition dv1 (v : C) : C := - (2) * (v * v).
Definition Nv1 (v : C) : C := (- (2) * v + 2 * (v * v)) * n2 v + n1 v * (- (18) * v + 2 * (v * v)).
Definition muv1 (v : C) : C := (Nv v * (pv1 v * dv v + pv v * dv1 v) - pv v * dv v * Nv1 v) * / (Nv v * Nv v).
Definition lav1 (v : C) : C := (- (1) * (2 * (v * v) * pv v + v * v * pv1 v) * Nv v + v * v * pv v * Nv1 v) * / (Nv v * Nv v).
Definition VN (v : C) : Prop := Nv v <> 0.
Lemma pv_th : th VN pv pv1. Proof. eapply th_val; [|unfold pv; thr]. intros v _. unfold pv1. cbv beta. sring. Qed.
Lemma dv_th : th VN dv dv1. Proof. eapply th_val; [|unfold dv; thr]. intros v _. unfold dv1. cbv beta. sring. Qed.
Lemma Nv_th : th VN Nv Nv1. Proof. eapply th_val; [|unfold Nv, n1, n2; thr]. intros v _. unfold Nv1, n1, n2. cbv beta. sring. Qed.
Lemma muv_th : th VN muv muv1.
Proof. assert (A := pv_th). assert (B := dv_th). assert (D := th_inv _ _ _ Nv_th (fun v H => H)). eapply th_val; [|unfold muv; thr]. intros v H. unfold muv1. cbv beta. field. exact H. Qed.
Lemma lav_th : th VN lav lav1.
Proof. assert (A := pv_th). assert (D := th_inv _ _ _ Nv_th (fun v H => H)). eapply th_val; [|unfold lav; thr]. intros v H. unfold lav1. cbv beta. snum. field. exact H. Qed.
Definition Pv (v : C) : C := 4 * v * pv v * (5 * (dv v * dv v) - 36 * v * pv v) * / (Nv v * Nv v).
Definition Qv (v : C) : C := 3 * v * pv v * (dv v * dv v - 9 * v * pv v) * / (Nv v * Nv v).
Lemma C5e : RtoC 5 = (1 + 1) * (1 + 1) + 1. Proof. rewrite <- !RtoC_plus, <- !RtoC_mult, <- RtoC_plus. f_equal; ring. Qed.
Lemma PQ_v w : offK w -> Pw w = Pv (scv w) /\ Qw w = Qv (scv w).
Proof.
  intros Hw. assert (D := dv_0 w Hw). assert (M1 := n1_0 w Hw). assert (M2 := n2_0 w Hw).
  assert (W1 : 1 - w = n2 (scv w) * n2 (scv w) / (dv (scv w) * dv (scv w))) by (rewrite <- scB_sqr, (scB_q w Hw); field; exact D). assert (W9 : 9 - w = 9 * (n1 (scv w) * n1 (scv w)) / (dv (scv w) * dv (scv w))). { transitivity (9 * (scA w * scA w)); [rewrite (sc_wA w) at 1; ring|]. rewrite (scA_q w Hw). field. exact D. }
  assert (W0 : w = 36 * scv w * pv (scv w) / (dv (scv w) * dv (scv w))). { replace w with (1 - (1 - w)) at 1 by ring. rewrite W1. transitivity ((dv (scv w) * dv (scv w) - n2 (scv w) * n2 (scv w)) / (dv (scv w) * dv (scv w))); [field; exact D|]. replace (dv (scv w) * dv (scv w) - n2 (scv w) * n2 (scv w)) with (36 * scv w * pv (scv w)); [reflexivity|]. unfold dv, n2, pv. sring. }
  unfold Pw, Qw. rewrite W1, W9. unfold Pv, Qv, Nv. set (v := scv w) in *. set (d := dv v) in *. set (m1 := n1 v) in *. set (m2 := n2 v) in *. set (p := pv v) in *. clearbody d m1 m2 p. clearbody v. clear W1 W9. rewrite W0. clear W0. split; rewrite ?C5e; snum; ffin.
Qed.
Lemma id_b v : Nv v <> 0 -> pv v <> 0 -> muv1 v + muv v * (v * (10 - 2 * v)) * / pv v + 2 * lav v = Pv v.
Proof.
  intros N P0. unfold muv1, muv, lav, Pv. set (m := Nv v) in *. set (p := pv v) in *.
  assert (K : m * (pv1 v * dv v + p * dv1 v) - p * dv v * Nv1 v + dv v * (v * (10 - 2 * v)) * m - 2 * (v * v) * p * m = 4 * v * p * (5 * (dv v * dv v) - 36 * v * p)) by (unfold m, p, Nv, pv, Nv1, dv1, dv, pv1, n1, n2; rewrite C5e; sring).
  rewrite <- K. clearbody m p. clear K. field. split; assumption.
Qed.
Lemma id_a v : Nv v <> 0 -> pv v <> 0 -> muv v * (muv v * (v * (3 - v)) * / pv v) + muv v * lav1 v + lav v * lav v - Pv v * lav v = Qv v.
Proof.
  intros N P0. unfold lav1, muv, lav, Pv, Qv. set (m := Nv v) in *. set (p := pv v) in *.
  assert (K : dv v * dv v * (v * (3 - v)) * m + dv v * ((- (1) * (2 * (v * v) * p + v * v * pv1 v)) * m + v * v * p * Nv1 v) + (v * v) * (v * v) * p * m + 4 * v * p * (5 * (dv v * dv v) - 36 * v * p) * (v * v) = 3 * v * (dv v * dv v - 9 * v * p) * m) by (unfold m, p, Nv, pv, Nv1, dv, pv1, n1, n2; rewrite C5e; sring).
  transitivity (3 * v * (dv v * dv v - 9 * v * p) * m * p * / (m * m * m)); [rewrite <- K|]; clearbody m p; clear K; field; repeat split; assumption.
Qed.
Lemma Ev_th : th offK Ev (fun w => Pw w * Ev w + Qw w * av w - lav (scv w) * Ev w).
Proof.
  assert (VO : forall w, offK w -> VN (scv w)) by exact Nv_0. assert (TM := th_comp offK VN muv muv1 scv _ muv_th scv_th VO). assert (TL := th_comp offK VN lav lav1 scv _ lav_th scv_th VO). assert (TA := av_th). assert (TB := bv_th). eapply th_val; [|unfold Ev; thr]. intros w Hw. cbv beta. clear TM TL TA TB.
  destruct (PQ_v w Hw) as [-> ->]. assert (N := Nv_0 w Hw). assert (P0 := pv_0 w Hw). assert (O := Hn_ode _ (scv_off w Hw)). fold (av w) (bv w) in O.
  assert (O2 : HT2 (scv w) = scv w * ((10 - 2 * scv w) * bv w + (3 - scv w) * av w) * / pv (scv w)) by (rewrite <- O; unfold pv; field; split; [exact (proj2 (scv_ne w Hw))|exact (proj1 (scv_ne w Hw))]). rewrite O2. assert (IA := id_a _ N P0). assert (IB := id_b _ N P0). unfold Ev. clear O O2. set (v := scv w) in *. rewrite <- IA. rewrite <- IB. clear IA IB. generalize (muv1 v) (muv v) (lav1 v) (lav v) (av w) (bv w) . clearbody v. intros. snum. field. exact P0.
Qed.
Definition Yv (w : C) : C := rov (scv w) * (av w * av w).
Lemma rov_th : th VN rov (fun v => 2 * (- RtoC (1 / 9) * (v * v))). Proof. eapply th_val; [|unfold rov; thr]. intros v _. cbv beta. sring. Qed.
Lemma rov_w : th offK (fun w => rov (scv w)) (fun w => 2 * lav (scv w) * rov (scv w)).
Proof.
  eapply th_val; [|exact (th_comp offK VN rov _ scv _ rov_th scv_th Nv_0)]. intros w Hw. cbv beta. assert (N := Nv_0 w Hw). unfold muv, lav, rov. set (v := scv w) in *. replace (dv v) with (9 * (1 - RtoC (1 / 9) * (v * v))); [|unfold dv; snum; ffin]. snum. ffin.
Qed.
Lemma Y_ode_sc : exists Y1 Y2 Y3, th offK Yv Y1 /\ th offK Y1 Y2 /\ th offK Y2 Y3 /\
  forall w, offK w -> 9 * Y3 w = w * (10 * Y3 w + RtoC 15 * Y2 w + 8 * Y1 w + RtoC (3 / 2) * Yv w) + w * w * (- (1) * Y3 w + - (3) * Y2 w + - RtoC (11 / 4) * Y1 w + - RtoC (3 / 4) * Yv w).
Proof.
  set (Z1 := fun w => rov (scv w) * (av w * Ev w)). set (Z2 := fun w => rov (scv w) * (Ev w * Ev w)). assert (TR := rov_w). assert (TA := av_th). assert (TE := Ev_th).
  assert (EB : forall w, muv (scv w) * bv w = Ev w - lav (scv w) * av w) by (intros w; unfold Ev; ring).
  assert (T0 : th offK Yv (fun w => 2 * Z1 w)). { eapply th_val; [|unfold Yv; thr]. intros w _. cbv beta. rewrite EB. unfold Z1. sring. }
  assert (T1 : th offK Z1 (fun w => Z2 w + Pw w * Z1 w + Qw w * Yv w)). { eapply th_val; [|unfold Z1; thr]. intros w _. cbv beta. rewrite EB. unfold Z1, Z2, Yv. sring. }
  assert (T2 : th offK Z2 (fun w => 2 * Pw w * Z2 w + 2 * Qw w * Z1 w)). { eapply th_val; [|unfold Z2; thr]. intros w _. cbv beta. unfold Z1, Z2. sring. }
  assert (TN : th offK (fun w => (1 - w) * (9 - w)) _) by thr. assert (TI := th_inv _ _ _ TN offK_19). assert (TP : th offK Pw _) by (unfold Pw; thr). assert (TQ : th offK Qw _) by (unfold Qw; thr).
  eexists. eexists. eexists. split; [exact T0|]. clear TR TA TE TN TI. split; [thr|]. split; [thr|]. intros w Hw. cbv beta. assert (N := offK_19 w Hw). assert (N1 : 1 - w <> 0) by (intros E; apply N; rewrite E; ring). assert (N9 : 9 - w <> 0) by (intros E; apply N; rewrite E; ring). unfold Pw, Qw. generalize (Z1 w) (Z2 w) (Yv w). clear - N1 N9. intros z1 z2 y.
  assert (E15 : RtoC 15 = (1 + 1 + 1) * (1 + 1 + 1) + (1 + 1) * (1 + 1 + 1)) by (rewrite <- !RtoC_plus, <- !RtoC_mult, <- RtoC_plus; f_equal; ring). assert (E11 : RtoC 11 = 10 + 1) by (rewrite <- RtoC_plus; f_equal; ring).
  rewrite E15, ?(RtoC_div 11 4), E11, ?C5e by lra. revert N9. snum. intros N9. ffin.
Qed.
Lemma scv_0 : scv 0 = 0. Proof. unfold scv, scB. replace (1 - 0 : C) with (RtoC 1) by ring. rewrite csqrt_1. ring. Qed.
Lemma Hn_0 : Hn 0 = 1.
Proof.
  assert (HP := PI_RGT_0). unfold Hn. rewrite (CInt_ex _ (fun _ => RtoC (2 * PI))).
  - rewrite (CInt_val _ _ _ _ (is_CInt_const (RtoC (2 * PI)) (- PI) PI)). rewrite <- !RtoC_mult. f_equal. field. lra.
  - intros a. rewrite (CInt_ex _ (fun _ => RtoC 1)); [rewrite (CInt_val _ _ _ _ (is_CInt_const (RtoC 1) (- PI) PI)); rewrite <- RtoC_mult; f_equal; ring|]. intros b. unfold hk. cbn [Cpow]. replace (1 - 0 * RtoC (q2 a b)) with (RtoC 1) by ring. field. intros E; apply (f_equal fst) in E; cbn in E; lra.
Qed.
Theorem sc_square w : offK w -> II Hn w = RtoC (PI / 2) * Yv w.
Proof.
  assert (HP := PI_RGT_0). destruct L_ode_sc as (L1 & L2 & L3 & A1 & A2 & A3 & A4). destruct Y_ode_sc as (Y1 & Y2 & Y3 & B1 & B2 & B3 & B4). set (c := RtoC (PI / 2)).
  assert (H0 : holo offK (II Hn)) by exact (th_holo _ _ _ A1). assert (H1 : holo offK (fun w => c * Yv w)) by exact (th_holo _ _ _ (th_scal _ c _ _ B1)). set (d := fun w => II Hn w - c * Yv w).
  assert (Z : forall u, (Cmod u <= 1 / 4 / 2)%R -> d u = 0).
  { apply (theta3_unique2 (1 / 2) (1 / 4) ltac:(lra) d (fun w => L1 w - c * Y1 w) (fun w => L2 w - c * Y2 w) (fun w => L3 w - c * Y3 w) 9 (RtoC (3 / 2)) 8 (RtoC 15) 10 (- RtoC (3 / 4)) (- RtoC (11 / 4)) (- (3)) (- (1))).
    - apply RtoC_neq0; lra.
    - apply (th_sub offK); [apply disc_offK|apply th_minus; [exact A1|apply th_scal, B1]].
    - apply (th_sub offK); [apply disc_offK|apply th_minus; [exact A2|apply th_scal, B2]].
    - apply (th_sub offK); [apply disc_offK|apply th_minus; [exact A3|apply th_scal, B3]].
    - intros v Hv. apply disc_offK in Hv. cbv beta. transitivity (9 * L3 v - c * (9 * Y3 v)); [ring|]. rewrite (A4 v Hv), (B4 v Hv) at 1. unfold d. ring.
    - unfold d, Yv, av, rov. rewrite scv_0, Hn_0. replace (II Hn 0) with c; [ring|]. symmetry. apply CInt_val. eapply is_CInt_eq; [apply (is_CInt_ext (fun _ => RtoC 1)); [|apply is_CInt_const]|]. intros x _. rewrite Cmult_0_l, Hn_0. reflexivity. unfold c. rewrite <- RtoC_mult. f_equal. ring. }
  intros Hw. apply (identity2 offK (II Hn) (fun w => c * Yv w) 0 offK_open offK_star offK_0 H0 H1); [|exact Hw].
  intros e He. exists (RtoC (Rmin (e / 2) (1 / 8))). assert (M1 := Rmin_l (e / 2) (1 / 8)). assert (M2 := Rmin_r (e / 2) (1 / 8)). assert (M3 : (0 < Rmin (e / 2) (1 / 8))%R) by (apply Rmin_pos; lra). set (q := Rmin (e / 2) (1 / 8)) in *. split.
  - replace (RtoC q - 0) with (RtoC q) by ring. rewrite Cmod_R, Rabs_pos_eq by lra. lra.
  - apply Z. rewrite Cmod_R, Rabs_pos_eq by lra. lra.
Qed.
