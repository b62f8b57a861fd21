(** * Proofs about the rational function representations *)
From Coq Require Import List Bool Lia Field Reals Lra.
From Coquelicot Require Import Coquelicot.
From Verif Require Import Base FSum CBase Rat_Model.
Import ListNotations.
Local Open Scope fld_scope.

Section P.
Variable K : Fld.
Add Field KF : (Fth K).

Lemma fmul_neq0 (a b : K) : a <> 0 -> b <> 0 -> a * b <> 0.
Proof. intros Ha Hb E. apply Hb. transitivity (1 / a * (a * b)); [field; exact Ha|rewrite E; ring]. Qed.
Lemma one_neq0 : (1 : K) <> 0. Proof. exact (F_1_neq_0 (Fth K)). Qed.
Lemma fdiv_ok (x y : K) : y <> 0 -> fdiv x y = Ok (x / y).
Proof. intros H. unfold fdiv. destruct (Feq_dec y 0); [easy|reflexivity]. Qed.
Lemma fdiv_inv (x y v : K) : fdiv x y = Ok v -> y <> 0 /\ v = x / y.
Proof. unfold fdiv. destruct (Feq_dec y 0); [discriminate|]. intros [= <-]. now split. Qed.

Lemma prod_zero (z : K) l : prod (map (fun x => z - x) l) = 0 <-> In z l.
Proof.
  induction l as [|x l IH]; cbn [map prod fold_right In].
  - split; [intros E; now destruct (one_neq0 E)|easy].
  - change (fold_right Fmul 1 (map (fun x => z - x) l)) with (prod (map (fun x => z - x) l)). split.
    + intros E. destruct (Feq_dec x z) as [|N]; [now left|right]. apply IH.
      destruct (Feq_dec (prod (map (fun x => z - x) l)) 0) as [|N2]; [assumption|].
      exfalso. refine (fmul_neq0 (z - x) _ _ N2 E). intros E1. apply N. transitivity (z - (z - x)); [ring|rewrite E1; ring].
    + intros [->|H]; [ring|]. apply IH in H. rewrite H. ring.
Qed.

Lemma call_add p q x : poly_call (K := K) (poly_add p q) x = poly_call p x + poly_call q x.
Proof.
  revert q. induction p as [|a p IH]; intros [|b q]; cbn [poly_add poly_call fold_right]; try ring.
  change (fold_right _ 0 (poly_add p q)) with (poly_call (poly_add p q) x). rewrite IH. unfold poly_call. ring.
Qed.
Lemma call_scale c p x : poly_call (K := K) (poly_scale c p) x = poly_call p x * c.
Proof. induction p as [|a p IH]; cbn [poly_scale map poly_call fold_right]; [ring|]. unfold poly_call, poly_scale in IH. rewrite IH. ring. Qed.
Lemma call_mul p q x : poly_call (K := K) (poly_mul p q) x = poly_call p x * poly_call q x.
Proof.
  induction p as [|a p IH]; cbn [poly_mul]; [cbn; ring|]. rewrite call_add, call_scale. cbn [poly_call fold_right].
  change (fold_right _ 0 (poly_mul p q)) with (poly_call (poly_mul p q) x). rewrite IH. unfold poly_call. ring.
Qed.
Lemma call_fromroots l x : poly_call (K := K) (poly_fromroots l) x = prod (map (fun r => x - r) l).
Proof.
  induction l as [|r l IH]; cbn [poly_fromroots fold_right map prod]; [cbn; ring|].
  rewrite call_mul. change (fold_right _ [1] l) with (poly_fromroots l). rewrite IH. unfold prod. cbn. ring.
Qed.

Theorem eval_ratpol (f : zeropole K) z : rp_eval (to_ratpol f) z = zp_eval f z.
Proof.
  unfold rp_eval, zp_eval, to_ratpol. cbn [rp_numer rp_denom]. rewrite call_scale, !call_fromroots. f_equal. ring.
Qed.

Theorem reciprocal_ok (f : zeropole K) z v : zp_eval f z = Ok v -> v <> 0 -> zp_reciprocal f z = Ok (1 / v).
Proof.
  unfold zp_eval, zp_reciprocal. intros H Hv. apply fdiv_inv in H. destruct H as [Hp ->].
  set (N := prod (map (fun x => z - x) (zp_zeros f))) in *. set (P := prod (map (fun x => z - x) (zp_poles f))) in *.
  assert (Ha : zp_amplitude f <> 0) by (intros E; apply Hv; rewrite E; field; exact Hp).
  assert (HN : N <> 0) by (intros E; apply Hv; rewrite E; field; exact Hp).
  rewrite fdiv_ok by exact Ha. cbn [bind]. rewrite fdiv_ok by exact HN. f_equal. field. repeat split; assumption.
Qed.
Theorem reciprocal_swap (f : zeropole K) z : zp_amplitude f <> 0 ->
  zp_reciprocal f z = zp_eval (ZeroPole (zp_poles f) (zp_zeros f) (1 / zp_amplitude f)) z.
Proof. intros Ha. unfold zp_reciprocal, zp_eval. rewrite fdiv_ok by exact Ha. reflexivity. Qed.

Theorem eval_defined (f : zeropole K) z : (exists v, zp_eval f z = Ok v) <-> ~ In z (zp_poles f).
Proof.
  unfold zp_eval. split.
  - intros [v H]. apply fdiv_inv in H. destruct H as [H _]. now rewrite prod_zero in H.
  - intros H. eexists. apply fdiv_ok. now rewrite prod_zero.
Qed.
Theorem eval_zero (f : zeropole K) z : zp_amplitude f <> 0 -> ~ In z (zp_poles f) -> (zp_eval f z = Ok 0 <-> In z (zp_zeros f)).
Proof.
  intros Ha Hp. rewrite <- prod_zero in Hp. unfold zp_eval. rewrite fdiv_ok by exact Hp. split.
  - intros E. apply prod_zero. set (N := prod (map (fun x => z - x) (zp_zeros f))) in *. set (P := prod (map (fun x => z - x) (zp_poles f))) in *.
    assert (E0 : zp_amplitude f * N / P = 0) by congruence. transitivity (zp_amplitude f * N / P * P / zp_amplitude f); [field; now split|rewrite E0; field; exact Ha].
  - intros H. apply prod_zero in H. rewrite H. f_equal. field. exact Hp.
Qed.
End P.

(** ** Large z: the amplitude is the limit *)
Local Open Scope R_scope.
Local Open Scope C_scope.
Close Scope fld_scope.
(** z (x) |-> prod (1 - x/z) -> 1 *)
Lemma prod_limit (l : list CF) : forall eps, (0 < eps)%R -> exists M, (0 < M)%R /\ forall z : C, (M < Cmod z)%R ->
  (Cmod ((prod (K := CF) (map (fun x => Fsub (f := CF) z x) l) : C) / (fpow (K := CF) z (length l) : C) - 1)%C < eps)%R.
Proof.
  induction l as [|x l IH]; intros eps He.
  - exists 1%R. split; [lra|]. intros z Hz. cbn [map prod fold_right length fpow]. change (F1 (f := CF)) with (RtoC 1).
    replace (RtoC 1 / RtoC 1 - RtoC 1) with (RtoC 0) by (field; intros E; apply RtoC_inj in E; lra). rewrite Cmod_0. exact He.
  - set (e1 := Rmin (eps / 3) (1/2)). assert (He1 : (0 < e1)%R) by (unfold e1; apply Rmin_glb_lt; lra).
    assert (Hle1 : (e1 <= eps/3)%R) by apply Rmin_l. assert (Hle2 : (e1 <= 1/2)%R) by apply Rmin_r.
    destruct (IH e1 He1) as (M & HM & H). set (X := (Cmod x / e1)%R). assert (HX : (0 <= X)%R) by (apply Rdiv_le_0_compat; [apply Cmod_ge_0|exact He1]).
    exists (Rmax M X + 1)%R. assert (B1 := Rmax_l M X). assert (B2 := Rmax_r M X). split; [lra|]. intros z Hz.
    assert (Hz0 : z <> RtoC 0) by (intros E; rewrite E, Cmod_0 in Hz; lra).
    specialize (H z ltac:(lra)). cbn [map prod fold_right length fpow].
    change (fold_right _ _ (map (fun x => Fsub (f := CF) z x) l)) with (prod (K := CF) (map (fun x => Fsub (f := CF) z x) l)).
    set (P := (prod (K := CF) (map (fun x => Fsub (f := CF) z x) l) : C)) in *. 
    set (W := (fpow (K := CF) z (length l) : C)) in *.
    assert (HW : W <> RtoC 0). { unfold W. clear -Hz0. induction l as [|y l IH]; cbn [length fpow]. - intros E. apply RtoC_inj in E. lra. - exact (Cmult_neq_0 _ _ Hz0 IH). }
    set (u := P / W - 1) in *. 
    change (Cmod ((z - (x : C)) * P / (z * W) - 1)%C < eps)%R.
    replace ((z - (x : C)) * P / (z * W) - 1) with (u - (x : C) / z * u - (x : C) / z) by (unfold u; field; now split).
    assert (Hxz : (Cmod ((x : C) / z)%C <= e1)%R).
    { rewrite Cmod_div by exact Hz0. assert (0 < Cmod z)%R by now apply Cmod_gt_0. apply (Rmult_le_reg_r (Cmod z)); [lra|].
      unfold Rdiv. rewrite Rmult_assoc, Rinv_l by lra. rewrite Rmult_1_r.
      assert (E : (Cmod (x : C)%C = X * e1)%R) by (unfold X; field; lra). rewrite E. rewrite (Rmult_comm X). apply Rmult_le_compat_l; lra. }
    set (v := (x : C) / z) in *. unfold Cminus.
    eapply Rle_lt_trans; [apply Cmod_triangle|]. eapply Rle_lt_trans; [apply Rplus_le_compat_r, Cmod_triangle|]. rewrite !Cmod_opp, Cmod_mult.
    assert (Hu0 := Cmod_ge_0 u). assert (Hv0 := Cmod_ge_0 v). nra.
Qed.

Theorem eval_limit (f : zeropole CF) : forall eps, (0 < eps)%R -> exists M, forall z : C, (M < Cmod z)%R ->
  exists v, zp_eval f z = Ok v /\
   (Cmod ((v : C) * fpow (K := CF) z (length (zp_poles f)) / fpow (K := CF) z (length (zp_zeros f)) - zp_amplitude f)%C < eps)%R.
Proof.
  intros eps He. set (a := (zp_amplitude f : C)). set (A := (Cmod a + 1)%R). assert (HA : (0 < A)%R) by (unfold A; assert (H := Cmod_ge_0 a); lra).
  set (e := Rmin (eps / (8 * A)) (1/4)). assert (He0 : (0 < e)%R) by (unfold e; apply Rmin_glb_lt; [apply Rdiv_lt_0_compat; lra|lra]).
  assert (Hle1 : (e <= eps / (8 * A))%R) by apply Rmin_l. assert (Hle2 : (e <= 1/4)%R) by apply Rmin_r.
  destruct (prod_limit (zp_zeros f) e He0) as (M1 & HM1 & H1). destruct (prod_limit (zp_poles f) e He0) as (M2 & HM2 & H2).
  exists (Rmax M1 M2). assert (B1 := Rmax_l M1 M2). assert (B2 := Rmax_r M1 M2). intros z Hz.
  specialize (H1 z ltac:(lra)). specialize (H2 z ltac:(lra)).
  assert (Hz0 : z <> RtoC 0) by (intros E; rewrite E, Cmod_0 in Hz; lra).
  assert (HW : forall n, (fpow (K := CF) z n : C) <> RtoC 0). { induction n as [|n IH]; cbn [fpow]. - intros E. apply RtoC_inj in E. lra. - exact (Cmult_neq_0 _ _ Hz0 IH). }
  unfold zp_eval. set (N := (prod (K := CF) (map (fun x => Fsub (f := CF) z x) (zp_zeros f)) : C)) in *. set (P := (prod (K := CF) (map (fun x => Fsub (f := CF) z x) (zp_poles f)) : C)) in *.
  assert (W1 := HW (length (zp_zeros f))). assert (W2 := HW (length (zp_poles f))).
  set (Z1 := (fpow (K := CF) z (length (zp_zeros f)) : C)) in *. set (Z2 := (fpow (K := CF) z (length (zp_poles f)) : C)) in *.
  set (u := N / Z1 - 1) in *. set (v := P / Z2 - 1) in *.
  assert (HP : P <> RtoC 0).
  { intros E. unfold v in H2. rewrite E in H2. replace (RtoC 0 / Z2 - 1) with (- RtoC 1) in H2 by (field; exact W2). rewrite Cmod_opp, Cmod_1 in H2. lra. }
  exists (a * N / P). split.
  { refine (eq_trans (fdiv_ok CF _ _ _) _); [exact HP|reflexivity]. }
  assert (Hv : 1 + v <> RtoC 0) by (intros E; apply HP; replace P with ((1 + v) * Z2) by (unfold v; field; exact W2); rewrite E; ring).
  change (Cmod (a * N / P * Z2 / Z1 - a)%C < eps)%R.
  replace (a * N / P * Z2 / Z1 - a) with (a * (u - v) / (1 + v)).
  2:{ unfold u, v. field. repeat split; try assumption. }
  rewrite Cmod_div, Cmod_mult by exact Hv.
  assert (Hd : (3/4 <= Cmod (1 + v)%C)%R).
  { assert (T := Cmod_triangle (1 + v) (- v)). replace (1 + v + - v) with (RtoC 1) in T by ring. rewrite Cmod_1, Cmod_opp in T. lra. }
  assert (Hn : (Cmod (u - v)%C <= 2 * e)%R). { unfold Cminus. eapply Rle_trans; [apply Cmod_triangle|]. rewrite Cmod_opp. lra. }
  assert (Hb : (Cmod a * Cmod (u - v)%C <= A * (2 * e))%R). { apply Rmult_le_compat; try apply Cmod_ge_0; [unfold A; lra|exact Hn]. }
  assert (Hb2 : (A * (2 * e) <= eps / 4)%R). { apply (Rmult_le_compat_l (2 * A)) in Hle1; [|lra]. replace (2 * A * (eps / (8 * A)))%R with (eps / 4)%R in Hle1 by (field; lra). lra. }
  apply (Rmult_lt_reg_r (Cmod (1 + v)%C)); [lra|]. unfold Rdiv. rewrite Rmult_assoc, Rinv_l by lra. rewrite Rmult_1_r. nra.
Qed.
