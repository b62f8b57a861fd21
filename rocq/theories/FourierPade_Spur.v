(** * Where tt2z_pade fails: common zeros of numerator and denominator *)
From Coq Require Import List Arith ZArith Reals Lia Lra Bool Classical.
From Coquelicot Require Import Coquelicot.
From Verif Require Import Base FSum CBase CExp Mat Herm_Model Herm_Spec Herm_Proofs Herm_Proofs2 HermEval_Model HermEval_Proofs LinPred_Model Fourier_Model
  FourierPade_Model FourierPade_Proofs FourierPade_Main Herm_Gauss.
Import ListNotations.
Local Open Scope R_scope.

(** ** a polynomial has finitely many zeros *)
Lemma zeros_or (P : C -> Prop) m : (exists l, NoDup l /\ length l = m /\ forall y, In y l -> P y) \/ (exists l, (length l < m)%nat /\ forall y, P y -> In y l).
Proof.
  induction m as [|m [(l & H1 & H2 & H3)|(l & H1 & H2)]].
  - left. exists []. split; [constructor|]. split; [reflexivity|intros y []].
  - destruct (classic (exists y, P y /\ ~ In y l)) as [(y & Py & Ny)|N].
    + left. exists (y :: l). split; [now constructor|]. split; [cbn; lia|]. intros x [<-|Hx]; [exact Py|now apply H3].
    + right. exists l. split; [lia|]. intros y Py. apply NNPP. intros Ny. apply N. now exists y.
  - right. exists l. split; [lia|exact H2].
Qed.
Lemma finite_zeros (q : list C) : nonzero (K := CF) q -> exists l, (length l < length q)%nat /\ forall y, cpoly q y = RtoC 0 -> In y l.
Proof.
  intros (c & Hc & Nc). destruct (zeros_or (fun y => cpoly q y = RtoC 0) (length q)) as [(l & H1 & H2 & H3)|H]; [|exact H].
  exfalso. apply Nc. apply (In_nth q c (RtoC 0)) in Hc. destruct Hc as (j & Hj & <-).
  apply (poly_roots CF (length q) (length q) (fun i => nth i l (RtoC 0)) (fun i => nth i q (RtoC 0))); [|lia| |exact Hj].
  - intros a b Ha Hb E. apply (proj1 (NoDup_nth l (RtoC 0)) H1); lia || exact E.
  - intros i Hi. assert (X := H3 (nth i l (RtoC 0)) ltac:(apply nth_In; lia)). rewrite cpoly_pv in X. exact X.
Qed.

Section Exc.
Variable close : R -> R -> bool.
Hypothesis close_refl : forall x, close x x = true.
Theorem tt2z_pade_total pade_fn delta N gf_t degree quad : pade_contract pade_fn ->
  (forall an num den, (num + den + 1 <= length an)%nat -> exists p q, pade_fn an num den = Ok (p, q)) ->
  quad <> QOther -> (2 <= N)%nat -> length gf_t = N -> (Z.abs (degree + 1) + 1 <= Z.of_nat N)%Z ->
  exists exc : list C, (2 * Z.of_nat (length exc) + degree + 2 <= Z.of_nat N)%Z /\
    forall z, ~ In (yarg z delta) exc -> exists v, tt2z_pade close pade_fn (grid delta N) gf_t z degree quad = Ok v.
Proof.
  intros HC HT Hq HN Hg Hd.
  destruct (quad_weight_total quad delta gf_t Hq) as (w & EW). { intros E. rewrite E in Hg. cbn in Hg. lia. }
  destruct (quad_weight_ok _ _ _ _ EW) as (_ & Lw & Hw). rewrite Hg in Lw, Hw. change (@length C w = N) in Lw.
  set (deg := ((Z.of_nat (@length C w) - (degree + 1) - 1) / 2)%Z).
  assert (D1 : (2 * deg <= Z.of_nat N - (degree + 1) - 1)%Z) by (unfold deg; rewrite Lw; apply Z.mul_div_le; lia).
  assert (D2 : (Z.of_nat N - (degree + 1) - 1 < 2 * deg + 2)%Z) by (unfold deg; rewrite Lw; assert (X := Z.mul_succ_div_gt (Z.of_nat N - (degree + 1) - 1) 2 ltac:(lia)); lia).
  destruct (HT w (Z.to_nat (deg + (degree + 1))) (Z.to_nat deg)) as (p & q & EP); [lia|]. destruct (HC _ _ _ _ _ EP) as (Lp & Lq & Nq & _).
  destruct (finite_zeros q Nq) as (exc & L & He). exists exc. split; [rewrite Lq in L; lia|]. intros z Hz.
  unfold tt2z_pade. rewrite grid_len, Hg. rewrite (proj2 (Nat.ltb_ge N 2)) by lia. cbv zeta. rewrite grid_equidistant by (lia || exact close_refl). cbn [negb].
  assert (EQ : is_quad quad = true) by (destruct quad; easy). rewrite EQ. cbn [negb]. rewrite !grid_nth by lia.
  destruct (Req_EM_T (INR 0 * delta) 0) as [_|Ne]; [|exfalso; apply Ne; cbn; ring]. rewrite Nat.eqb_refl. cbn [negb].
  replace (INR 1 * delta - INR 0 * delta) with delta by (cbn; ring). rewrite EW. cbn [bind]. fold deg.
  rewrite (proj2 (Z.ltb_ge deg 0)), (proj2 (Z.ltb_ge (deg + (degree + 1)) 0)) by lia. cbn [orb]. rewrite EP. cbn [bind fst snd]. fold (yarg z delta).
  unfold ratpol_eval. destruct (Ceq_dec _ _) as [E|_]; [|eauto]. exfalso. apply Hz. apply He. exact E.
Qed.
End Exc.

(** ** five samples of the constant signal, with the null vector of a Householder QR *)
Section Wit.
Let s := sqrt 3.
Let ones : list (list C) := [[RtoC 1; RtoC 1; RtoC 1]; [RtoC 1; RtoC 1; RtoC 1]].
Definition hvec : list R := [- (1 + sqrt 3) / (3 + sqrt 3); - 1 / (3 + sqrt 3); (2 + sqrt 3) / (3 + sqrt 3)].
Definition house (A : list (list C)) : list C :=
  if list_eq_dec (list_eq_dec Ceq_dec) A [[RtoC 1; RtoC 1; RtoC 1]; [RtoC 1; RtoC 1; RtoC 1]] then map RtoC hvec else gauss_nullvec (K := CF) A.
Lemma s_pos : 0 < s. Proof. apply sqrt_lt_R0. lra. Qed.
Lemma s_sq : s * s = 3. Proof. apply sqrt_sqrt. lra. Qed.
Lemma house_ok : nullvec_ok (K := CF) house.
Proof.
  intros A n HA Hr Hn. unfold house. match goal with |- context[if ?b then _ else _] => destruct b as [->|N] end; [|now apply gauss_nullvec_ok].
  cbn [length] in HA. subst n. split; [reflexivity|]. assert (S := s_pos). split.
  - intros row [<-|[<-|[]]]; unfold hvec; cbn [map dot combine lsum fold_right fst snd]; fold s; apply C_ext; cbn; field; lra.
  - exists (RtoC ((2 + s) / (3 + s))). split; [right; right; left; reflexivity|]. intros E. apply RtoC_inj in E. assert (0 < (2 + s) / (3 + s)) by (apply Rdiv_lt_0_compat; lra). lra.
Qed.
Lemma house_qr : exists Q Rm : nat -> nat -> R,
  (forall i j, (i < 3)%nat -> (j < 3)%nat -> Q 0%nat i * Q 0%nat j + Q 1%nat i * Q 1%nat j + Q 2%nat i * Q 2%nat j = if (i =? j)%nat then 1 else 0) /\
  (forall i j, (i < 3)%nat -> (j < 2)%nat -> Q i 0%nat * Rm 0%nat j + Q i 1%nat * Rm 1%nat j + Q i 2%nat * Rm 2%nat j = 1) /\
  (forall i j, (i < 3)%nat -> (j < i)%nat -> Rm i j = 0) /\
  house ones = [RtoC (Q 0%nat 2%nat); RtoC (Q 1%nat 2%nat); RtoC (Q 2%nat 2%nat)].
Proof.
  exists (fun i j => nth j (nth i [[- / s; - (1 + s) / (3 + s); - (1 + s) / (3 + s)]; [- / s; (2 + s) / (3 + s); - 1 / (3 + s)]; [- / s; - 1 / (3 + s); (2 + s) / (3 + s)]] []) 0).
  exists (fun i j => if (i =? 0)%nat then - s else 0). assert (S := s_pos). assert (Q := s_sq).
  assert (QQ : forall a b c d : R, c = a * d -> d <> 0 -> b = a -> c / d = b) by (intros a b c d -> Hd ->; field; exact Hd).
  repeat split.
  - intros i j Hi Hj. assert (X : s * s - 3 = 0) by lra.
    destruct i as [|[|[|i]]]; [| | |lia]; destruct j as [|[|[|j]]]; try lia; cbn [nth Nat.eqb]; field_simplify_eq; try lra; nra.
  - intros i j Hi Hj. destruct i as [|[|[|i]]]; [| | |lia]; cbn [nth Nat.eqb]; field; lra.
  - intros i j Hi Hj. destruct i; [lia|]. reflexivity.
  - unfold house. match goal with |- context[if ?b then _ else _] => destruct b as [_|N] end; [reflexivity|]. exfalso. now apply N.
Qed.
Definition zs : C := (PI, ln ((2 + sqrt 3) / (1 + sqrt 3))).
Lemma zs_upper : 0 < snd zs.
Proof. unfold zs. cbn [snd]. fold s. rewrite <- ln_1. assert (S := s_pos). apply ln_increasing; [lra|]. apply (Rmult_lt_reg_r (1 + s)); [lra|]. unfold Rdiv. rewrite Rmult_assoc, Rinv_l by lra. lra. Qed.
Lemma zs_y : cexp (Cmult (Cmult Ci zs) (RtoC 1)) = RtoC (- ((1 + s) / (2 + s))).
Proof.
  assert (S := s_pos). replace (Cmult (Cmult Ci zs) (RtoC 1)) with ((- snd zs, PI) : C) by (apply C_ext; cbn; ring). unfold cexp. cbn [fst snd]. rewrite cos_PI, sin_PI.
  rewrite exp_Ropp. unfold zs. cbn [snd]. fold s. rewrite exp_ln by (apply Rdiv_lt_0_compat; lra). apply C_ext; cbn; field; lra.
Qed.
Theorem spurious close solve : (forall x, close x x = true) ->
  tt2z_pade close (fun an num den => pade (K := CF) house solve an num den false) (grid 1 5) (samples [(RtoC 1, RtoC 0)] 1 5) zs (-1) QTrapz = Err NonFinite.
Proof.
  intros Hcl. assert (S := s_pos).
  assert (S0 : forall t, signal [(RtoC 1, RtoC 0)] t = RtoC 1).
  { intros t. unfold signal. cbn [map fst snd lsum fold_right]. replace (Copp (Cmult (Cmult Ci (RtoC 0)) (RtoC t))) with (RtoC 0) by (apply C_ext; cbn; ring). rewrite cexp_0. apply C_ext; cbn; ring. }
  assert (ES : samples [(RtoC 1, RtoC 0)] 1 5 = [RtoC 1; RtoC 1; RtoC 1; RtoC 1; RtoC 1]) by (unfold samples; cbn [seq map]; now rewrite !S0). rewrite ES.
  destruct (quad_weight_total QTrapz 1 [RtoC 1; RtoC 1; RtoC 1; RtoC 1; RtoC 1]) as (w & EW); [discriminate|discriminate|].
  destruct (quad_weight_ok _ _ _ _ EW) as (_ & Lw & Hw). cbn [length] in Lw, Hw. change (@length C w = 5%nat) in Lw.
  assert (W : w = [RtoC (1 / 2); RtoC 1; RtoC 1; RtoC 1; RtoC 1]).
  { destruct w as [|w0 [|w1 [|w2 [|w3 [|w4 [|]]]]]]; try discriminate Lw.
    assert (H0 := Hw 0%nat ltac:(lia)). assert (H1 := Hw 1%nat ltac:(lia)). assert (H2 := Hw 2%nat ltac:(lia)). assert (H3 := Hw 3%nat ltac:(lia)). assert (H4 := Hw 4%nat ltac:(lia)).
    unfold open_weight in *. cbn [nth Nat.eqb] in *. rewrite H0, H1, H2, H3, H4. rewrite <- !RtoC_mult, !Rmult_1_r. reflexivity. }
  unfold tt2z_pade. rewrite grid_len. cbn [Nat.ltb Nat.leb length Nat.eqb]. cbv zeta. rewrite grid_equidistant by (lia || exact Hcl). cbn [negb is_quad]. rewrite !grid_nth by lia.
  destruct (Req_EM_T (INR 0 * 1) 0) as [_|Ne]; [|exfalso; apply Ne; cbn; ring]. cbn [negb]. replace (INR 1 * 1 - INR 0 * 1) with 1 by (cbn; ring). rewrite EW. cbn [bind]. rewrite W. cbn [length].
  change ((Z.of_nat 5 - (-1 + 1) - 1) / 2)%Z with 2%Z. cbn [Z.ltb Z.compare orb Z.add]. change (Z.to_nat 2) with 2%nat.
  assert (EP : exists p, pade (K := CF) house solve [RtoC (1 / 2); RtoC 1; RtoC 1; RtoC 1; RtoC 1] 2 2 false = Ok (p, map RtoC hvec)).
  { unfold pade. cbn [length Nat.ltb Nat.leb Nat.add Nat.eqb firstn skipn]. unfold pade_top. cbn [Nat.add Nat.sub firstn rev app repeat]. unfold toeplitz at 1. cbn [length seq map Nat.leb Nat.sub nth].
    assert (EH : house [[RtoC 1; RtoC 1; RtoC 1]; [RtoC 1; RtoC 1; RtoC 1]] = map RtoC hvec) by (unfold house; match goal with |- context[if ?b then _ else _] => destruct b as [_|N] end; [reflexivity|exfalso; now apply N]).
    cbn [bind]. match goal with |- context[house ?m] => replace (house m) with (map RtoC hvec : list CF) by (symmetry; exact EH) end. cbn [length hvec map Nat.eqb negb]. eexists. reflexivity. }
  destruct EP as (p & EP). match goal with |- context[bind ?t] => change t with (pade (K := CF) house solve [RtoC (1 / 2); RtoC 1; RtoC 1; RtoC 1; RtoC 1] 2 2 false) end.
  rewrite EP. cbn [bind fst snd]. rewrite zs_y. unfold ratpol_eval. destruct (Ceq_dec _ _) as [_|N]; [reflexivity|]. exfalso. apply N.
  unfold hvec. cbn [map cpoly]. fold s. apply C_ext; cbn; field; lra.
Qed.
End Wit.
