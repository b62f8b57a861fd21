From Coq Require Import Reals List Lra Bool.
From Coquelicot Require Import Coquelicot.
From Verif Require Import Base FSum CBase HermEval_Model.
Import ListNotations.
Local Open Scope C_scope.

Definition quad (p q r : list C) (z G : C) : Prop := cpoly p z + cpoly q z * G + cpoly r z * (G * G) = 0.

Lemma C2_neq0 : RtoC 2 <> 0.
Proof. intros E. apply (f_equal fst) in E. cbn in E. lra. Qed.
Lemma RtoC_half : RtoC (/2) = / RtoC 2.
Proof. apply RtoC_inv. lra. Qed.
Lemma RtoC_2 : RtoC 2 = 1 + 1.
Proof. rewrite <- RtoC_plus. apply f_equal. lra. Qed.
Lemma RtoC_4 : RtoC 4 = RtoC 2 * RtoC 2.
Proof. rewrite <- RtoC_mult. apply f_equal. lra. Qed.

Section G.
Variable K : Fld.
Add Field KFe : (Fth K).
Local Open Scope fld_scope.
Lemma quad_factor (q r s G two : K) : two = 1 + 1 -> two <> 0 -> r <> 0 ->
  (q * q - s * s) / (two * two * r) + q * G + r * (G * G)
  = r * ((G - (- q + s) / (two * r)) * (G - (- q - s) / (two * r))).
Proof. intros E N Hr. subst two. field. split; [exact Hr|]. repeat split; try exact N; apply fmul_neq0; exact N. Qed.
End G.

Lemma branches_value p q r z a b :
  eval_branches p q r z = Ok (a, b) ->
  cpoly r z <> 0 /\
  let s := csqrt (cpoly q z * cpoly q z - 4 * cpoly p z * cpoly r z) in
  a = (- cpoly q z + s) / (2 * cpoly r z) /\ b = (- cpoly q z - s) / (2 * cpoly r z).
Proof.
  unfold eval_branches. set (pz := cpoly p z). set (qz := cpoly q z). set (rz := cpoly r z).
  destruct (Ceq_dec rz 0) as [|Hr]; [discriminate|]. intros E. split; [exact Hr|].
  set (s := csqrt (qz * qz - 4 * pz * rz)) in *.
  assert (Es : s * s = qz * qz - 4 * pz * rz) by apply csqrt_sqr.
  rewrite RtoC_half in E.
  set (p0 := / 2 * (- qz + s) / rz) in *. set (m0 := / 2 * (- qz - s) / rz) in *.
  assert (Hpr : rz * (p0 * m0) = pz).
  { transitivity ((qz * qz - s * s) / (2 * 2 * rz)).
    - unfold p0, m0. field. split; [exact Hr|exact C2_neq0].
    - rewrite Es, RtoC_4. field. split; [exact Hr|exact C2_neq0]. }
  assert (E1 : (if Rlt_dec (Cmod p0) (Cmod m0) then pz / (rz * m0) else p0) = p0).
  { destruct (Rlt_dec (Cmod p0) (Cmod m0)) as [L|]; [|reflexivity].
    assert (Hm : m0 <> 0).
    { apply Cmod_gt_0. apply Rle_lt_trans with (2 := L). apply Cmod_ge_0. }
    rewrite <- Hpr. field. split; assumption. }
  rewrite E1 in E.
  assert (E2 : (if Rlt_dec (Cmod m0) (Cmod p0) then pz / (rz * p0) else m0) = m0).
  { destruct (Rlt_dec (Cmod m0) (Cmod p0)) as [L|]; [|reflexivity].
    assert (Hm : p0 <> 0).
    { apply Cmod_gt_0. apply Rle_lt_trans with (2 := L). apply Cmod_ge_0. }
    rewrite <- Hpr. field. split; assumption. }
  rewrite E2 in E. injection E as <- <-. unfold p0, m0.
  split; field; split; try exact Hr; exact C2_neq0.
Qed.

Theorem branches_solve p q r z a b :
  eval_branches p q r z = Ok (a, b) -> forall G, quad p q r z G <-> G = a \/ G = b.
Proof.
  intros E. destruct (branches_value _ _ _ _ _ _ E) as (Hr & Ea & Eb). intros G. unfold quad.
  set (pz := cpoly p z) in *. set (qz := cpoly q z) in *. set (rz := cpoly r z) in *.
  set (s := csqrt (qz * qz - 4 * pz * rz)) in *.
  assert (Es : s * s = qz * qz - 4 * pz * rz) by apply csqrt_sqr.
  assert (F : pz + qz * G + rz * (G * G) = rz * ((G - a) * (G - b))).
  { assert (Hp : pz = (qz * qz - s * s) / (2 * 2 * rz)).
    { rewrite Es, RtoC_4. field. split; [exact Hr|exact C2_neq0]. }
    rewrite Hp, Ea, Eb. apply (quad_factor CF qz rz s G (RtoC 2)); [exact RtoC_2|exact C2_neq0|exact Hr]. }
  rewrite F. split.
  - intros H. destruct (Ceq_dec (G - a) 0) as [H1|H1].
    + left. replace G with (G - a + a) by ring. rewrite H1. ring.
    + destruct (Ceq_dec (G - b) 0) as [H2|H2].
      * right. replace G with (G - b + b) by ring. rewrite H2. ring.
      * exfalso. exact (Cmult_neq_0 _ _ Hr (Cmult_neq_0 _ _ H1 H2) H).
  - intros [-> | ->]; ring.
Qed.

Theorem branches_defined p q r z : cpoly r z <> 0 <-> exists a b, eval_branches p q r z = Ok (a, b).
Proof.
  unfold eval_branches. destruct (Ceq_dec (cpoly r z) 0) as [E|N].
  - split; [contradiction|]. intros (a & b & H). discriminate.
  - split; [eauto|auto].
Qed.

Theorem hermite2_eval_nearest p q r numer denom z g :
  hermite2_eval p q r numer denom z = Ok g ->
  quad p q r z g /\ cpoly denom z <> 0 /\
  forall G, quad p q r z G -> Rle (Cmod (g - cpoly numer z / cpoly denom z)) (Cmod (G - cpoly numer z / cpoly denom z)).
Proof.
  unfold hermite2_eval. destruct (eval_branches p q r z) as [[a b]|] eqn:E; [|discriminate]. cbn [bind].
  unfold ratpol_eval. destruct (Ceq_dec (cpoly denom z) 0) as [|Hd]; [discriminate|]. cbn [bind fst snd].
  assert (S := branches_solve _ _ _ _ _ _ E).
  set (w := cpoly numer z / cpoly denom z). intros [= <-].
  destruct (Rlt_dec (Cmod (a - w)) (Cmod (b - w))) as [L|L].
  - split; [apply S; now left|]. split; [exact Hd|]. intros G HG. apply S in HG. destruct HG as [-> | ->]; lra.
  - split; [apply S; now right|]. split; [exact Hd|]. intros G HG. apply S in HG. destruct HG as [-> | ->]; lra.
Qed.

Theorem hermite2ret_eval_ok p q r z g :
  hermite2ret_eval p q r z = Ok g ->
  quad p q r z g /\
  ((exists G, quad p q r z G /\ (snd G <= 0)%R) ->
     (snd g <= 0)%R /\ forall G, quad p q r z G -> (snd G <= 0)%R -> (snd G <= snd g)%R) /\
  ((forall G, quad p q r z G -> (0 < snd G)%R) -> forall G, quad p q r z G -> (snd g <= snd G)%R).
Proof.
  unfold hermite2ret_eval. destruct (eval_branches p q r z) as [[a b]|] eqn:E; [|discriminate]. cbn [bind fst snd].
  assert (S := branches_solve _ _ _ _ _ _ E). intros [= <-].
  assert (Sa : quad p q r z a) by (apply S; now left). assert (Sb : quad p q r z b) by (apply S; now right).
  cbn [np_select]. unfold rleb.
  destruct (Rle_dec (snd a) 0) as [A|A]; destruct (Rle_dec (snd b) 0) as [B|B];
    destruct (Rle_dec (snd b) (snd a)) as [L1|L1]; destruct (Rle_dec (snd a) (snd b)) as [L2|L2];
    cbn [andb negb]; try lra;
    (split; [assumption|]; split;
      [ intros (G0 & HG0 & HG1); apply S in HG0; split;
        [destruct HG0; subst; lra|intros G HG HGn; apply S in HG; destruct HG; destruct HG0; subst; lra]
      | intros HA G HG; assert (HAa := HA a Sa); assert (HAb := HA b Sb); apply S in HG; destruct HG; subst; lra ]).
Qed.

Lemma c12_example : forall z : C, (exists a b, eval_branches [RtoC (-1)] [RtoC 0] [RtoC 1] z = Ok (a, b)) /\
  (exists g, hermite2_eval [RtoC (-1)] [RtoC 0] [RtoC 1] [RtoC 1] [RtoC 1] z = Ok g) /\
  (exists g, hermite2ret_eval [RtoC (-1)] [RtoC 0] [RtoC 1] z = Ok g).
Proof.
  intros z. assert (H1 : cpoly [RtoC 1] z <> 0).
  { cbn [cpoly]. replace (1 + z * 0) with (RtoC 1) by ring. intros E. apply (f_equal fst) in E. cbn in E. lra. }
  assert (H := H1). rewrite (branches_defined [RtoC (-1)] [RtoC 0]) in H. destruct H as (a & b & E).
  split; [eauto|]. unfold hermite2_eval, hermite2ret_eval, ratpol_eval. rewrite E. cbn [bind].
  destruct (Ceq_dec (cpoly [RtoC 1] z) 0); [contradiction|]. cbn [bind]. split; eauto.
Qed.
