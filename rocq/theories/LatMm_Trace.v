(** * The power sums of the spectrum are the traces of the powers *)
From Coq Require Import Reals Lra Lia List.
From Coquelicot Require Import Coquelicot.
From Verif Require Import Base FSum CBase LatMom_Spec LatDer_Spec LatHil_Spec LatMm_Spec.
Import ListNotations.
Local Open Scope C_scope.

Lemma csum_ext n (f g : nat -> C) : (forall i, (i < n)%nat -> f i = g i) -> nsum (K := CF) n f = nsum (K := CF) n g.
Proof. induction n as [|n IH]; cbn; intros E; [reflexivity|]. rewrite IH by (intros; apply E; lia). rewrite E by lia. reflexivity. Qed.
Lemma csum_plus n (f g : nat -> C) : nsum (K := CF) n (fun i => f i + g i) = nsum (K := CF) n f + nsum (K := CF) n g.
Proof. exact (nsum_add CF n f g). Qed.
Lemma csum_scal n c (f : nat -> C) : nsum (K := CF) n (fun i => c * f i) = c * nsum (K := CF) n f.
Proof. exact (nsum_mul_l CF n c f). Qed.
Lemma csum_scal_r n c (f : nat -> C) : nsum (K := CF) n (fun i => f i * c) = nsum (K := CF) n f * c.
Proof. exact (nsum_mul_r CF n c f). Qed.
Lemma csum_swap n m (f : nat -> nat -> C) : nsum (K := CF) n (fun i => nsum (K := CF) m (fun j => f i j)) = nsum (K := CF) m (fun j => nsum (K := CF) n (fun i => f i j)).
Proof. exact (nsum_swap CF n m f). Qed.
Lemma csum_delta n i (f : nat -> C) : (i < n)%nat -> nsum (K := CF) n (fun l => (if Nat.eqb i l then RtoC 1 else RtoC 0) * f l) = f i.
Proof.
  intros Hi. induction n as [|n IH]; [lia|]. cbn. destruct (Nat.eq_dec i n) as [->|N].
  - rewrite Nat.eqb_refl. replace (nsum (K := CF) n (fun l => (if Nat.eqb n l then RtoC 1 else RtoC 0) * f l)) with (RtoC 0); [ring|].
    clear. symmetry. assert (H : forall k, (k <= n)%nat -> nsum (K := CF) k (fun l => (if Nat.eqb n l then RtoC 1 else RtoC 0) * f l) = RtoC 0); [|apply H; lia].
    induction k as [|k IH]; cbn; intros Hk; [reflexivity|]. rewrite IH by lia. replace (Nat.eqb n k) with false by (symmetry; apply Nat.eqb_neq; lia). ring.
  - rewrite IH by lia. replace (Nat.eqb i n) with false by (symmetry; apply Nat.eqb_neq; exact N). ring.
Qed.
Fixpoint rsum (n : nat) (f : nat -> R) : R := match n with O => 0%R | S n => (rsum n f + f n)%R end.
Lemma rsum_le n f g : (forall i, (i < n)%nat -> (f i <= g i)%R) -> (rsum n f <= rsum n g)%R.
Proof. induction n as [|n IH]; cbn; intros E; [lra|]. assert (A := IH ltac:(intros; apply E; lia)). assert (B := E n ltac:(lia)). lra. Qed.
Lemma rsum_ext n f g : (forall i, (i < n)%nat -> f i = g i) -> rsum n f = rsum n g.
Proof. induction n as [|n IH]; cbn; intros E; [reflexivity|]. rewrite IH by (intros; apply E; lia). rewrite E by lia. reflexivity. Qed.
Lemma rsum_pos n f : (forall i, (i < n)%nat -> (0 <= f i)%R) -> (0 <= rsum n f)%R.
Proof. induction n as [|n IH]; cbn; intros E; [lra|]. assert (A := IH ltac:(intros; apply E; lia)). assert (B := E n ltac:(lia)). lra. Qed.
Lemma rsum_ge n f i : (forall i, (i < n)%nat -> (0 <= f i)%R) -> (i < n)%nat -> (f i <= rsum n f)%R.
Proof.
  induction n as [|n IH]; intros E Hi; [lia|]. cbn. destruct (Nat.eq_dec i n) as [->|N].
  - assert (A := rsum_pos n f ltac:(intros; apply E; lia)). lra.
  - assert (A := IH ltac:(intros; apply E; lia) ltac:(lia)). assert (B := E n ltac:(lia)). lra.
Qed.
Lemma rsum_plus n f g : rsum n (fun i => f i + g i)%R = (rsum n f + rsum n g)%R.
Proof. induction n as [|n IH]; cbn; [lra|]. rewrite IH. lra. Qed.
Lemma rsum_scal n c f : rsum n (fun i => c * f i)%R = (c * rsum n f)%R.
Proof. induction n as [|n IH]; cbn; [lra|]. rewrite IH. lra. Qed.
Lemma rsum_swap n m (f : nat -> nat -> R) : rsum n (fun i => rsum m (fun j => f i j)) = rsum m (fun j => rsum n (fun i => f i j)).
Proof.
  induction n as [|n IH]; cbn.
  - induction m as [|m IHm]; cbn; [reflexivity|]. rewrite <- IHm. lra.
  - rewrite IH, <- rsum_plus. reflexivity.
Qed.
Lemma csum_mod n (f : nat -> C) : (Cmod (nsum (K := CF) n f) <= rsum n (fun i => Cmod (f i)))%R.
Proof. induction n as [|n IH]; cbn; [rewrite Cmod_0; lra|]. eapply Rle_trans; [apply Cmod_triangle|]. lra. Qed.

Lemma mpow_r N H m i j : (i < N)%nat -> (j < N)%nat -> nsum (K := CF) N (fun l => mpow N H m i l * H l j) = mpow N H (S m) i j.
Proof.
  revert i. induction m as [|m IH]; intros i Hi Hj.
  - cbn [mpow]. rewrite csum_delta by exact Hi. transitivity (nsum (K := CF) N (fun l => (if Nat.eqb j l then RtoC 1 else RtoC 0) * H i l)); [rewrite csum_delta by exact Hj; reflexivity|].
    apply csum_ext; intros l Hl. rewrite (Nat.eqb_sym l j). ring.
  - change (mpow N H (S (S m)) i j) with (nsum (K := CF) N (fun l => H i l * mpow N H (S m) l j)).
    transitivity (nsum (K := CF) N (fun l => nsum (K := CF) N (fun p => H i p * (mpow N H m p l * H l j)))).
    + apply csum_ext; intros l Hl. cbn [mpow]. rewrite <- csum_scal_r. apply csum_ext; intros p Hp. ring.
    + rewrite csum_swap. apply csum_ext; intros p Hp. rewrite csum_scal. rewrite IH by assumption. reflexivity.
Qed.

Section Spec.
Variables (N : nat) (H : nat -> nat -> C).
(** trace of H^m G and the sum of e^m / (z - e) *)
Definition trG (m : nat) (G : nat -> nat -> C) : C := nsum (K := CF) N (fun i => nsum (K := CF) N (fun l => mpow N H m i l * G l i)).
Lemma res_z z G i j : is_resolvent N H z G -> (i < N)%nat -> (j < N)%nat -> z * G i j = (if Nat.eqb i j then RtoC 1 else RtoC 0) + nsum (K := CF) N (fun l => H i l * G l j).
Proof.
  intros R Hi Hj. assert (E := R i j Hi Hj). etransitivity; [|apply (f_equal2 Cplus); [exact E|reflexivity]].
  transitivity (nsum (K := CF) N (fun l => z * ((if Nat.eqb i l then RtoC 1 else RtoC 0) * G l j))).
  - rewrite csum_scal, csum_delta by exact Hi. reflexivity.
  - rewrite <- csum_plus. apply csum_ext; intros l Hl. destruct (Nat.eqb i l); ring.
Qed.
Lemma trG_step z G m : is_resolvent N H z G -> z * trG m G = trace N (mpow N H m) + trG (S m) G.
Proof.
  intros R. unfold trG, trace. rewrite <- csum_scal, <- csum_plus. apply csum_ext; intros i Hi. rewrite <- csum_scal.
  transitivity (nsum (K := CF) N (fun l => (if Nat.eqb i l then RtoC 1 else RtoC 0) * mpow N H m i l) + nsum (K := CF) N (fun l => nsum (K := CF) N (fun p => mpow N H m i l * H l p * G p i))).
  - rewrite <- csum_plus. apply csum_ext; intros l Hl. transitivity (mpow N H m i l * (z * G l i)); [ring|]. rewrite (res_z z G l i R Hl Hi), (Nat.eqb_sym l i).
    rewrite Cmult_plus_distr_l, <- csum_scal. f_equal; [ring|]. apply csum_ext; intros p Hp. ring.
  - rewrite csum_delta by exact Hi. f_equal. rewrite csum_swap. apply csum_ext; intros p Hp. rewrite csum_scal_r, mpow_r by assumption. reflexivity.
Qed.
Definition sE (es : list R) (m : nat) (z : C) : C := fold_right Cplus 0 (map (fun e => RtoC (e ^ m) / (z - RtoC e)) es).
Definition pE (es : list R) (m : nat) : C := fold_right Cplus 0 (map (fun e => RtoC (e ^ m)) es).
Lemma up_ne z e : (0 < snd z)%R -> z - RtoC e <> 0.
Proof. intros Hz E. assert (E2 := f_equal snd E). cbn in E2. lra. Qed.
Lemma sE_step es z m : (0 < snd z)%R -> z * sE es m z = pE es m + sE es (S m) z.
Proof.
  intros Hz. unfold sE, pE. induction es as [|e es IH]; cbn [map fold_right]; [ring|].
  rewrite Cmult_plus_distr_l, IH. assert (A := up_ne z e Hz).
  replace (z * (RtoC (e ^ m) / (z - RtoC e))) with (RtoC (e ^ m) + RtoC (e ^ S m) / (z - RtoC e)); [ring|].
  cbn [pow]. rewrite RtoC_mult. field. exact A.
Qed.
Definition hS : R := rsum N (fun i => rsum N (fun j => Cmod (H i j))).
Definition gS (G : nat -> nat -> C) : R := rsum N (fun i => rsum N (fun j => Cmod (G i j))).
Lemma gS_entry (A : nat -> nat -> C) i j : (i < N)%nat -> (j < N)%nat -> (Cmod (A i j) <= gS A)%R.
Proof.
  intros Hi Hj. unfold gS. eapply Rle_trans; [|apply (rsum_ge N (fun i => rsum N (fun j => Cmod (A i j))) i); [intros; apply rsum_pos; intros; apply Cmod_ge_0|exact Hi]].
  apply (rsum_ge N (fun j => Cmod (A i j)) j); [intros; apply Cmod_ge_0|exact Hj].
Qed.
Lemma gS_mul (A B : nat -> nat -> C) : (rsum N (fun i => rsum N (fun j => rsum N (fun l => Cmod (A i l) * Cmod (B l j)))) <= gS A * gS B)%R.
Proof.
  unfold gS at 1. rewrite (Rmult_comm _ (gS B)), <- rsum_scal. apply rsum_le; intros i Hi. rewrite rsum_swap, <- rsum_scal. apply rsum_le; intros l Hl. rewrite rsum_scal, (Rmult_comm (gS B)).
  apply Rmult_le_compat_l; [apply Cmod_ge_0|]. apply (rsum_ge N (fun l => rsum N (fun j => Cmod (B l j))) l); [intros; apply rsum_pos; intros; apply Cmod_ge_0|exact Hl].
Qed.
Lemma gS_bound y G : (gS H < y)%R -> is_resolvent N H (RtoC y * Ci) G -> (gS G <= INR N * INR N / (y - gS H))%R.
Proof.
  intros Hy R. assert (P : (0 <= gS H)%R) by (apply rsum_pos; intros; apply rsum_pos; intros; apply Cmod_ge_0). assert (Q : (0 <= gS G)%R) by (apply rsum_pos; intros; apply rsum_pos; intros; apply Cmod_ge_0).
  assert (B : (y * gS G <= INR N * INR N + gS H * gS G)%R).
  { eapply Rle_trans; [|apply Rplus_le_compat_l; exact (gS_mul H G)]. unfold gS at 1. rewrite <- rsum_scal.
    replace (INR N * INR N)%R with (rsum N (fun _ => rsum N (fun _ => 1%R))).
    2: { assert (K : forall n c, rsum n (fun _ => c) = (INR n * c)%R) by (intros n c; induction n as [|n IH]; [cbn; ring|rewrite S_INR; cbn [rsum]; rewrite IH; ring]). rewrite (K N 1%R), K. ring. }
    rewrite <- rsum_plus. apply rsum_le; intros i Hi. rewrite <- rsum_scal, <- rsum_plus. apply rsum_le; intros j Hj.
    replace (y * Cmod (G i j))%R with (Cmod (RtoC y * Ci * G i j)).
    2: { rewrite !Cmod_mult, Cmod_R, Rabs_pos_eq by lra. replace (Cmod Ci) with 1%R; [ring|]. unfold Cmod, Ci. cbn. replace (0 * (0 * 1) + 1 * (1 * 1))%R with 1%R by ring. symmetry; apply sqrt_1. }
    rewrite (res_z _ G i j R Hi Hj). eapply Rle_trans; [apply Cmod_triangle|]. apply Rplus_le_compat; [destruct (Nat.eqb i j); rewrite ?Cmod_1, ?Cmod_0; lra|].
    eapply Rle_trans; [apply csum_mod|]. apply rsum_le; intros l Hl. rewrite Cmod_mult. lra. }
  apply Rmult_le_reg_r with (y - gS H)%R; [lra|]. replace (INR N * INR N / (y - gS H) * (y - gS H))%R with (INR N * INR N)%R by (field; lra). lra.
Qed.
Lemma trG_bound m G : (Cmod (trG m G) <= gS (mpow N H m) * gS G)%R.
Proof.
  eapply Rle_trans; [apply csum_mod|]. eapply Rle_trans; [|apply gS_mul]. apply rsum_le; intros i Hi. eapply Rle_trans; [apply csum_mod|].
  eapply Rle_trans; [|apply (rsum_ge N (fun j => rsum N (fun l => Cmod (mpow N H m i l) * Cmod (G l j)))%R i); [|exact Hi]].
  - apply rsum_le; intros l Hl. rewrite Cmod_mult. lra.
  - intros; apply rsum_pos; intros; apply Rmult_le_pos; apply Cmod_ge_0.
Qed.
Lemma sE_bound es m y : (0 < y)%R -> (Cmod (sE es m (RtoC y * Ci)%C) <= fold_right Rplus 0%R (map (fun e => Rabs e ^ m) es) / y)%R.
Proof.
  intros Hy. unfold sE. induction es as [|e es IH]; cbn [map fold_right]; [rewrite Cmod_0; unfold Rdiv; lra|]. eapply Rle_trans; [apply Cmod_triangle|]. unfold Rdiv. rewrite Rmult_plus_distr_r.
  apply Rplus_le_compat; [|exact IH]. rewrite Cmod_div by (apply up_ne; cbn; lra). rewrite Cmod_R, <- RPow_abs. apply Rmult_le_compat_l; [apply pow_le, Rabs_pos|].
  apply Rinv_le_contravar; [exact Hy|]. assert (A := Rmax_Cmod (RtoC y * Ci - RtoC e)). assert (B := Rmax_r (Rabs (fst (RtoC y * Ci - RtoC e)%C)) (Rabs (snd (RtoC y * Ci - RtoC e)%C))). assert (D : snd (RtoC y * Ci - RtoC e)%C = y) by (cbn; ring). rewrite D in A, B. rewrite (Rabs_pos_eq y) in A, B by lra. eapply Rle_trans; [exact B|exact A].
Qed.
Lemma small_const (c : R) (A B M : R) : (0 <= c)%R -> (0 <= A)%R -> (0 <= B)%R -> (0 <= M)%R -> (forall y, (M < y)%R -> (c <= A / (y - M) + B / y)%R) -> c = 0%R.
Proof.
  intros Hc HA HB HM Hb. destruct (Req_dec c 0) as [E|E]; [exact E|]. exfalso. assert (Pc : (0 < c)%R) by lra. set (w := (1 + 2 * (A + B) / c)%R).
  assert (Q : (0 <= 2 * (A + B) / c)%R) by (apply Rmult_le_pos; [lra|left; apply Rinv_0_lt_compat; lra]). assert (Hw : (0 < w)%R) by (unfold w; lra). specialize (Hb (M + w)%R ltac:(lra)). replace (M + w - M)%R with w in Hb by ring.
  assert (B1 : (B / (M + w) <= B / w)%R) by (apply Rmult_le_compat_l; [exact HB|]; apply Rinv_le_contravar; lra).
  assert (Z : (c * w <= A + B)%R). { apply Rmult_le_reg_r with (/ w)%R; [apply Rinv_0_lt_compat; lra|]. replace (c * w * / w)%R with c by (field; lra). unfold Rdiv in *. lra. }
  unfold w in Z. replace (c * (1 + 2 * (A + B) / c))%R with (c + 2 * (A + B))%R in Z by (field; lra). lra.
Qed.
Lemma spec_trace es : (0 < N)%nat -> is_spectrum N H es -> forall m, pE es m = trace N (mpow N H m).
Proof.
  intros Np (L & S0). assert (S : forall z : C, (0 < snd z)%R -> (exists G, is_resolvent N H z G) /\ forall G, is_resolvent N H z G -> site_average N G = mean_of (fun e => 1 / (z - RtoC e)) es) by (intros z Hz; apply S0; intros e _ E; apply (f_equal snd) in E; cbn in E; lra).
  assert (D0 : forall z G, (0 < snd z)%R -> is_resolvent N H z G -> trG 0 G = sE es 0 z).
  { intros z G Hz R. destruct (S z Hz) as [_ S2]. assert (E := S2 G R). unfold site_average, mean_of in E. rewrite L in E.
    assert (I0 : RtoC (INR N) <> 0) by (intros X; apply (f_equal fst) in X; cbn in X; assert (Y := lt_0_INR N Np); lra).
    assert (E' : nsum (K := CF) N (fun i => G i i) = fold_right Cplus 0 (map (fun e => 1 / (z - RtoC e)) es)).
    { apply (f_equal (fun c => c * RtoC (INR N))) in E. unfold Cdiv in E. rewrite <- !Cmult_assoc, Cinv_l, !Cmult_1_r in E by exact I0. exact E. }
    unfold trG. transitivity (nsum (K := CF) N (fun i => G i i)); [apply csum_ext; intros i Hi; cbn [mpow]; exact (csum_delta N i (fun l => G l i) Hi)|exact E']. }
  assert (K : forall m, (forall z G, (0 < snd z)%R -> is_resolvent N H z G -> trG m G = sE es m z) -> pE es m = trace N (mpow N H m) /\ (forall z G, (0 < snd z)%R -> is_resolvent N H z G -> trG (1 + m) G = sE es (1 + m) z)).
  { intros m Dm. assert (C0 : forall z G, (0 < snd z)%R -> is_resolvent N H z G -> trace N (mpow N H m) - pE es m = sE es (1 + m) z - trG (1 + m) G).
    { intros z G Hz R. assert (E1 := trG_step z G m R). assert (E2 := sE_step es z m Hz). rewrite (Dm z G Hz R), E2 in E1. change (1 + m)%nat with (Datatypes.S m).
      transitivity (trace N (mpow N H m) + trG (Datatypes.S m) G - trG (Datatypes.S m) G - pE es m); [ring|]. rewrite <- E1. ring. }
    assert (Z : Cmod (trace N (mpow N H m) - pE es m) = 0%R).
    { apply (small_const _ (gS (mpow N H (1 + m)) * (INR N * INR N)) (fold_right Rplus 0%R (map (fun e => Rabs e ^ (1 + m))%R es)) (gS H)).
      - apply Cmod_ge_0.
      - apply Rmult_le_pos; [apply rsum_pos; intros; apply rsum_pos; intros; apply Cmod_ge_0|]. apply Rmult_le_pos; apply pos_INR.
      - clear. induction es as [|e es IH]; cbn [map fold_right]; [lra|]. assert (A := pow_le (Rabs e) (1 + m) (Rabs_pos e)). lra.
      - apply rsum_pos; intros; apply rsum_pos; intros; apply Cmod_ge_0.
      - intros y Hy. assert (P : (0 <= gS H)%R) by (apply rsum_pos; intros; apply rsum_pos; intros; apply Cmod_ge_0). assert (Hz : (0 < snd (RtoC y * Ci)%C)%R) by (cbn; lra).
        destruct (S _ Hz) as [(G & R) _]. rewrite (C0 _ G Hz R). eapply Rle_trans; [apply Cmod_triangle|]. rewrite Cmod_opp, Rplus_comm. apply Rplus_le_compat; [|apply sE_bound; lra].
        eapply Rle_trans; [apply trG_bound|]. unfold Rdiv. rewrite Rmult_assoc. apply Rmult_le_compat_l; [apply rsum_pos; intros; apply rsum_pos; intros; apply Cmod_ge_0|]. exact (gS_bound y G Hy R). }
    apply Cmod_eq_0 in Z. split.
    - symmetry. transitivity (trace N (mpow N H m) - pE es m + pE es m); [ring|]. rewrite Z. ring.
    - intros z G Hz R. assert (E := C0 z G Hz R). rewrite Z in E. transitivity (sE es (1 + m) z - (sE es (1 + m) z - trG (1 + m) G)); [ring|]. rewrite <- E. ring. }
  assert (A : forall m z G, (0 < snd z)%R -> is_resolvent N H z G -> trG m G = sE es m z) by (induction m as [|m IH]; [exact D0|exact (proj2 (K m IH))]).
  intros m. exact (proj1 (K m (A m))).
Qed.
End Spec.
