(** * Spectral functions of the Lieb, honeycomb and kagome lattice *)
From Coq Require Import Reals Lra Lia List FunctionalExtensionality.
From Coquelicot Require Import Coquelicot.
From Verif Require Import Base CBase CExp CSqrt Lattice_Model Bethe_Proofs Bethe_Main LatMom_Spec LatDer_Spec LatDer_Model LatDer_Proofs LatDer_Dos LatEll_Model LatEll_Proofs LatInt_Spec LatInt_Square LatInt_Local CAnal CHol CEll CHolo LatBz_Spec LatSym_Proofs LatTri_Proofs LatTri_Main LatTri_Derived LatCut_Spec LatCut_Proofs LatRect_Main LatSpf_Spec LatSpf_Proofs LatSpf_Tri.
Local Open Scope C_scope.

(** ** explicit resolvents *)
Definition inv2 (H : nat -> nat -> C) (z : C) (i j : nat) : C :=
  (if Nat.eqb i j then z else H i j) / (z * z - H 0%nat 1%nat * H 1%nat 0%nat).
Lemma inv2_ok (H : nat -> nat -> C) (z : C) : H 0%nat 0%nat = 0 -> H 1%nat 1%nat = 0 -> z * z - H 0%nat 1%nat * H 1%nat 0%nat <> 0 -> is_resolvent 2 H z (inv2 H z).
Proof.
  intros E0 E1 N i j Hi Hj. assert (Ii : i = 0%nat \/ i = 1%nat) by lia. assert (Ij : j = 0%nat \/ j = 1%nat) by lia. unfold inv2. rewrite nsum2.
  destruct Ii as [-> | ->], Ij as [-> | ->]; cbn [Nat.eqb]; rewrite ?E0, ?E1; match goal with |- @eq _ ?l ?r => change (@eq C l r) end; field; exact N.
Qed.
Definition inv3 (H : nat -> nat -> C) (z : C) (i j : nat) : C :=
  let m := fun i j : nat => (if Nat.eqb i j then z else 0) - H i j in
  let a := m 0%nat 0%nat in let b := m 0%nat 1%nat in let c := m 0%nat 2%nat in let d := m 1%nat 0%nat in let e := m 1%nat 1%nat in let f := m 1%nat 2%nat in
  let g := m 2%nat 0%nat in let h := m 2%nat 1%nat in let k := m 2%nat 2%nat in
  match i, j with
  | 0, 0 => e * k - f * h | 0, 1 => c * h - b * k | 0, _ => b * f - c * e
  | 1, 0 => f * g - d * k | 1, 1 => a * k - c * g | 1, _ => c * d - a * f
  | _, 0 => d * h - e * g | _, 1 => b * g - a * h | _, _ => a * e - b * d
  end / det3 a b c d e f g h k.
Lemma inv3_ok (H : nat -> nat -> C) (z : C) : det3 (z - H 0%nat 0%nat) (0 - H 0%nat 1%nat) (0 - H 0%nat 2%nat) (0 - H 1%nat 0%nat) (z - H 1%nat 1%nat) (0 - H 1%nat 2%nat)
             (0 - H 2%nat 0%nat) (0 - H 2%nat 1%nat) (z - H 2%nat 2%nat) <> 0 -> is_resolvent 3 H z (inv3 H z).
Proof.
  intros N i j Hi Hj. assert (Ii : i = 0%nat \/ i = 1%nat \/ i = 2%nat) by lia. assert (Ij : j = 0%nat \/ j = 1%nat \/ j = 2%nat) by lia. unfold inv3. cbv zeta. rewrite nsum3. revert N.
  destruct Ii as [-> | [-> | ->]], Ij as [-> | [-> | ->]]; cbn [Nat.eqb];
  generalize (z - H 0%nat 0%nat) (0 - H 0%nat 1%nat) (0 - H 0%nat 2%nat) (0 - H 1%nat 0%nat) (z - H 1%nat 1%nat) (0 - H 1%nat 2%nat) (0 - H 2%nat 0%nat) (0 - H 2%nat 1%nat) (z - H 2%nat 2%nat);
  intros a b c d e f g h k N; match goal with |- @eq _ ?l ?r => change (@eq C l r) end; unfold det3 in *; field; exact N.
Qed.

(** ** the structure factors are not negative *)
Lemma sq_off_real (z : C) (c : R) : (0 < snd z)%R -> (0 <= c)%R -> z * z - RtoC c <> 0.
Proof.
  intros Hz Hc E. apply (f_equal fst) in E as E1. apply (f_equal snd) in E as E2. cbn in E1, E2. assert (fst z = 0%R) by nra. rewrite H in E1. nra.
Qed.
Lemma W_real k : exists c, (0 <= c)%R /\ 3 + W k = RtoC c.
Proof.
  destruct k as [k1 k2]. assert (E := eps_tri (k1, k2)). replace (4 * (9 / 4) / 9 / 2)%R with (1 / 2)%R in E by field. rewrite tri_band in E.
  exists (3 + 2 * (cos k1 + cos k2 + cos (k1 - k2)))%R. split.
  - rewrite cos_minus. assert (S1 := sin2_cos2 k1). assert (S2 := sin2_cos2 k2). unfold Rsqr in *.
    replace (3 + 2 * (cos k1 + cos k2 + (cos k1 * cos k2 + sin k1 * sin k2)))%R with ((1 + cos k1 + cos k2) * (1 + cos k1 + cos k2) + (sin k1 + sin k2) * (sin k1 + sin k2))%R by nra. apply Rplus_le_le_0_compat; apply Rle_0_sqr.
  - replace (W (k1, k2)) with (W (k1, k2) / (1 + 1) * (1 + 1)) by (field; exact C11_neq0). rewrite <- E. apply C_ext; cbn; field.
Qed.
Lemma hq_off (z : C) (t : R) k : (0 < snd z)%R -> z * z - RtoC t * RtoC t * (3 + W k) <> 0.
Proof. intros Hz. destruct (W_real k) as (c & Hc & ->). rewrite <- !RtoC_mult. apply sq_off_real; [exact Hz|]. apply Rmult_le_pos; [nra|exact Hc]. Qed.
Lemma lq_off (z : C) (t : R) k : (0 < snd z)%R -> z * z - RtoC t * RtoC t * (4 + bloch square (4 / 4) k 0 0) <> 0.
Proof.
  intros Hz. destruct k as [k1 k2]. rewrite square_band. rewrite <- !RtoC_mult, <- RtoC_plus, <- RtoC_mult. apply sq_off_real; [exact Hz|]. assert (A := COS_bound k1). assert (B := COS_bound k2). apply Rmult_le_pos; [nra|]. unfold p1. lra.
Qed.

(** ** existence of the averages *)
Lemma hq_avg (z : C) (D : R) : (0 < D)%R -> (forall k, z * z - RtoC (D / 3) * RtoC (D / 3) * (3 + W k) <> 0) -> exists l, is_bz_average (fun k => z / (z * z - RtoC (D / 3) * RtoC (D / 3) * (3 + W k))) l.
Proof.
  intros HD Hz. assert (T : RtoC (D / 3) <> 0) by (apply RtoC_neq0; lra). assert (T2 := C11_neq0).
  assert (Hx : forall k, xarg D z - bloch triangular (1 / 2) k 0 0 <> 0).
  { intros k E. replace (1 / 2)%R with (4 * (9 / 4) / 9 / 2)%R in E by field. rewrite (xarg_eq D z HD) in E. apply (Hz k).
    match type of E with ?a / ?b = _ => replace a with (a / b * b) by (field; split; [exact T|exact T2]) end. rewrite E. ring. }
  assert (O := tri_band_off 1 _ ltac:(lra) Hx). assert (A := tri_avg (xarg D z / RtoC 1) (xarg D z) 1 ltac:(lra) ltac:(rewrite div1; ring) O).
  eexists. apply (is_bz_ext (fun k => 0 + z / ((1 + 1) * (RtoC (D / 3) * RtoC (D / 3))) * (1 / (xarg D z - bloch triangular (1 / 2) k 0 0)))); [|apply bz_affine, A].
  intros k. replace (1 / 2)%R with (4 * (9 / 4) / 9 / 2)%R by field. rewrite (xarg_eq D z HD). field. repeat split; first [exact T|exact T2|exact (Hz k)].
Qed.
Lemma lq_avg (z : C) (t : R) : (0 < t)%R -> (forall k, z * z - RtoC t * RtoC t * (4 + bloch square (4 / 4) k 0 0) <> 0) -> exists l, is_bz_average (fun k => z / (z * z - RtoC t * RtoC t * (4 + bloch square (4 / 4) k 0 0))) l.
Proof.
  intros Ht Hz. assert (T : RtoC t <> 0) by (apply RtoC_neq0; lra). set (x := z / RtoC t * (z / RtoC t) - 4).
  assert (Ex : forall k, x - bloch square (4 / 4) k 0 0 = (z * z - RtoC t * RtoC t * (4 + bloch square (4 / 4) k 0 0)) / (RtoC t * RtoC t)) by (intros k; unfold x; field; exact T).
  assert (Hx : forall k, x - bloch square (4 / 4) k 0 0 <> 0).
  { intros k E. rewrite Ex in E. apply (Hz k). match type of E with ?a / ?b = _ => replace a with (a / b * b) by (field; exact T) end. rewrite E. ring. }
  destruct (square_average 4 ltac:(lra) ellipk_above ellipk_above_K x (band_off 4 ltac:(lra) x Hx)) as (G & _ & A).
  eexists. apply (is_bz_ext (fun k => 0 + z / (RtoC t * RtoC t) * (1 / (x - bloch square (4 / 4) k 0 0)))); [|apply bz_affine, A].
  intros k. rewrite Ex. field. split; first [exact T|exact (Hz k)].
Qed.

(** ** the Green's functions average the resolvents *)
Lemma lat_mean N nbrs t (z : C) (G : R * R -> nat -> nat -> C) g l : (forall k, is_resolvent N (bloch nbrs t k) z (G k)) -> is_bz_average (fun k => site_average N (G k)) l ->
  Ok g = Ok (bz_mean (fun k => site_average N (G k))) -> is_lattice_gf N nbrs t z g.
Proof. intros R A [= E]. rewrite (average_mean _ _ A) in E. rewrite E. exists G. split; assumption. Qed.
Section Lat.
Variable ellipk : C -> result C.
Hypothesis HK : computes_K ellipk.
Hypothesis HA : cut_from_above ellipk.
Lemma honeycomb_lat_off (D : R) (z g : C) : (0 < D)%R -> (forall k, z * z - RtoC (D / 3) * RtoC (D / 3) * (3 + W k) <> 0) -> honeycomb_gf_z (triangular_gf_z ellipk) z D = Ok g -> is_lattice_gf 2 honeycomb (2 * D / 3 / 2) z g.
Proof.
  intros HD Hz E. assert (Et : (2 * D / 3 / 2 = D / 3)%R) by field.
  assert (P : forall k, bloch honeycomb (D / 3) k 0 1 * bloch honeycomb (D / 3) k 1 0 = RtoC (D / 3) * RtoC (D / 3) * (3 + W k)).
  { intros k. rewrite hc01, hc10, C3_eq. unfold W. field. split; apply cexp_neq_0. }
  assert (Rs : forall k, is_resolvent 2 (bloch honeycomb (2 * D / 3 / 2) k) z (inv2 (bloch honeycomb (D / 3) k) z)).
  { intros k. rewrite Et. apply inv2_ok; [apply hc00|apply hc11|]. rewrite P. apply Hz. }
  destruct (hq_avg z D HD Hz) as (l & A).
  apply (lat_mean _ _ _ _ _ g l Rs).
  - apply is_bz_ext with (2 := A). intros k. destruct (res2 _ _ _ (Rs k)) as [_ S]; [apply hc00|apply hc11|]. rewrite S, Et, P. reflexivity.
  - rewrite <- E. exact (honeycomb_avg ellipk HK D z _ HD (fun _ x => above_val ellipk x HA) Rs).
Qed.
Lemma honeycomb_lat (D : R) (z g : C) : (0 < D)%R -> (0 < snd z)%R -> honeycomb_gf_z (triangular_gf_z ellipk) z D = Ok g -> is_lattice_gf 2 honeycomb (2 * D / 3 / 2) z g.
Proof. intros HD Hz. apply honeycomb_lat_off; [exact HD|]. intros k. apply hq_off, Hz. Qed.
Lemma kagome_lat_off (D : R) (z g : C) : (0 < D)%R -> z + 2 * RtoC (D / 3) <> 0 -> (forall k, (z - RtoC (D / 3)) * (z - RtoC (D / 3)) - RtoC (D / 3) * RtoC (D / 3) * (3 + W k) <> 0) -> kagome_gf_z (triangular_gf_z ellipk) z D = Ok g -> is_lattice_gf 3 kagome (2 * D / 3 / 2) z g.
Proof.
  intros HD N1 N2 E. assert (Et : (2 * D / 3 / 2 = D / 3)%R) by field. set (t := (D / 3)%R) in *.
  assert (ED : forall k, det3 (z - bloch kagome t k 0 0) (0 - bloch kagome t k 0 1) (0 - bloch kagome t k 0 2) (0 - bloch kagome t k 1 0) (z - bloch kagome t k 1 1) (0 - bloch kagome t k 1 2) (0 - bloch kagome t k 2 0) (0 - bloch kagome t k 2 1) (z - bloch kagome t k 2 2)
        = (z + 2 * RtoC t) * ((z - RtoC t) * (z - RtoC t) - RtoC t * RtoC t * (3 + W k))).
  { intros k. rewrite kg00, kg01, kg02, kg10, kg11, kg12, kg20, kg21, kg22. unfold det3, W. rewrite C2_eq, C3_eq. field. split; apply cexp_neq_0. }
  assert (Rs : forall k, is_resolvent 3 (bloch kagome (2 * D / 3 / 2) k) z (inv3 (bloch kagome t k) z)).
  { intros k. rewrite Et. apply inv3_ok. rewrite ED. apply Cmult_neq_0; [exact N1|apply N2]. }
  destruct (hq_avg (z - RtoC t) D HD N2) as (l & A). fold t in A.
  apply (lat_mean _ _ _ _ _ g (1 / (3 * (z + 2 * RtoC t)) + 2 / 3 * l) Rs).
  - apply (is_bz_ext (fun k => 1 / (3 * (z + 2 * RtoC t)) + 2 / 3 * ((z - RtoC t) / ((z - RtoC t) * (z - RtoC t) - RtoC t * RtoC t * (3 + W k))))); [|apply bz_affine, A].
    intros k. destruct (res3 _ _ _ (Rs k)) as [_ S]. cbv zeta in S. rewrite S, Et, ED. clear S. symmetry. specialize (N2 k).
    rewrite kg00, kg01, kg02, kg10, kg11, kg12, kg20, kg21, kg22. set (u := cexp (Ci * fst k)) in *. set (v := cexp (Ci * snd k)) in *.
    assert (U : u <> 0) by apply cexp_neq_0. assert (V : v <> 0) by apply cexp_neq_0.
    rewrite C2_eq, C3_eq in *.
    replace (((z - 0) * (z - 0) - (0 - RtoC t * (1 + u / v)) * (0 - RtoC t * (1 + v / u)) + ((z - 0) * (z - 0) - (0 - RtoC t * (1 + / v)) * (0 - RtoC t * (1 + v))) + ((z - 0) * (z - 0) - (0 - RtoC t * (1 + / u)) * (0 - RtoC t * (1 + u)))))
        with (((z - RtoC t) * (z - RtoC t) - RtoC t * RtoC t * (1 + 1 + 1 + W k)) + (1 + 1) * (z - RtoC t) * (z + (1 + 1) * RtoC t))
        by (unfold W; fold u v; field; split; assumption).
    apply kag_alg; assumption.
  - rewrite <- E. exact (kagome_avg ellipk HK D z _ HD (fun _ x => above_val ellipk x HA) Rs).
Qed.
Lemma kagome_lat (D : R) (z g : C) : (0 < D)%R -> (0 < snd z)%R -> kagome_gf_z (triangular_gf_z ellipk) z D = Ok g -> is_lattice_gf 3 kagome (2 * D / 3 / 2) z g.
Proof. intros HD Hz. apply kagome_lat_off; [exact HD|apply upper_neq0; cbn; lra|]. intros k. apply hq_off. cbn. lra. Qed.
Lemma lieb_lat_off (D : R) (z g : C) : (0 < D)%R -> z <> 0 -> (forall k, z * z - RtoC (D / sqrt 8) * RtoC (D / sqrt 8) * (4 + bloch square (4 / 4) k 0 0) <> 0) -> lieb_gf_z (square_gf_z ellipk) z D = Ok g -> is_lattice_gf 3 lieb (D / sqrt 8) z g.
Proof.
  intros HD N1 N2 E. assert (H8 : (0 < sqrt 8)%R) by (apply sqrt_lt_R0; lra). set (t := (D / sqrt 8)%R) in *. assert (Ht : (0 < t)%R) by (apply Rdiv_lt_0_compat; assumption).
  assert (ED : forall k, det3 (z - bloch lieb t k 0 0) (0 - bloch lieb t k 0 1) (0 - bloch lieb t k 0 2) (0 - bloch lieb t k 1 0) (z - bloch lieb t k 1 1) (0 - bloch lieb t k 1 2) (0 - bloch lieb t k 2 0) (0 - bloch lieb t k 2 1) (z - bloch lieb t k 2 2)
        = z * (z * z - RtoC t * RtoC t * (4 + bloch square (4 / 4) k 0 0))).
  { intros k. rewrite square_bloch. rewrite lb00, lb01, lb02, lb10, lb11, lb12, lb20, lb21, lb22. replace (RtoC (4 / 4)) with (RtoC 1) by (f_equal; field). unfold det3. rewrite C4_eq. field. split; apply cexp_neq_0. }
  assert (Rs : forall k, is_resolvent 3 (bloch lieb t k) z (inv3 (bloch lieb t k) z)).
  { intros k. apply inv3_ok. rewrite ED. apply Cmult_neq_0; [exact N1|apply N2]. }
  destruct (lq_avg z t Ht N2) as (l & A).
  apply (lat_mean _ _ _ _ _ g (1 / 3 / z + 2 / 3 * l) Rs).
  - apply (is_bz_ext (fun k => 1 / 3 / z + 2 / 3 * (z / (z * z - RtoC t * RtoC t * (4 + bloch square (4 / 4) k 0 0))))); [|apply bz_affine, A].
    intros k. destruct (res3 _ _ _ (Rs k)) as [_ S]. cbv zeta in S. rewrite S, ED. clear S. symmetry. specialize (N2 k). revert N2. rewrite square_bloch. intros N2.
    rewrite lb00, lb01, lb02, lb10, lb11, lb12, lb20, lb21, lb22. set (u := cexp (Ci * fst k)) in *. set (v := cexp (Ci * snd k)) in *.
    assert (U : u <> 0) by apply cexp_neq_0. assert (V : v <> 0) by apply cexp_neq_0.
    replace (RtoC (4 / 4)) with (RtoC 1) in * by (f_equal; field). rewrite ?C2_eq, ?C3_eq, C4_eq in *.
    replace ((z - 0) * (z - 0) - (0 - 0) * (0 - 0) + ((z - 0) * (z - 0) - (0 - RtoC t * (1 + / v)) * (0 - RtoC t * (1 + v))) + ((z - 0) * (z - 0) - (0 - RtoC t * (1 + / u)) * (0 - RtoC t * (1 + u))))
        with ((z * z - RtoC t * RtoC t * ((1 + 1) * (1 + 1) + 1 * (u + / u + v + / v))) + (1 + 1) * z * z) by (field; split; assumption).
    apply lieb_alg; assumption.
  - rewrite <- E. exact (lieb_bloch bz_mean (square_gf_z ellipk) (square_averages 4 ltac:(lra)) (square_local 4 ltac:(lra) ellipk HK) D z HD _ Rs).
Qed.
Lemma lieb_lat (D : R) (z g : C) : (0 < D)%R -> (0 < snd z)%R -> lieb_gf_z (square_gf_z ellipk) z D = Ok g -> is_lattice_gf 3 lieb (D / sqrt 8) z g.
Proof. intros HD Hz. apply lieb_lat_off; [exact HD|apply upper_neq0; exact Hz|]. intros k. apply lq_off, Hz. Qed.
Lemma square_reflects D : (0 < D)%R -> reflects (square_gf_z ellipk) D.
Proof.
  intros HD w G Hw E. rewrite (square_conj ellipk) with (3 := Rgt_not_eq _ _ Hw); [rewrite E; reflexivity| |lra].
  intros m Hm. rewrite (ellipk_ok ellipk HK m Hm). rewrite (ellipk_ok ellipk HK (Cconj m)) by (destruct Hm; [left|right]; cbn; lra). unfold sconj. cbn [bind]. f_equal. apply Kf_conj, Hm.
Qed.
End Lat.

(** the argument of the triangular lattice avoids its band edges and its van Hove singularity *)
Lemma hc_arg (D e : R) : (0 < D)%R -> e <> 0%R -> Rabs e <> (D / 3)%R -> Rabs e <> D ->
  let x0 := (2 * ((e / (D / (3 / 2))) * (e / (D / (3 / 2)))) - 3 / 2)%R in x0 <> (- (3 / 2))%R /\ x0 <> (- (1))%R /\ x0 <> 3%R.
Proof.
  intros HD N0 N1 N2 x0. assert (DD : (0 < D * D)%R) by nra. assert (Ex : (x0 * (D * D) = 9 / 2 * (e * e) - 3 / 2 * (D * D))%R) by (unfold x0; field; lra).
  assert (Ea : (e * e = Rabs e * Rabs e)%R) by (unfold Rabs; destruct (Rcase_abs e); ring). assert (A := Rabs_pos e).
  repeat split; intros X; rewrite X in Ex; [apply N0|apply N1|apply N2]; nra.
Qed.
