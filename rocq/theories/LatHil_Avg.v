(** * Brillouin zone averages of functions of the band energy *)
From Coq Require Import Reals Lra Lia List.
From Coquelicot Require Import Coquelicot.
From Verif Require Import Base CBase Fourier_Filon LatInt_Spec LatInt_Proofs LatInt_Local LatBz_Spec LatSpf_Spec LatHil_Spec LatHil_Poisson LatHil_Stieltjes LatHil_Main LatHil_Mean LatHil_Band.
Local Open Scope R_scope.

Definition k2 (k : R * R) : K 2 := ((tt, fst k), snd k).
Definition k3 (k : R * R * R) : K 3 := (((tt, fst (fst k)), snd (fst k)), snd k).
Definition cmean n (g : K n -> C) : C := (mean n (fun k => fst (g k)), mean n (fun k => snd (g k))).
Lemma avg_int f : cont f -> is_RInt f (- PI) PI (2 * PI * avg f).
Proof. intros Cf. unfold avg. assert (E : forall x : R, 2 * PI * (x / (2 * PI)) = x) by (intros; field; exact PI_neq0). rewrite E. apply (RInt_correct (V := R_CompleteNormedModule)), cont_int, Cf. Qed.
Lemma avg_int_scal c f : cont f -> is_RInt (fun s => c * f s) (- PI) PI (2 * PI * c * avg f).
Proof. intros Cf. replace (2 * PI * c * avg f) with (c * (2 * PI * avg f)) by ring. apply (is_RInt_scal (V := R_NormedModule)), avg_int, Cf. Qed.
Lemma bz2 g : uc 2 (fun k => fst (g k)) -> uc 2 (fun k => snd (g k)) -> is_bz_average (fun k => g (k2 k)) (cmean 2 g).
Proof.
  intros U1 U2. exists (fun k1 => (2 * PI * avg (fun s => fst (g ((tt, k1), s))), 2 * PI * avg (fun s => snd (g ((tt, k1), s))))). split.
  - intros k1. split; cbn [fst snd]; apply avg_int; [exact (uc_cont 1 _ (tt, k1) U1)|exact (uc_cont 1 _ (tt, k1) U2)].
  - assert (E : forall f, 4 * (PI * PI) * mean 2 f = 2 * PI * (2 * PI) * avg (fun s => avg (fun s0 => f (tt, s, s0)))) by (intros f; change (mean 2 f) with (avg (fun s => avg (fun s0 => f (tt, s, s0)))); ring).
    split; cbn [fst snd cmean RtoC Cmult]; [rewrite Rmult_0_l, Rminus_0_r|rewrite Rmult_0_l, Rplus_0_r]; rewrite E; apply avg_int_scal;
    [exact (uc_cont 0 _ tt (uc_avg 1 _ U1))|exact (uc_cont 0 _ tt (uc_avg 1 _ U2))].
Qed.
Lemma bz3 g : uc 3 (fun k => fst (g k)) -> uc 3 (fun k => snd (g k)) -> is_bz_average3 (fun k => g (k3 k)) (cmean 3 g).
Proof.
  intros U1 U2. exists (fun k1 k2 => (2 * PI * avg (fun s => fst (g (((tt, k1), k2), s))), 2 * PI * avg (fun s => snd (g (((tt, k1), k2), s))))).
  exists (fun k1 => (2 * PI * (2 * PI) * avg (fun u => avg (fun s => fst (g (((tt, k1), u), s)))), 2 * PI * (2 * PI) * avg (fun u => avg (fun s => snd (g (((tt, k1), u), s)))))). split; [|split].
  - intros a b. split; cbn [fst snd]; apply avg_int; [exact (uc_cont 2 _ (tt, a, b) U1)|exact (uc_cont 2 _ (tt, a, b) U2)].
  - intros a. split; cbn [fst snd]; apply avg_int_scal; [exact (uc_cont 1 _ (tt, a) (uc_avg 2 _ U1))|exact (uc_cont 1 _ (tt, a) (uc_avg 2 _ U2))].
  - assert (E : forall f, 8 * (PI * PI * PI) * mean 3 f = 2 * PI * (2 * PI * (2 * PI)) * avg (fun x => avg (fun s => avg (fun s0 => f (tt, x, s, s0))))) by (intros f; change (mean 3 f) with (avg (fun x => avg (fun s => avg (fun s0 => f (tt, x, s, s0))))); ring).
    split; cbn [fst snd cmean RtoC Cmult]; [rewrite Rmult_0_l, Rminus_0_r|rewrite Rmult_0_l, Rplus_0_r]; rewrite E; apply avg_int_scal;
    [exact (uc_cont 0 _ tt (uc_avg 1 _ (uc_avg 2 _ U1)))|exact (uc_cont 0 _ tt (uc_avg 1 _ (uc_avg 2 _ U2)))].
Qed.
Lemma bz_uniq f l l' : is_bz_average f l -> is_bz_average f l' -> l = l'.
Proof. intros A B. apply average_mean in A. apply average_mean in B. congruence. Qed.
Lemma bz3_uniq f l l' : is_bz_average3 f l -> is_bz_average3 f l' -> l = l'.
Proof.
  intros (i & m & A1 & A2 & A3) (i' & m' & B1 & B2 & B3). assert (E1 : forall a b, i a b = i' a b) by (intros a b; exact (is_CInt_unique _ _ _ _ _ (A1 a b) (B1 a b))).
  assert (E2 : forall a, m a = m' a). { intros a. apply (is_CInt_unique _ _ _ _ _ (A2 a)). apply is_CInt_ext with (2 := B2 a). intros x _. symmetry. apply E1. }
  assert (E3 : (RtoC (8 * (PI * PI * PI)) * l = RtoC (8 * (PI * PI * PI)) * l')%C). { apply (is_CInt_unique _ _ _ _ _ A3). apply is_CInt_ext with (2 := B3). intros x _. symmetry. apply E2. }
  assert (P := PI_RGT_0). assert (P3 : 0 < PI * PI * PI) by (apply Rmult_lt_0_compat; [apply Rmult_lt_0_compat; lra|lra]). assert (N : RtoC (8 * (PI * PI * PI)) <> RtoC 0) by (intros E0; apply (f_equal fst) in E0; cbn in E0; lra).
  replace l with (/ RtoC (8 * (PI * PI * PI)) * (RtoC (8 * (PI * PI * PI)) * l))%C by (field; exact N). rewrite E3. field. exact N.
Qed.

(** the resolvent of a single band *)
Section Res.
Variables (n : nat) (eps : K n -> R) (M : R).
Hypothesis U : uc n eps.
Hypothesis B : forall k, - M <= eps k <= M.
Lemma uc_phi (phi : R -> C) : (forall x, - M <= x <= M -> ccont phi x) -> uc n (fun k => fst (phi (eps k))) /\ uc n (fun k => snd (phi (eps k))).
Proof.
  intros C. split; [apply (uc_comp n (fun x => fst (phi x)) eps (- M) M)|apply (uc_comp n (fun x => snd (phi x)) eps (- M) M)]; try assumption; intros x Hx; apply (C x Hx).
Qed.
Lemma res_ccont (z : C) x : snd z <> 0 -> ccont (fun e => 1 / (z - RtoC e))%C x.
Proof.
  intros Hz. apply (ccont_ext (fun e => (1 * / (z - RtoC e))%C)); [reflexivity|]. apply ccont_mult; [apply ccont_const|]. apply ccont_inv.
  - apply ccont_minus; [apply ccont_const|]. apply ccont_R, continuous_id.
  - intros E. apply Hz. assert (E2 := f_equal snd E). cbn in E2. lra.
Qed.
Lemma res_pk (u v x : R) : 0 < v -> snd (1 / ((u, v) - RtoC x))%C = - PI * pk v (u - x).
Proof.
  intros Hv. replace ((u, v) - RtoC x)%C with (((- (x - u))%R, v) : C) by (apply C_ext; cbn; ring). rewrite res_im by exact Hv. unfold pk. assert (A := pk_den v Hv (u - x)). assert (P := PI_RGT_0). assert (A' := pk_den v Hv (x - u)). 
  replace ((x - u) * (x - u)) with ((u - x) * (u - x)) by ring. field. lra.
Qed.
(** the imaginary part of the averaged resolvent is the smeared density *)
Lemma rho_res (u v : R) : 0 < v -> snd (cmean n (fun k => 1 / ((u, v) - RtoC (eps k)))%C) = - PI * rho (fun f => mean n (fun k => f (eps k))) v u.
Proof.
  intros Hv. cbn [cmean snd]. unfold rho. rewrite <- mean_scal; [apply mean_ext; intros k; apply res_pk, Hv|]. apply (uc_comp n (fun x => pk v (u - x)) eps (- M) M); [exact U|exact B|]. intros x _. apply pk_contx, Hv.
Qed.
Lemma bv_spectral (gf : C -> C -> Prop) (dd : R -> R) e : (forall z G, 0 < snd z -> gf z G -> G = cmean n (fun k => 1 / (z - RtoC (eps k)))%C) -> spectral gf e (dd e) -> bv (fun f => mean n (fun k => f (eps k))) dd e.
Proof.
  intros HG S t Ht. destruct (S t Ht) as (r & Hr & Q). exists (r / 2). split; [lra|]. intros u v Hu Hv. destruct (Q (u, v)) as (G & HgG & E); [cbn; lra| |].
  - eapply Rle_lt_trans; [apply Cmod_2Rmax|]. cbn [fst snd Cminus Cplus Copp RtoC].
    match goal with |- sqrt 2 * Rmax ?x ?y < r => assert (X : Rmax x y < r / 2) by (apply Rmax_lub_lt; [exact Hu|replace (v + - 0) with v by ring; rewrite Rabs_pos_eq; lra]); assert (X0 : 0 <= Rmax x y) by (eapply Rle_trans; [apply Rabs_pos|apply Rmax_l]); set (w := Rmax x y) in * end.
    assert (S2 : sqrt 2 <= 2). { rewrite <- (sqrt_square 2) at 2 by lra. apply sqrt_le_1_alt. lra. } apply Rle_lt_trans with (2 * w); [apply Rmult_le_compat_r; lra|lra].
  - assert (Hs : 0 < snd ((u, v) : C)) by (cbn; lra). rewrite (HG (u, v) G Hs HgG), rho_res in E by lra. replace (- (- PI * rho (fun f => mean n (fun k => f (eps k))) v u) / PI) with (rho (fun f => mean n (fun k => f (eps k))) v u) in E by (field; exact PI_neq0). exact E.
Qed.
End Res.

(** single bands *)
Section Single.
Variables (n : nat) (eps : K n -> R) (p : R) (ps : list R) (dos : R -> result R) (gf : C -> C -> Prop).
Let b := final p ps.
Let M := Rmax (Rabs p) (Rabs b).
Hypothesis U : uc n eps.
Hypothesis B : forall k, p <= eps k <= b.
Hypothesis Inc : incr p ps.
Hypothesis HG : forall z G, 0 < snd z -> gf z G -> G = cmean n (fun k => 1 / (z - RtoC (eps k)))%C.
Hypothesis Sp : forall e, ~ In e (p :: ps) -> exists d, dos e = Ok d /\ spectral gf e d.
Hypothesis Out : forall e, e < p \/ b < e -> dos e = Ok 0.
Hypothesis Na : forall q, In q (p :: ps) -> noatom n (fun k => eps k - q).
Lemma single_band (phi : R -> C) : (forall x, p <= x <= b -> ccont phi x) -> is_band_integral (fun e => RtoC (tot dos e) * phi e)%C p ps (cmean n (fun k => phi (eps k))).
Proof.
  assert (BM : forall k, - M <= eps k <= M). { intros k. specialize (B k). assert (A1 := Rmax_l (Rabs p) (Rabs b)). assert (A2 := Rmax_r (Rabs p) (Rabs b)). fold M in A1, A2. apply Rabs_le_between in A1. apply Rabs_le_between in A2. lra. }
  apply (band_integral (fun f => mean n (fun k => f (eps k))) p ps (tot dos)).
  - exact (mean_meanl n eps M U BM).
  - intros f g E. apply mean_ext. intros k. apply E, B.
  - exact Inc.
  - intros e He. destruct (Sp e He) as (d & Ed & S). apply (bv_spectral n eps M U BM gf); [exact HG|]. unfold tot. rewrite Ed. exact S.
  - intros e He. unfold tot. rewrite (Out e He). reflexivity.
  - intros q Hq t Ht. destruct (Na q Hq t Ht) as (r & Hr & Q). exists r. split; [exact Hr|]. intros d Hd. exact (Q d Hd).
Qed.
End Single.
