(** * Moments of the densities of states and closed walks *)
From Coq Require Import Reals Lra Lia List ZArith Bool FunctionalExtensionality.
From Coquelicot Require Import Coquelicot.
From Verif Require Import Base FSum CBase CExp Fourier_Filon LatMom_Spec LatDer_Spec LatInt_Spec LatInt_Proofs LatInt_Local LatBz_Spec LatHil_Spec LatHil_Avg LatHil_Cor LatMm_Spec LatMm_Trace LatMm_Walk.
Import ListNotations.
Local Open Scope C_scope.

Definition cellN (N : nat) : list site := map origin (seq 0 N).
Definition invariant (nbrs : site -> list site) : Prop := forall a b c s, nbrs (a, b, c, s) = map (shift a b c) (nbrs (origin s)).
Definition closed (N : nat) (gd : Z -> Prop) (nbrs : site -> list site) : Prop := forall s a b c s', (s < N)%nat -> In (a, b, c, s') (nbrs (origin s)) -> (s' < N)%nat /\ (forall d, gd d -> gd (d + c)%Z).
Lemma phase_shift k a b c s n : phase k (shift a b c n) = phase k (a, b, c, s) * phase k n.
Proof. destruct n as [[[a' b'] c'] s']. unfold shift, phase. rewrite <- cexp_add, <- Cmult_plus_distr_l, <- RtoC_plus. do 3 f_equal. rewrite !plus_IZR. ring. Qed.
Lemma phase3_shift k a b c s n : phase3 k (shift a b c n) = phase3 k (a, b, c, s) * phase3 k n.
Proof. destruct n as [[[a' b'] c'] s'], k as [[k1 k2] k3]. unfold shift, phase3. rewrite <- cexp_add, <- Cmult_plus_distr_l, <- RtoC_plus. do 3 f_equal. rewrite !plus_IZR. ring. Qed.
Lemma phase_0 k s : phase k (0, 0, 0, s)%Z = 1.
Proof. unfold phase. replace (Ci * RtoC (0 * fst k + 0 * snd k)) with (RtoC 0) by (apply C_ext; cbn; ring). apply cexp_0. Qed.
Lemma phase3_0 k s : phase3 k (0, 0, 0, s)%Z = 1.
Proof. destruct k as [[k1 k2] k3]. unfold phase3. replace (Ci * RtoC (0 * k1 + 0 * k2 + 0 * k3)) with (RtoC 0) by (apply C_ext; cbn; ring). apply cexp_0. Qed.
(** the average of the trace of the m-th power of the Bloch Hamiltonian *)
Lemma bz_trace N nbrs t m : invariant nbrs -> closed N (fun c => c = 0%Z) nbrs -> is_bz_average (fun k => trace N (mpow N (bloch nbrs t k) m)) (RtoC (t ^ m * IZR (closed_walks nbrs (cellN N) m))).
Proof.
  intros TI Cl. apply (trace_avg (R * R) is_bz_average phase (fun c => c = 0%Z) N nbrs t (bz2_const 0) bz_plus bz_scal phase_shift).
  - intros a b c s s' Hc. apply phase_avg; exact Hc.
  - exact TI.
  - exact Cl.
  - exact phase_0.
  - reflexivity.
Qed.
Definition bloch3 (nbrs : site -> list site) (t : R) (k : R * R * R) (i j : nat) : C := RtoC t * fold_right Cplus 0 (map (fun n => if Nat.eqb (snd n) j then phase3 k n else 0) (nbrs (origin i))).
Lemma bz3_trace N nbrs t m : invariant nbrs -> closed N (fun _ => True) nbrs -> is_bz_average3 (fun k => trace N (mpow N (bloch3 nbrs t k) m)) (RtoC (t ^ m * IZR (closed_walks nbrs (cellN N) m))).
Proof.
  intros TI Cl. apply (trace_avg (R * R * R) is_bz_average3 phase3 (fun _ => True) N nbrs t (bz3_const 0) bz3_plus bz3_scal phase3_shift).
  - intros a b c s s' _. apply phase3_avg.
  - exact TI.
  - exact Cl.
  - exact phase3_0.
  - exact Logic.I.
Qed.
Lemma trace1 (H : nat -> nat -> C) m : snd (H 0%nat 0%nat) = 0%R -> trace 1 (mpow 1 H m) = RtoC (fst (H 0%nat 0%nat) ^ m).
Proof.
  intros E. assert (A : forall m, mpow 1 H m 0 0 = RtoC (fst (H 0%nat 0%nat) ^ m)).
  - induction m0 as [|n IH]; [reflexivity|]. cbn [mpow]. change (nsum (K := CF) 1 (fun l => H 0%nat l * mpow 1 H n l 0%nat)) with (RtoC 0 + H 0%nat 0%nat * mpow 1 H n 0 0)%C. rewrite IH. apply C_ext; cbn [fst snd Cplus Cmult RtoC pow]; rewrite ?E; ring.
  - unfold trace. change (nsum (K := CF) 1 (fun i => mpow 1 H m i i)) with (RtoC 0 + mpow 1 H m 0 0)%C. rewrite A. ring.
Qed.
Lemma dmo1 nbrs t m : RtoC (t ^ m * IZR (closed_walks nbrs (cellN 1) m)) = RtoC (dos_moment_of nbrs [origin 0] t m).
Proof. unfold dos_moment_of. cbn [cellN seq map length INR]. f_equal. field. Qed.
Lemma pow_cont (m : nat) x : ccont (fun e => RtoC (e ^ m)) x.
Proof. apply ccont_R. induction m as [|m IH]; [apply continuous_const|]. apply (continuous_mult (fun e : R => e) (fun e => e ^ m)%R); [apply continuous_id|exact IH]. Qed.
(** one site in the cell *)
Lemma single_moment nbrs t d p ps m : invariant nbrs -> closed 1 (fun c => c = 0%Z) nbrs -> (forall k, snd (bloch nbrs t k 0 0) = 0%R) -> distribution is_bz_average (fun k => bloch nbrs t k 0 0) d p ps ->
  is_band_integral (fun e => RtoC (d e) * RtoC (e ^ m)) p ps (RtoC (dos_moment_of nbrs [origin 0] t m)).
Proof.
  intros TI Cl Rb HD. apply (dist_val _ _ _ d p ps bz_uniq HD (fun e => RtoC (e ^ m)) (fun k => RtoC (fst (bloch nbrs t k 0 0) ^ m))); [intros; apply pow_cont|reflexivity|].
  rewrite <- dmo1. assert (A := bz_trace 1 nbrs t m TI Cl). replace (fun k => RtoC (fst (bloch nbrs t k 0 0) ^ m)) with (fun k => trace 1 (mpow 1 (bloch nbrs t k) m)); [exact A|].
  apply functional_extensionality; intros k. exact (trace1 (bloch nbrs t k) m (Rb k)).
Qed.
Lemma single_moment3 nbrs t d p ps m : invariant nbrs -> closed 1 (fun _ => True) nbrs -> (forall k, bloch3 nbrs t k 0 0 = band3 nbrs t k) -> (forall k, snd (band3 nbrs t k) = 0%R) -> distribution is_bz_average3 (band3 nbrs t) d p ps ->
  is_band_integral (fun e => RtoC (d e) * RtoC (e ^ m)) p ps (RtoC (dos_moment_of nbrs [origin 0] t m)).
Proof.
  intros TI Cl Eb Rb HD. apply (dist_val _ _ _ d p ps bz3_uniq HD (fun e => RtoC (e ^ m)) (fun k => RtoC (fst (band3 nbrs t k) ^ m))); [intros; apply pow_cont|reflexivity|].
  rewrite <- dmo1. assert (A := bz3_trace 1 nbrs t m TI Cl). replace (fun k => RtoC (fst (band3 nbrs t k) ^ m)) with (fun k => trace 1 (mpow 1 (bloch3 nbrs t k) m)); [exact A|].
  apply functional_extensionality; intros k. rewrite <- Eb. apply trace1. rewrite Eb. apply Rb.
Qed.
(** several sites: the flat bands are missing in d *)
Lemma multi_moment N nbrs t d p ps fl m : (0 < N)%nat -> invariant nbrs -> closed N (fun c => c = 0%Z) nbrs -> distributions N nbrs t d p ps fl ->
  is_band_integral (fun e => RtoC (d e) * RtoC (e ^ m)) p ps (RtoC (dos_moment_of nbrs (cellN N) t m - fold_right Rplus 0%R (map (fun e => e ^ m)%R fl) / INR N)).
Proof.
  intros Np TI Cl (es & Hs & _ & H). destruct (H (fun e => RtoC (e ^ m))) as (l & A & B); [intros x _; apply pow_cont|].
  assert (I0 : INR N <> 0%R) by (apply not_0_INR; lia). assert (A2 := bz_scal _ (/ RtoC (INR N)) _ (bz_trace N nbrs t m TI Cl)). cbv beta in A2.
  replace (fun k => / RtoC (INR N) * trace N (mpow N (bloch nbrs t k) m)) with (fun k => mean_of (fun e => RtoC (e ^ m)) (es k)) in A2.
  2: { apply functional_extensionality; intros k. unfold mean_of. destruct (Hs k) as [L _]. rewrite L. fold (pE (es k) m). rewrite (spec_trace N (bloch nbrs t k) (es k) Np (Hs k) m). unfold Cdiv. ring. }
  rewrite (bz_uniq _ _ _ A A2) in B. rewrite fold_RtoC in B. match type of B with is_band_integral _ _ _ ?x => match goal with |- is_band_integral _ _ _ ?y => replace y with x; [exact B|] end end.
  unfold dos_moment_of. assert (Ln : length (cellN N) = N) by (unfold cellN; rewrite map_length, seq_length; reflexivity). rewrite Ln. rewrite <- RtoC_inv, <- RtoC_mult, <- RtoC_div, <- RtoC_minus by exact I0. f_equal. field. exact I0.
Qed.

Lemma bravais_inv steps : invariant (bravais steps).
Proof. intros a b c s. unfold bravais, origin. rewrite map_map. apply map_ext. intros [[i j] k]. cbn [shift]. rewrite !Z.add_0_l. reflexivity. Qed.
Lemma honeycomb_inv : invariant honeycomb.
Proof. intros a b c s. unfold honeycomb, origin. destruct s as [|[|s]]; cbn [map shift]; repeat match goal with |- _ :: _ = _ :: _ => apply f_equal2 | |- (_, _) = (_, _) => apply f_equal2 end; try reflexivity; lia. Qed.
Lemma kagome_inv : invariant kagome.
Proof. intros a b c s. unfold kagome, origin. destruct s as [|[|[|s]]]; cbn [map shift]; repeat match goal with |- _ :: _ = _ :: _ => apply f_equal2 | |- (_, _) = (_, _) => apply f_equal2 end; try reflexivity; lia. Qed.
Lemma lieb_inv : invariant lieb.
Proof. intros a b c s. unfold lieb, origin. destruct s as [|[|[|s]]]; cbn [map shift]; repeat match goal with |- _ :: _ = _ :: _ => apply f_equal2 | |- (_, _) = (_, _) => apply f_equal2 end; try reflexivity; lia. Qed.
Ltac cl := intros s a b c s' Hs Hn; (destruct s as [|[|[|s]]]; try lia); cbn in Hn; repeat (destruct Hn as [Hn|Hn]; [injection Hn; intros; subst; split; [lia|intros; lia]|]); contradiction.
Lemma square_cl : closed 1 (fun c => c = 0%Z) square. Proof. cl. Qed.
Lemma triangular_cl : closed 1 (fun c => c = 0%Z) triangular. Proof. cl. Qed.
Lemma honeycomb_cl : closed 2 (fun c => c = 0%Z) honeycomb. Proof. cl. Qed.
Lemma kagome_cl : closed 3 (fun c => c = 0%Z) kagome. Proof. cl. Qed.
Lemma lieb_cl : closed 3 (fun c => c = 0%Z) lieb. Proof. cl. Qed.
Lemma bravais_cl steps : closed 1 (fun _ => True) (bravais steps).
Proof. intros s a b c s' Hs Hn. split; [|auto]. unfold bravais, origin in Hn. apply in_map_iff in Hn. destruct Hn as ([[i j] k] & E & _). injection E; intros; lia. Qed.
Lemma bravais_band3 steps t k : bloch3 (bravais steps) t k 0 0 = band3 (bravais steps) t k.
Proof. unfold bloch3, band3. do 2 f_equal. unfold bravais, origin. rewrite !map_map. apply map_ext. intros [[i j] l]. reflexivity. Qed.
