(** * C81, continued: the lattices with several sites per cell and the rectangular lattice *)
From Coq Require Import List Arith Lia Bool Reals Lra.
From Coquelicot Require Import Coquelicot.
From Verif Require Import Base FSum CBase CExp Fourier_Filon Lattice_Model LatMom_Spec LatDer_Spec LatDer_Model LatDer_Proofs LatEll_Model LatInt_Spec LatInt_Proofs LatInt_Local LatInt_Square LatBz_Spec LatTri_Main LatRect_Main LatCut_Spec LatCut_Proofs
  LatSpf_Spec LatSpf_Der LatSpf_Props LatBz_Props LatHil_Spec LatHil_Poisson LatHil_Mean LatHil_Band LatHil_Avg LatHil_Lat LatHil_Inst LatHil_Multi LatHil_Cor LatHil_Props CpaCausal_Spec Cpa_Model CpaCausal_Proofs CpaCausal_Props CpaMulti_Proofs.
Import ListNotations.
Local Open Scope R_scope.

(** every lattice with a Hermitian, bounded Bloch matrix: its local Green's function has a retarded hybridisation function *)
Theorem C81_hermitian_lattice : forall N nbrs t h (ht : C -> result C), (0 < N)%nat ->
  (forall k i j, (i < N)%nat -> (j < N)%nat -> bloch nbrs t k j i = Cconj (bloch nbrs t k i j)) -> (forall k i j, (i < N)%nat -> (j < N)%nat -> Cmod (bloch nbrs t k i j) <= h) ->
  (forall x, 0 < snd x -> exists g, ht x = Ok g /\ is_lattice_gf N nbrs t x g) -> retarded_ht ht.
Proof.
  intros N nbrs t h ht HN HH Hh H x Hx. destruct (H x Hx) as (g & E & G & R & A). exists g. split; [exact E|].
  destruct (multi_average N x g (bloch nbrs t) G h HN Hx HH Hh R A) as (B1 & B2 & _). auto.
Qed.
Print Assumptions C81_hermitian_lattice.

Lemma unit_conj (x : R) : Cconj (cexp (Ci * RtoC x)%C) = (/ cexp (Ci * RtoC x))%C.
Proof. rewrite Cconj_cexp, <- cexp_opp. f_equal. apply injective_projections; cbn; ring. Qed.
Lemma unit_mod (x : R) : Cmod (cexp (Ci * RtoC x)%C) = 1.
Proof. rewrite Cmod_cexp. cbn. replace (0 * x - 1 * 0) with 0 by ring. exact exp_0. Qed.
Lemma inv_conj (u : C) : u <> RtoC 0 -> Cconj (/ u)%C = (/ Cconj u)%C.
Proof. intros N. assert (P := n2_pos u N). unfold n2 in P. apply injective_projections; cbn; field; nra. Qed.
Ltac u01 k := assert (NU := cexp_neq_0 (Ci * RtoC (fst k))%C); assert (NV := cexp_neq_0 (Ci * RtoC (snd k))%C);
  assert (CU := unit_conj (fst k)); assert (CV := unit_conj (snd k)); assert (MU := unit_mod (fst k)); assert (MV := unit_mod (snd k));
  set (u := cexp (Ci * RtoC (fst k))%C) in *; set (v := cexp (Ci * RtoC (snd k))%C) in *.
Lemma conj_mul a b : Cconj (a * b)%C = (Cconj a * Cconj b)%C. Proof. apply injective_projections; cbn; ring. Qed.
Lemma conj_add a b : Cconj (a + b)%C = (Cconj a + Cconj b)%C. Proof. apply injective_projections; cbn; ring. Qed.
Lemma conj_re a : Cconj (RtoC a) = RtoC a. Proof. apply injective_projections; cbn; ring. Qed.
Lemma mod_inv1 (u : C) : u <> RtoC 0 -> Cmod u = 1 -> Cmod (/ u)%C = 1.
Proof. intros N M. rewrite Cmod_inv by exact N. rewrite M. apply Rinv_1. Qed.
Lemma mod2 t (a b : C) : Cmod a <= 1 -> Cmod b <= 1 -> Cmod (RtoC t * (1 + a + b))%C <= Rabs t * 3.
Proof.
  intros A B. rewrite Cmod_mult, Cmod_R. apply Rmult_le_compat_l; [apply Rabs_pos|]. assert (X := Cmod_triangle (1 + a)%C b). assert (Y := Cmod_triangle (RtoC 1) a). rewrite Cmod_1 in Y. lra.
Qed.
Lemma mod1 t (a : C) : Cmod a <= 1 -> Cmod (RtoC t * (1 + a))%C <= Rabs t * 3.
Proof.
  intros A. rewrite Cmod_mult, Cmod_R. apply Rmult_le_compat_l; [apply Rabs_pos|]. assert (Y := Cmod_triangle (RtoC 1) a). rewrite Cmod_1 in Y. lra.
Qed.
Lemma mod00 t : Cmod (RtoC 0) <= Rabs t * 3.
Proof. rewrite Cmod_0. assert (X := Rabs_pos t). lra. Qed.
Lemma inv_inv (u : C) : u <> RtoC 0 -> (/ / u)%C = u.
Proof. intros N. field. repeat split; first [exact N|intros E; apply (f_equal fst) in E; cbn in E; lra]. Qed.
Ltac herm := rewrite ?conj_mul, ?conj_add, ?conj_re; unfold Cdiv; rewrite ?conj_mul, ?inv_conj by assumption; repeat match goal with H : Cconj _ = _ |- _ => rewrite H end; rewrite ?inv_inv by assumption; try reflexivity; try (field; repeat split; assumption).
Ltac bnd := first [apply mod00|apply mod2|apply mod1]; unfold Cdiv; rewrite ?Cmod_mult, ?mod_inv1 by assumption; repeat match goal with H : Cmod _ = 1 |- _ => rewrite H end; lra.
Lemma honeycomb_herm t k i j : (i < 2)%nat -> (j < 2)%nat -> bloch honeycomb t k j i = Cconj (bloch honeycomb t k i j) /\ Cmod (bloch honeycomb t k i j) <= Rabs t * 3.
Proof.
  intros Hi Hj. assert (i = 0 \/ i = 1)%nat as [-> | ->] by lia; assert (j = 0 \/ j = 1)%nat as [-> | ->] by lia; rewrite ?hc00, ?hc01, ?hc10, ?hc11; u01 k; (split; [herm|bnd]).
Qed.
Lemma kagome_herm t k i j : (i < 3)%nat -> (j < 3)%nat -> bloch kagome t k j i = Cconj (bloch kagome t k i j) /\ Cmod (bloch kagome t k i j) <= Rabs t * 3.
Proof.
  intros Hi Hj. assert (i = 0 \/ i = 1 \/ i = 2)%nat as [-> |[-> | ->]] by lia; assert (j = 0 \/ j = 1 \/ j = 2)%nat as [-> |[-> | ->]] by lia; rewrite ?kg00, ?kg01, ?kg10, ?kg11, ?kg02, ?kg20, ?kg12, ?kg21, ?kg22; u01 k; (split; [herm|bnd]).
Qed.
Lemma lieb_herm t k i j : (i < 3)%nat -> (j < 3)%nat -> bloch lieb t k j i = Cconj (bloch lieb t k i j) /\ Cmod (bloch lieb t k i j) <= Rabs t * 3.
Proof.
  intros Hi Hj. assert (i = 0 \/ i = 1 \/ i = 2)%nat as [-> |[-> | ->]] by lia; assert (j = 0 \/ j = 1 \/ j = 2)%nat as [-> |[-> | ->]] by lia; rewrite ?lb00, ?lb01, ?lb10, ?lb11, ?lb02, ?lb20, ?lb12, ?lb21, ?lb22; u01 k; (split; [herm|bnd]).
Qed.

Theorem C81_honeycomb : forall (ellipk : C -> result C) (D : R), computes_K ellipk -> cut_from_above ellipk -> 0 < D -> retarded_ht (fun x => honeycomb_gf_z (triangular_gf_z ellipk) x D).
Proof.
  intros ek D HK HA HD. apply (C81_hermitian_lattice 2 honeycomb (2 * D / 3 / 2) (Rabs (2 * D / 3 / 2) * 3)); [lia|intros k i j Hi Hj; now apply honeycomb_herm|intros k i j Hi Hj; now apply honeycomb_herm|].
  intros z Hx. assert (Hz := out_abs D z (or_introl (Rgt_not_eq _ _ Hx))).
  destruct (res2_ex honeycomb (2 * D / 3 / 2) _ z (fun k => hc00 k _) (fun k => hc11 k _) (hc_spectrum D) (fun k => hc_out_es D z k HD Hz)) as (G0 & Rs).
  assert (E := C70_honeycomb_above ek D z G0 HK HA HD Rs). eexists. split; [exact E|]. exact (honeycomb_lat ek HK HA D z _ HD Hx E).
Qed.
Print Assumptions C81_honeycomb.
Theorem C81_kagome : forall (ellipk : C -> result C) (D : R), computes_K ellipk -> cut_from_above ellipk -> 0 < D -> retarded_ht (fun x => kagome_gf_z (triangular_gf_z ellipk) x D).
Proof.
  intros ek D HK HA HD. apply (C81_hermitian_lattice 3 kagome (2 * D / 3 / 2) (Rabs (2 * D / 3 / 2) * 3)); [lia|intros k i j Hi Hj; now apply kagome_herm|intros k i j Hi Hj; now apply kagome_herm|].
  intros z Hx. assert (Hz : snd z <> 0%R \/ (fst z < - (2 / 3) * D)%R \/ (4 / 3 * D < fst z)%R) by (left; exact (Rgt_not_eq _ _ Hx)). assert (Hy := kg_shift D z Hz).
  destruct (res3_ex kagome (2 * D / 3 / 2) _ z (kg_spectrum D)) as (G0 & Rs).
  { assert (Nf : z <> RtoC (- (2 / 3) * D)) by (intros E; rewrite E in Hx; cbn in Hx; lra).
    intros k e [<-|[<-|[<-|[]]]]; [| |exact Nf]; intros E; [apply (hc_out_es D _ k HD Hy (0 + sqrt (hE D (k2 k)))%R)|apply (hc_out_es D _ k HD Hy (0 - sqrt (hE D (k2 k)))%R)]; try (cbn; tauto); rewrite E; apply C_ext; cbn; ring. }
  assert (E := C70_kagome_above ek D z G0 HK HA HD Rs). eexists. split; [exact E|]. exact (kagome_lat ek HK HA D z _ HD Hx E).
Qed.
Print Assumptions C81_kagome.
Theorem C81_lieb : forall (ellipk : C -> result C) (D : R), computes_K ellipk -> 0 < D -> retarded_ht (fun x => lieb_gf_z (square_gf_z ellipk) x D).
Proof.
  intros ek D HK HD. apply (C81_hermitian_lattice 3 lieb (D / sqrt 8) (Rabs (D / sqrt 8) * 3)); [lia|intros k i j Hi Hj; now apply lieb_herm|intros k i j Hi Hj; now apply lieb_herm|].
  intros z Hx. assert (Hz := out_abs D z (or_introl (Rgt_not_eq _ _ Hx))).
  destruct (res3_ex lieb (D / sqrt 8) _ z (lb_spectrum D HD) (fun k => lb_out_es D z k HD Hz)) as (G0 & Rs).
  assert (E := lieb_bloch bz_mean (square_gf_z ek) (square_averages 4 ltac:(lra)) (square_local 4 ltac:(lra) ek HK) D z HD _ Rs). eexists. split; [exact E|]. exact (lieb_lat ek HK D z _ HD Hx E).
Qed.
Print Assumptions C81_lieb.
Theorem C81_rectangular : forall (ellipk : C -> result C) (D scale : R), computes_K ellipk -> 0 < D -> 0 <= scale -> retarded_ht (fun x => rectangular_gf_z ellipk x D scale).
Proof.
  intros ek D s HK HD Hs x Hx. destruct (C70_rectangular ek D s x HK HD Hs (or_introl (Rgt_not_eq _ _ Hx))) as (G & E & I). exists G. split; [exact E|].
  destruct (plane_average x G (rectangular_band (D / (1 + s) / 2) s) (D * (1 + s)) Hx) as (A & B & _); [|exact I|auto]. intros (k1, k2). rewrite rect_band. cbn [fst snd RtoC]. split; [reflexivity|].
  replace (2 * (D / (1 + s) / 2)) with (D / (1 + s)) by (field; lra). set (q := D / (1 + s)). assert (Q : 0 < q) by (apply Rdiv_lt_0_compat; lra). assert (E2 : q * (1 + s) = D) by (unfold q; field; lra).
  assert (X1 := COS_bound k1). assert (X2 := COS_bound k2). assert (Y1 : 0 <= s * (1 - cos k2)) by (apply Rmult_le_pos; lra). assert (Y2 : 0 <= s * (1 + cos k2)) by (apply Rmult_le_pos; lra).
  assert (L : Rabs (q * (cos k1 + s * cos k2)) <= q * (1 + s)) by (rewrite Rabs_mult, (Rabs_right q) by lra; apply Rmult_le_compat_l; [lra|]; apply Rabs_le; split; lra). rewrite E2 in L. apply Rle_trans with (1 := L). assert (0 <= D * s) by (apply Rmult_le_pos; lra). lra.
Qed.
Print Assumptions C81_rectangular.
(** an elliptic integral with the required properties exists: ten steps of the CPA on the kagome lattice from a vanishing self-energy *)
Example C81_multi_example : exists ellipk, computes_K ellipk /\ cut_from_above ellipk /\ exists s : C, iterate (fun s => self_fxdpnt_eq (K := CF) (fun x => kagome_gf_z (triangular_gf_z ellipk) x 1) s (1 / 2, 1 / 100) [(-1, 0); (1, 0)] (map RtoC [1 / 3; 2 / 3])) 10 (RtoC 0) = Ok s /\ snd s <= 0.
Proof.
  destruct C70_fcc_above_example as (ek & z & HK & HA & _). exists ek. split; [exact HK|]. split; [exact HA|].
  apply (C81_iteration_physical (fun x => kagome_gf_z (triangular_gf_z ek) x 1) (1 / 2, 1 / 100)); [exact (C81_kagome ek 1 HK HA ltac:(lra))|cbn; lra|cbn; lra| |reflexivity| |cbn; lra].
  - intros e [<-|[<-|[]]]; cbn; lra.
  - intros p [<-|[<-|[]]]; lra.
Qed.
