(** * C71 continued: the band edge of the rectangular lattice *)
From Coq Require Import Reals Lra Lia List FunctionalExtensionality.
From Coquelicot Require Import Coquelicot.
From Verif Require Import Base CBase Lattice_Model Bethe_Main LatMom_Spec LatDer_Spec LatDer_Model LatDer_Dos LatEll_Model LatEll_Proofs LatEll_Dos LatInt_Spec LatInt_Local LatInt_Legendre CAnal CHol CEll CHolo LatBz_Spec LatBcc_Main LatSc_Main LatTri_Main LatCut_Spec LatCut_Proofs LatRect_Main LatSpf_Spec LatSpf_Proofs LatSpf_Tri LatSpf_Sc LatSpf_Fcc LatSpf_Edge LatSpf_Der LatRdos_Model LatSpf_Rect LatSpf_Props.
Local Open Scope C_scope.

(** at the band edge rectangular.dos returns the spectral function at the relative distance feps inside the band; feps is
    the machine epsilon in the code *)
Theorem C71_rectangular_edge : forall (ellipk : C -> result C) (feps D scale e : R), computes_K ellipk -> cut_from_above ellipk \/ cut_from_below ellipk -> (0 < D)%R -> (0 < scale)%R ->
  (0 < feps < 1)%R -> Rabs e = D -> ((1 + scale) * (1 - feps) <> Rabs (scale - 1))%R ->
  exists d, rectangular_dos ellipk feps e D scale = Ok d /\ spectral (fun z => is_bz_average (fun k => 1 / (z - rectangular_band (D / (1 + scale) / 2) scale k))) ((1 - feps) * D)%R d.
Proof.
  intros ek feps D s e HK HC HD Hs Hf He Hv. assert (A : Rabs ((1 - feps) * D) = ((1 - feps) * D)%R) by (apply Rabs_pos_eq; nra).
  destruct (C71_rectangular ek feps D s ((1 - feps) * D)%R HK HC HD Hs) as (d & E & S); [rewrite A; nra|rewrite A; intros X; apply Hv; apply (Rmult_eq_reg_r D); [|lra]; lra|].
  exists d. split; [|exact S]. rewrite <- E. assert (RD : forall x, rdiv x D = Ok (x / D)%R) by (intros x; unfold rdiv; destruct (Req_EM_T D 0); [lra|reflexivity]).
  unfold rectangular_dos. rewrite (RD e), (RD ((1 - feps) * D)%R). cbn [bind].
  replace ((1 - feps) * D / D)%R with (1 - feps)%R by (field; lra). assert (A1 : Rabs (e / D) = 1%R) by (unfold Rdiv; rewrite Rabs_mult, He, (Rabs_pos_eq (/ D)) by (left; now apply Rinv_0_lt_compat); field; lra).
  rewrite A1. destruct (Req_EM_T 1 1) as [_|X]; [|lra]. destruct (Req_EM_T (Rabs (1 - feps)) 1) as [X|_]; [rewrite Rabs_pos_eq in X; lra|]. reflexivity.
Qed.
Print Assumptions C71_rectangular_edge.
Example C71_edge_example : exists d, rectangular_dos ellipk_above (1 / 1000000) (- 1) 1 2 = Ok d /\
  spectral (fun z => is_bz_average (fun k => 1 / (z - rectangular_band (1 / (1 + 2) / 2) 2 k))) ((1 - 1 / 1000000) * 1)%R d.
Proof.
  apply C71_rectangular_edge; try exact ellipk_above_K; try (left; exact ellipk_above_cut); try lra; [rewrite Rabs_left by lra; lra|rewrite (Rabs_right (2 - 1)) by lra; lra].
Qed.
