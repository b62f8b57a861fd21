(** * C81: the CPA equations are causal *)
From Coq Require Import List Arith Lia Bool Reals Lra.
From Coquelicot Require Import Coquelicot.
From Verif Require Import Base FSum CBase Cpa_Model Cpa_Proofs Fourier_Filon Lattice_Model Bethe_Main Bethe_Props LatMom_Spec LatDer_Spec LatDer_Model LatEll_Model LatInt_Spec LatInt_Square LatInt_Local LatInt_Props
  LatBz_Spec LatBcc_Main LatSc_Red LatFcc_Red LatTri_Main LatCut_Spec LatBz_Props LatMom_Props CpaCausal_Spec CpaCausal_Proofs.
Import ListNotations.
Local Open Scope R_scope.

(** one step of the fixed-point iteration can be evaluated and maps physical to physical self-energies; the on-site energies may
    contain retarded self-energies *)
Theorem C81_step_physical : forall (ht : C -> result C) (z s : C) (es : list C) (ps : list R), retarded_ht ht ->
  0 < snd z -> snd s <= 0 -> (forall e, In e es -> snd e <= 0) -> length es = length ps -> (forall p, In p ps -> 0 <= p) -> fold_right Rplus 0 ps = 1 ->
  exists s' : C, self_fxdpnt_eq (K := CF) ht s z es (map RtoC ps) = Ok s' /\ snd s' <= 0.
Proof. intros ht z s es ps HT Hz Hs He L P0 P1. exact (step_physical ht HT z s es Hz Hs He ps L P0 P1). Qed.
Print Assumptions C81_step_physical.
(** hence the iteration started from a physical self-energy never leaves them *)
Theorem C81_iteration_physical : forall (ht : C -> result C) (z s : C) (es : list C) (ps : list R), retarded_ht ht ->
  0 < snd z -> snd s <= 0 -> (forall e, In e es -> snd e <= 0) -> length es = length ps -> (forall p, In p ps -> 0 <= p) -> fold_right Rplus 0 ps = 1 ->
  forall n, exists s' : C, iterate (fun s => self_fxdpnt_eq (K := CF) ht s z es (map RtoC ps)) n s = Ok s' /\ snd s' <= 0.
Proof.
  intros ht z s es ps HT Hz Hs He L P0 P1 n. revert s Hs. induction n as [|n IH]; intros s Hs; [exists s; auto|]. cbn [iterate].
  destruct (C81_step_physical ht z s es ps HT Hz Hs He L P0 P1) as (t & E & Ht). rewrite E. cbn [bind]. exact (IH t Ht).
Qed.
Print Assumptions C81_iteration_physical.
(** the component Green's functions embedded in a physical self-energy exist, are retarded and bounded by 1/Im z *)
Theorem C81_components_retarded : forall (ht : C -> result C) (z s : C) (es : list C), retarded_ht ht -> 0 < snd z -> snd s <= 0 -> (forall e, In e es -> snd e <= 0) ->
  exists gs : list C, gf_cmpt_z (K := CF) ht z s es = Ok gs /\ length gs = length es /\ forall g : C, In g gs -> snd g < 0 /\ Cmod g <= / snd z.
Proof.
  intros ht z s es HT Hz Hs He. destruct (components_retarded ht HT z s es Hz Hs He) as (gs & E & L & H). exists gs. split; [exact E|]. split; [exact L|].
  intros g Hg. destruct (H g Hg) as (N & I & B). split; [exact I|]. assert (M := proj1 (Cmod_gt_0 g) N). rewrite <- (Rinv_inv (Cmod g)).
  apply Rinv_le_contravar; [exact Hz|]. rewrite <- (Cmod_inv g N). apply Rle_trans with (1 := B). apply Rle_trans with (1 := Rle_abs _). exact (Cmod_ge_im (/ g)%C).
Qed.
Print Assumptions C81_components_retarded.
(** the equation which solve_root hands to the root finder for restricted=True is finite for every trial vector *)
Theorem C81_restricted_total : forall (ht : C -> result C) (pars : list (C * (list C * list C))) (selfs : list C), retarded_ht ht -> length pars = length selfs ->
  (forall z es cs, In (z, (es, cs)) pars -> 0 < snd z /\ (forall e, In e es -> snd e <= 0) /\
     exists ps, cs = map RtoC ps /\ length es = length ps /\ (forall p, In p ps -> 0 <= p) /\ fold_right Rplus 0 ps = 1) ->
  exists r s', restrict (root_vec (K := CF) ht pars) selfs = (Ok r, s').
Proof. intros ht pars selfs HT L HP. apply restricted_total; [exact HT|exact L|]. intros (z, (es, cs)) Hp. exact (HP z es cs Hp). Qed.
Print Assumptions C81_restricted_total.

(** ** the hypothesis holds for every positive spectrum: levels, densities, and the lattices of the package *)
Theorem C81_levels : forall (l : list (R * R)) (ht : C -> result C), (forall p, In p l -> 0 <= fst p) -> fold_right Rplus 0 (map fst l) = 1 ->
  (forall x : C, 0 < snd x -> ht x = Ok (fold_right Cplus (RtoC 0) (map (fun p => RtoC (fst p) / (x - RtoC (snd p)))%C l))) -> retarded_ht ht.
Proof.
  intros l ht L0 L1 H x Hx. eexists. split; [exact (H x Hx)|]. destruct (list_average (map (fun p => (fst p, (x - RtoC (snd p))%C)) l) (snd x) Hx) as (A & B & _).
  - intros q Hq. apply in_map_iff in Hq. destruct Hq as (p & <- & Hp). cbn [fst snd]. split; [now apply L0|]. cbn. lra.
  - rewrite map_map. exact L1.
  - rewrite map_map in A, B. exact (conj A B).
Qed.
Print Assumptions C81_levels.
Theorem C81_density : forall (d : R -> R) (D : R) (ht : C -> result C), 0 <= D -> (forall e, - D < e < D -> 0 <= d e) -> is_RInt d (- D) D 1 ->
  (forall x : C, 0 < snd x -> exists G, ht x = Ok G /\ is_hilbert d D x G) -> retarded_ht ht.
Proof.
  intros d D ht HD D0 D1 H x Hx. destruct (H x Hx) as (G & E & I). exists G. split; [exact E|]. destruct (density_average x G d D Hx HD D0 D1 I) as (A & B & _). auto.
Qed.
Print Assumptions C81_density.
Theorem C81_bethe : forall D : R, 0 < D -> retarded_ht (fun x => bethe_gf_z x D).
Proof.
  intros D HD x Hx. assert (N : x <> RtoC 0) by (intros E; rewrite E in Hx; cbn in Hx; lra). destruct (proj2 (C46_finite x D HD) N) as (G & E). exists G. split; [exact E|].
  destruct (C46_branch x G D HD E) as (B & _ & _). specialize (B Hx). assert (G0 : G <> RtoC 0) by (apply im_neg_neq0; exact B). split; [exact G0|].
  destruct (C46_equation x G D HD E) as (Q & _).
  assert (I : (/ G = x - RtoC (D / 2) * RtoC (D / 2) * G)%C).
  { transitivity ((/ G) * (RtoC (D / 2) * RtoC (D / 2) * (G * G) - x * G + 1) + x - RtoC (D / 2) * RtoC (D / 2) * G)%C; [field; exact G0|].
    replace (RtoC (D / 2) * RtoC (D / 2) * (G * G) - x * G + 1)%C with (RtoC 0); [ring|]. rewrite <- Q. rewrite !RtoC_div by lra. reflexivity. }
  rewrite I. cbn. assert (0 < D / 2 * (D / 2)) by nra. nra.
Qed.
Print Assumptions C81_bethe.
Theorem C81_onedim : forall D : R, 0 < D -> retarded_ht (fun x => onedim_gf_z x D).
Proof.
  intros D HD x Hx. destruct (C64_onedim D x HD (or_introl (Rgt_not_eq _ _ Hx))) as (G & E & I). exists G. split; [exact E|].
  destruct (chain_average x G (fun k => D * cos k) D Hx) as (A & B & _); [|exact I|auto]. intros k. rewrite Rabs_mult, (Rabs_right D) by lra.
  assert (X := COS_bound k). assert (Rabs (cos k) <= 1) by (apply Rabs_le; lra). nra.
Qed.
Print Assumptions C81_onedim.
Theorem C81_square : forall (ellipk : C -> result C) (D : R), computes_K ellipk -> 0 < D -> retarded_ht (fun x => square_gf_z ellipk x D).
Proof.
  intros ek D HK HD x Hx. destruct (C64_square ek D x HK HD (or_introl (Rgt_not_eq _ _ Hx))) as (G & E & I). exists G. split; [exact E|].
  destruct (plane_average x G (fun k => bloch square (D / 4) k 0 0) D Hx) as (A & B & _); [|exact I|auto]. intros (k1, k2). rewrite square_band. cbn [fst snd RtoC]. split; [reflexivity|].
  assert (X := p1_range k1 k2). apply Rabs_le. nra.
Qed.
Print Assumptions C81_square.
Theorem C81_sc : forall (ellipk : C -> result C) (D : R), computes_K ellipk -> 0 < D -> retarded_ht (fun x => sc_gf_z ellipk x D).
Proof.
  intros ek D HK HD x Hx. destruct (C70_sc ek D x HK HD (or_introl (Rgt_not_eq _ _ Hx))) as (G & E & I). exists G. split; [exact E|].
  destruct (space_average x G (fun k => band3 simple_cubic (D / 6) k) D Hx) as (A & B & _); [|exact I|auto]. intros ((k1, k2), k3). rewrite sc_band. cbn [fst snd RtoC]. split; [reflexivity|].
  assert (X1 := COS_bound k1). assert (X2 := COS_bound k2). assert (X3 := COS_bound k3). replace (2 * (D / 6)) with (D / 3) by field. apply Rabs_le. nra.
Qed.
Print Assumptions C81_sc.
Theorem C81_bcc : forall (ellipk : C -> result C) (D : R), computes_K ellipk -> 0 < D -> retarded_ht (fun x => bcc_gf_z ellipk x D).
Proof.
  intros ek D HK HD x Hx. destruct (C70_bcc ek D x HK HD (or_introl (Rgt_not_eq _ _ Hx))) as (G & E & I). exists G. split; [exact E|].
  destruct (space_average x G (fun k => band3 body_centered (D / 8) k) D Hx) as (A & B & _); [|exact I|auto]. intros ((k1, k2), k3). rewrite bcc_band. cbn [fst snd RtoC]. split; [reflexivity|].
  replace (8 * (D / 8)) with D by field. rewrite !Rabs_mult, (Rabs_right D) by lra. 
  assert (C1 : forall k, 0 <= Rabs (cos k) <= 1) by (intros k; split; [apply Rabs_pos|apply Rabs_le; apply COS_bound]).
  assert (A1 := C1 k1). assert (A2 := C1 k2). assert (A3 := C1 k3). assert (0 <= Rabs (cos k1) * Rabs (cos k2) <= 1) by (split; nra).
  assert (Rabs (cos k1) * Rabs (cos k2) * Rabs (cos k3) <= 1) by nra. nra.
Qed.
Print Assumptions C81_bcc.
Theorem C81_bethez : forall D Z : R, 0 < D -> 2 < Z -> retarded_ht (fun x => bethez_gf_z x D Z).
Proof.
  intros D Z HD HZ x Hx. destruct (C64_bethez D Z x HD HZ (or_introl (Rgt_not_eq _ _ Hx))) as (d & G & E & HG & I & N). exists G. split; [exact HG|].
  destruct (density_average x G d D Hx ltac:(lra)) with (3 := I) as (A & B & _); [|exact N|auto]. intros e _. destruct C49_shape as (_ & _ & S & _). exact (proj1 (S Z ltac:(lra) e D (d e) HD (E e))).
Qed.
Print Assumptions C81_bethez.
Theorem C81_box : forall D : R, 0 < D -> retarded_ht (fun x => box_gf_z x D).
Proof.
  intros D HD x Hx. destruct (C64_box D x HD (or_introl (Rgt_not_eq _ _ Hx))) as (d & G & E & HG & I). exists G. split; [exact HG|].
  destruct (density_average x G d D Hx ltac:(lra)) with (3 := I) as (A & B & _); [| |auto].
  - intros e _. destruct C49_shape as (_ & _ & _ & S). exact (proj1 (S e D (d e) HD (E e))).
  - assert (M := C50_box 0 D d HD E). assert (V : box_dos_moment 0 D = 1) by (unfold box_dos_moment; cbn; field). rewrite V in M.
    apply is_RInt_ext with (2 := M). intros e _. cbn. ring.
Qed.
Print Assumptions C81_box.
(** the elliptic integral is continuous from above on its cut; C70 shows that continuity from below spoils the two Green's functions *)
Theorem C81_triangular : forall (ellipk : C -> result C) (D : R), computes_K ellipk -> cut_from_above ellipk -> 0 < D -> retarded_ht (fun x => triangular_gf_z ellipk x D).
Proof.
  intros ek D HK HA HD x Hx. destruct (C70_triangular_above ek D x HK HA HD (or_introl (Rgt_not_eq _ _ Hx))) as (G & E & I); [intros X; rewrite X in Hx; cbn in Hx; lra|]. exists G. split; [exact E|].
  destruct (plane_average x G (fun k => bloch triangular (D * 4 / 9 / 2) k 0 0) (2 * D) Hx) as (A & B & _); [|exact I|auto]. intros (k1, k2). rewrite tri_band. cbn [fst snd RtoC]. split; [reflexivity|].
  assert (X1 := COS_bound k1). assert (X2 := COS_bound k2). assert (X3 := COS_bound (k1 - k2)). apply Rabs_le. nra.
Qed.
Print Assumptions C81_triangular.
Theorem C81_fcc : forall (ellipk : C -> result C) (D : R), computes_K ellipk -> cut_from_above ellipk -> 0 < D -> retarded_ht (fun x => fcc_gf_z ellipk x D).
Proof.
  intros ek D HK HA HD x Hx. destruct (C70_fcc_above ek D x HK HA HD (or_introl (Rgt_not_eq _ _ Hx))) as (G & E & I). exists G. split; [exact E|].
  destruct (space_average x G (fun k => band3 face_centered (D / 8) k) (2 * D) Hx) as (A & B & _); [|exact I|auto]. intros ((k1, k2), k3). rewrite fcc_band. cbn [fst snd RtoC]. split; [reflexivity|].
  assert (C1 : forall a b, -1 <= cos a * cos b <= 1) by (intros a b; assert (X1 := COS_bound a); assert (X2 := COS_bound b); split; nra).
  assert (A1 := C1 k1 k2). assert (A2 := C1 k2 k3). assert (A3 := C1 k3 k1). replace (4 * (D / 8)) with (D / 2) by field. apply Rabs_le. nra.
Qed.
Print Assumptions C81_fcc.

(** z = i with the Bethe lattice D = 1, two components at +1 and -1, started from zero: the step is defined and physical *)
Example C81_example : exists s' : C, self_fxdpnt_eq (K := CF) (fun x => bethe_gf_z x 1) (RtoC 0) (0, 1) [RtoC 1; RtoC (- 1)] (map RtoC [1 / 2; 1 / 2]) = Ok s' /\ snd s' <= 0.
Proof.
  apply C81_step_physical; [apply C81_bethe; lra|cbn; lra|cbn; lra| |reflexivity| |cbn; lra].
  - intros e [<-|[<-|[]]]; cbn; lra.
  - intros p [<-|[<-|[]]]; lra.
Qed.
