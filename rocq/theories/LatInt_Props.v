(** * C64: lattice Green's functions are the Hilbert transforms of the densities of states and Brillouin zone averages *)
From Coq Require Import Reals List Lra Lia.
From Coquelicot Require Import Coquelicot.
From Verif Require Import Base CBase CExp CSqrt Fourier_Filon Lattice_Model Bethe_Proofs Bethe_Main LatMom_Spec LatDer_Spec LatDer_Model LatDer_Proofs LatDer_Props LatInt_Spec LatInt_Proofs LatInt_Hilbert LatInt_Real LatInt_Square LatInt_Legendre LatInt_Local.
Local Open Scope C_scope.

(** ** Hilbert transforms, for every complex frequency off the band *)
Theorem C64_bethe : forall (D : R) (z : C), (0 < D)%R -> snd z <> 0%R \/ (D < Rabs (fst z))%R ->
  exists d G, (forall e, bethe_dos e D = Ok (d e)) /\ bethe_gf_z z D = Ok G /\ is_hilbert d D z G.
Proof.
  intros D z HD O. exists (tot (fun e => bethe_dos e D)). eexists. split; [exact (tot_ok _ (bethe_dos_total D HD))|]. assert (E := bethe_ok D HD z (off_band_neq0 D HD z O)).
  split; [exact E|]. exact (bethe_hilbert D HD z O _ _ (tot_ok _ (bethe_dos_total D HD)) E).
Qed.
Print Assumptions C64_bethe.
Theorem C64_bethez : forall (D Z : R) (z : C), (0 < D)%R -> (2 < Z)%R -> snd z <> 0%R \/ (D < Rabs (fst z))%R ->
  exists d G, (forall e, bethez_dos e D Z = Ok (d e)) /\ bethez_gf_z z D Z = Ok G /\ is_hilbert d D z G /\ is_RInt d (- D) D 1%R.
Proof.
  intros D Z z HD HZ O. assert (T := tot_ok _ (bethez_dos_total D Z HD HZ)). exists (tot (fun e => bethez_dos e D Z)). eexists. split; [exact T|].
  assert (E := bethez_ok D HD z Z (off_band_neq0 D HD z O) ltac:(lra) (or_introl HZ)). split; [exact E|].
  split; [exact (bethez_hilbert D Z HD HZ z _ _ O T E)|exact (bethez_norm D Z HD HZ _ T)].
Qed.
Print Assumptions C64_bethez.
Theorem C64_box : forall (D : R) (z : C), (0 < D)%R -> snd z <> 0%R \/ (D < Rabs (fst z))%R ->
  exists d G, (forall e, box_dos e D = Ok (d e)) /\ box_gf_z z D = Ok G /\ is_hilbert d D z G.
Proof.
  intros D z HD O. assert (T := tot_ok _ (box_dos_total D HD)). destruct (box_gf_total D z HD O) as [G E]. exists (tot (fun e => box_dos e D)), G.
  split; [exact T|]. split; [exact E|]. exact (box_hilbert D HD z O _ _ T E).
Qed.
Print Assumptions C64_box.

(** ** the chain: average over the Brillouin zone of the band D cos k, whose values are distributed with the dos *)
Theorem C64_onedim : forall (D : R) (z : C), (0 < D)%R -> snd z <> 0%R \/ (D < Rabs (fst z))%R ->
  exists G, onedim_gf_z z D = Ok G /\ is_CInt (fun k => 1 / (z - RtoC (D * cos k))) (- PI) PI (RtoC (2 * PI) * G).
Proof.
  intros D z HD O. assert (E := onedim_ok D HD z (off_band_neq0 D HD z O) (sq_off D z HD O)). eexists. split; [exact E|]. exact (onedim_int D HD z O _ E).
Qed.
Print Assumptions C64_onedim.
(** any continuous function of the energy; the dos diverges at the band edges *)
Theorem C64_onedim_dos : forall (D : R) (phi : R -> C) (m : C), (0 < D)%R ->
  (forall e, (- D <= e <= D)%R -> continuous (fun e => fst (phi e)) e /\ continuous (fun e => snd (phi e)) e) ->
  is_CInt (fun k => phi (D * cos k)%R) 0 PI (RtoC PI * m) ->
  exists d, (forall e, (- D < e < D)%R -> onedim_dos e D = Ok (d e)) /\ is_improper (fun e => RtoC (d e) * phi e) D m.
Proof. intros D phi m HD Hp Hm. exists (cdos D). split; [exact (cdos_ok D HD)|]. exact (chain_measure D HD phi m (cdos D) Hp (cdos_ok D HD) Hm). Qed.
Print Assumptions C64_onedim_dos.
(** in particular the Green's function and the normalisation *)
Theorem C64_onedim_hilbert : forall (D : R) (z : C), (0 < D)%R -> snd z <> 0%R \/ (D < Rabs (fst z))%R ->
  exists d G, (forall e, (- D < e < D)%R -> onedim_dos e D = Ok (d e)) /\ onedim_gf_z z D = Ok G /\
    is_improper (fun e => RtoC (d e) * (1 / (z - RtoC e))) D G /\ is_improper (fun e => RtoC (d e)) D 1.
Proof.
  intros D z HD O. assert (HP := PI_RGT_0). assert (E := onedim_ok D HD z (off_band_neq0 D HD z O) (sq_off D z HD O)). exists (cdos D). eexists. split; [exact (cdos_ok D HD)|]. split; [exact E|]. split.
  - apply (chain_measure D HD (fun e => 1 / (z - RtoC e)) _ (cdos D)); [|exact (cdos_ok D HD)|exact (onedim_half D HD z O _ E)].
    intros e He. apply ccont_mult; [apply ccont_const|apply (inv_z_cont D z O e He)].
  - intros t Ht. destruct (chain_measure D HD (fun _ => 1) 1 (cdos D) (fun e _ => ccont_const 1 e) (cdos_ok D HD)) with (t := t) as (r & Hr & H); [|exact Ht|].
    + eapply is_CInt_eq; [apply is_CInt_const|]. rewrite Rminus_0_r. reflexivity.
    + exists r. split; [exact Hr|]. intros s Hs. destruct (H s Hs) as (I & HI & B). exists I. split; [|exact B]. apply is_CInt_ext with (2 := HI). intros e _. ring.
Qed.
Print Assumptions C64_onedim_hilbert.

(** ** the square lattice: with a correct elliptic integral the Green's function is the average of the resolvent of
    the nearest-neighbour band, hopping D/4, over the Brillouin zone *)
Theorem C64_square : forall (ellipk : C -> result C) (D : R) (z : C), computes_K ellipk -> (0 < D)%R -> snd z <> 0%R \/ (D < Rabs (fst z))%R ->
  exists G, square_gf_z ellipk z D = Ok G /\ is_bz_average (fun k => 1 / (z - bloch square (D / 4) k 0 0)) G.
Proof. intros ek D z HK HD O. exact (square_average D HD ek HK z O). Qed.
Print Assumptions C64_square.
(** ** the Lieb lattice, no hypothesis on a parent *)
Theorem C64_lieb : forall (ellipk : C -> result C) (D : R) (z : C) (G : R * R -> nat -> nat -> C), computes_K ellipk -> (0 < D)%R ->
  (forall k, is_resolvent 3 (bloch lieb (D / sqrt 8) k) z (G k)) ->
  lieb_gf_z (square_gf_z ellipk) z D = Ok (bz_mean (fun k => site_average 3 (G k))).
Proof.
  intros ek D z G HK HD HG. assert (H4 : (0 < 4)%R) by lra. exact (C51_lieb bz_mean (square_gf_z ek) (square_averages 4 H4) (square_local 4 H4 ek HK) D z G HD HG).
Qed.
Print Assumptions C64_lieb.
(** ** Legendre's integral itself: a function as required of the elliptic integral here and in C51 and C65 *)
Theorem C64_elliptic : exists ellipk, computes_K ellipk /\ elliptic_like ellipk.
Proof. exists ellipk_legendre. split; [|exact legendre_elliptic]. intros m Hm. eexists. split; [reflexivity|exact (K_ex m Hm)]. Qed.
Print Assumptions C64_elliptic.

(** z = 5/3 with D = 1: integral of the Bethe dos, 2/pi int sqrt(1-e^2)/(5/3-e) = 2/3 *)
Example C64_example : exists d, (forall e, bethe_dos e 1 = Ok (d e)) /\ is_hilbert d 1 (RtoC (5 / 3)) (RtoC (2 / 3)) /\ onedim_gf_z (RtoC (5 / 3)) 1 = Ok (RtoC (3 / 4)).
Proof.
  destruct (C64_bethe 1 (RtoC (5 / 3)) ltac:(lra)) as (d & G & Hd & HG & HH). { right. cbn. rewrite Rabs_pos_eq; lra. }
  assert (Z0 : RtoC (5 / 3) <> 0) by (apply RtoC_neq0; lra). assert (I0 : RtoC 1 <> 0) by (apply RtoC_neq0; lra).
  assert (S : sq (RtoC (5 / 3) / 1) = RtoC (4 / 5)).
  { unfold sq. replace (1 - 1 / (RtoC (5 / 3) / 1 * (RtoC (5 / 3) / 1))) with (RtoC (16 / 25)); [|rewrite <- !RtoC_div, <- RtoC_mult, <- RtoC_div, <- RtoC_minus by lra; f_equal; field].
    rewrite csqrt_R by lra. f_equal. replace (16 / 25)%R with (4 / 5 * (4 / 5))%R by field. apply sqrt_square. lra. }
  exists d. split; [exact Hd|]. split.
  - rewrite (bethe_ok 1 ltac:(lra) _ Z0) in HG. injection HG as <-. replace (RtoC (2 / 3)) with (2 / RtoC 1 * uu (RtoC (5 / 3) / 1)); [exact HH|].
    unfold uu. rewrite S. rewrite <- !RtoC_div, <- RtoC_minus, <- !RtoC_mult by lra. f_equal. field.
  - rewrite (onedim_ok 1 ltac:(lra) _ Z0) by (rewrite S; apply RtoC_neq0; lra). rewrite S, <- RtoC_mult, <- RtoC_div by lra. f_equal. f_equal. field.
Qed.
(** the resolvent of the Lieb lattice exists at z = 2 i for every wave vector: the hypothesis of C64_lieb is met *)
Definition lieb_res (z : C) (D : R) (k : R * R) (i j : nat) : C :=
  let H := bloch lieb (D / sqrt 8) k in
  let De := z * z - H 0%nat 1%nat * H 1%nat 0%nat - H 0%nat 2%nat * H 2%nat 0%nat in
  match i, j with
  | O, O => z / De
  | O, _ => H O j / De
  | _, O => H i O / De
  | _, _ => ((if Nat.eqb i j then 1 else 0) + H i O * H O j / De) / z
  end.
Example C64_lieb_example : forall k, is_resolvent 3 (bloch lieb (1 / sqrt 8) k) (2 * Ci) (lieb_res (2 * Ci) 1 k).
Proof.
  intros [k1 k2] i j Hi Hj. unfold lieb_res. assert (L00 := lb00 (k1, k2) (1 / sqrt 8)). assert (L11 := lb11 (k1, k2) (1 / sqrt 8)). assert (L12 := lb12 (k1, k2) (1 / sqrt 8)). assert (L21 := lb21 (k1, k2) (1 / sqrt 8)). assert (L22 := lb22 (k1, k2) (1 / sqrt 8)).
  assert (Z0 : 2 * Ci <> 0). { intros E. apply (f_equal snd) in E. cbn in E. lra. }
  assert (De0 : 2 * Ci * (2 * Ci) - bloch lieb (1 / sqrt 8) (k1, k2) 0 1 * bloch lieb (1 / sqrt 8) (k1, k2) 1 0 - bloch lieb (1 / sqrt 8) (k1, k2) 0 2 * bloch lieb (1 / sqrt 8) (k1, k2) 2 0 <> 0).
  { rewrite lb01, lb10, lb02, lb20. cbn [fst snd]. set (u := cexp (Ci * RtoC k1)). set (v := cexp (Ci * RtoC k2)). assert (U : u <> 0) by apply cexp_neq_0. assert (V : v <> 0) by apply cexp_neq_0.
    set (t := (1 / sqrt 8)%R). intros E. assert (E' : - (RtoC 4) - RtoC (t * t) * (RtoC 4 + (u + / u) + (v + / v)) = 0).
    { rewrite <- E. replace (2 * Ci * (2 * Ci)) with (- RtoC 4) by (apply C_ext; cbn; ring). replace (RtoC 4) with ((1 + 1) * (1 + 1)) by (apply C_ext; cbn; ring). rewrite RtoC_mult. field. split; assumption. }
    unfold u, v in E'. rewrite !cexp_cos in E'. rewrite <- !RtoC_plus, <- RtoC_mult, <- RtoC_opp, <- RtoC_minus in E'. apply (f_equal fst) in E'. cbn in E'.
    assert (B1 := COS_bound k1). assert (B2 := COS_bound k2). assert (0 <= t * t)%R by nra. nra. }
  revert De0 L00 L11 L12 L21 L22. generalize (bloch lieb (1 / sqrt 8) (k1, k2)). intros H De0 L00 L11 L12 L21 L22.
  assert (Ii : i = 0%nat \/ i = 1%nat \/ i = 2%nat) by lia. assert (Ij : j = 0%nat \/ j = 1%nat \/ j = 2%nat) by lia. rewrite nsum3.
  destruct Ii as [-> | [-> | ->]], Ij as [-> | [-> | ->]]; cbn [Nat.eqb]; rewrite ?L00, ?L11, ?L12, ?L21, ?L22; revert De0 Z0; generalize (2 * Ci); intros z De0 Z0;
    match goal with |- @eq _ ?l ?r => change (@eq C l r) end; field; repeat split; assumption.
Qed.
