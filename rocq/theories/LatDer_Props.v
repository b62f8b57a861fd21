(** * C51: derived lattices are consistent with their parents *)
From Coq Require Import Reals List ZArith Bool Lia Lra FunctionalExtensionality.
From Coquelicot Require Import Coquelicot.
From Verif Require Import Base CBase CExp CSqrt Lattice_Model Bethe_Proofs LatMom_Spec LatDer_Spec LatDer_Model LatDer_Proofs LatDer_Dos LatDer_Norm.
Local Open Scope C_scope.

(** the Green's functions are the Brillouin-zone averages, over any normalised mean, of the resolvents of the lattices'
    own Bloch Hamiltonians with the documented hopping, provided the parent is that average for its band *)
Theorem C51_honeycomb : forall (mean : (R * R -> C) -> C) (tri : C -> R -> result C),
  let band := fun k => bloch triangular (4 * (9 / 4) / 9 / 2) k 0 0 in
  averages mean band -> is_local_gf mean band (fun x => tri x (9 / 4)%R) ->
  forall (D : R) (z : C) (G : R * R -> nat -> nat -> C), (0 < D)%R ->
  (forall k, is_resolvent 2 (bloch honeycomb (2 * D / 3 / 2) k) z (G k)) ->
  honeycomb_gf_z tri z D = Ok (mean (fun k => site_average 2 (G k))).
Proof. intros mean tri band Hm Ht D z G HD HG. exact (honeycomb_bloch mean tri Hm Ht D z HD G HG). Qed.
Print Assumptions C51_honeycomb.
Theorem C51_kagome : forall (mean : (R * R -> C) -> C) (tri : C -> R -> result C),
  let band := fun k => bloch triangular (4 * (9 / 4) / 9 / 2) k 0 0 in
  averages mean band -> is_local_gf mean band (fun x => tri x (9 / 4)%R) ->
  forall (D : R) (z : C) (G : R * R -> nat -> nat -> C), (0 < D)%R ->
  (forall k, is_resolvent 3 (bloch kagome (2 * D / 3 / 2) k) z (G k)) ->
  kagome_gf_z tri z D = Ok (mean (fun k => site_average 3 (G k))).
Proof. intros mean tri band Hm Ht D z G HD HG. exact (kagome_bloch mean tri Hm Ht D z HD G HG). Qed.
Print Assumptions C51_kagome.
Theorem C51_lieb : forall (mean : (R * R -> C) -> C) (sqr : C -> R -> result C),
  let band := fun k => bloch square (4 / 4) k 0 0 in
  averages mean band -> is_local_gf mean band (fun x => sqr x 4%R) ->
  forall (D : R) (z : C) (G : R * R -> nat -> nat -> C), (0 < D)%R ->
  (forall k, is_resolvent 3 (bloch lieb (D / sqrt 8) k) z (G k)) ->
  lieb_gf_z sqr z D = Ok (mean (fun k => site_average 3 (G k))).
Proof. intros mean sqr band Hm Ht D z G HD HG. exact (lieb_bloch mean sqr Hm Ht D z HD G HG). Qed.
Print Assumptions C51_lieb.

(** the dos is the spectral function -Im G(e + i0)/pi, if the same holds for the parent at the transformed energy and the
    parent takes conjugate values at conjugate arguments; the band centre or the flat band are excluded *)
Theorem C51_honeycomb_dos : forall (tri : C -> R -> result C) (trid : R -> R -> result R) (D e : R) (g : C),
  (0 < D)%R -> e <> 0%R -> (forall w G, (0 < snd w)%R -> tri w (9 / 4)%R = Ok G -> tri (Cconj w) (9 / 4)%R = Ok (Cconj G)) ->
  let x0 := (2 * ((e / (D / (3 / 2))) * (e / (D / (3 / 2)))) - 3 / 2)%R in
  boundary tri x0 (9 / 4) g -> trid x0 (9 / 4)%R = Ok (- snd g / PI)%R ->
  exists g', boundary (honeycomb_gf_z tri) e D g' /\ honeycomb_dos trid e D = Ok (- snd g' / PI)%R.
Proof. exact honeycomb_boundary. Qed.
Print Assumptions C51_honeycomb_dos.
Theorem C51_kagome_dos : forall (tri : C -> R -> result C) (trid : R -> R -> result R) (D e : R) (g : C),
  (0 < D)%R -> e <> (D / 3)%R -> (3 * e + 2 * D <> 0)%R -> (forall w G, (0 < snd w)%R -> tri w (9 / 4)%R = Ok G -> tri (Cconj w) (9 / 4)%R = Ok (Cconj G)) ->
  let x0 := (2 * (((e - D / 3) / (D / (3 / 2))) * ((e - D / 3) / (D / (3 / 2)))) - 3 / 2)%R in
  boundary tri x0 (9 / 4) g -> trid x0 (9 / 4)%R = Ok (- snd g / PI)%R ->
  exists g', boundary (kagome_gf_z tri) e D g' /\ kagome_dos trid e D = Ok (- snd g' / PI)%R.
Proof. exact kagome_boundary. Qed.
Print Assumptions C51_kagome_dos.
Theorem C51_lieb_dos : forall (sqr : C -> R -> result C) (ellipkm1 : R -> result R) (D e : R) (g : C),
  (0 < D)%R -> e <> 0%R -> (forall w G, (0 < snd w)%R -> sqr w 4%R = Ok G -> sqr (Cconj w) 4%R = Ok (Cconj G)) ->
  let x0 := (8 * ((e / D) * (e / D)) - 4)%R in
  boundary sqr x0 4 g -> square_dos ellipkm1 x0 4 = Ok (- snd g / PI)%R ->
  exists g', boundary (lieb_gf_z sqr) e D g' /\ lieb_dos (square_dos ellipkm1) e D = Ok (- snd g' / PI)%R.
Proof. intros sqr ek D e g HD He Hr x0 Hb Hd. exact (lieb_boundary sqr (square_dos ek) D e g HD He Hr (square_dos_scales ek) Hb Hd). Qed.
Print Assumptions C51_lieb_dos.

(** the weights of the flat and of the dispersive bands add up to one *)
Theorem C51_weights : forall (tri sqr : C -> R -> result C) (D : R), (0 < D)%R ->
  normalised (fun x => tri x (9 / 4)%R) -> normalised (fun x => sqr x 4%R) ->
  normalised (fun z => honeycomb_gf_z tri z D) /\ normalised (fun z => kagome_gf_z tri z D) /\ normalised (fun z => lieb_gf_z sqr z D).
Proof. intros tri sqr D HD Ht Hs. exact (conj (honeycomb_normalised tri D HD Ht) (conj (kagome_normalised tri D HD Ht) (lieb_normalised sqr D HD Hs))). Qed.
Print Assumptions C51_weights.

(** energies and half-bandwidth scale together, for every lattice and whatever the elliptic integrals or parents are;
    errors are preserved *)
Theorem C51_scaling_gf : forall (ellipk : C -> result C) (parent : C -> R -> result C) (scale Z s : R) (z : C) (D : R), (0 < s)%R ->
  List.Forall (fun f : C -> R -> result C => f (RtoC s * z) (s * D)%R = match f z D with Ok g => Ok (g / RtoC s) | Err e => Err e end)
    (square_gf_z ellipk :: (fun z D => rectangular_gf_z ellipk z D scale) :: lieb_gf_z parent :: honeycomb_gf_z parent :: kagome_gf_z parent ::
     bethe_gf_z :: (fun z D => bethez_gf_z z D Z) :: onedim_gf_z :: box_gf_z :: nil).
Proof.
  intros ek par sc Z s z D H. assert (K : forall f, cscales f -> f (RtoC s * z) (s * D)%R = match f z D with Ok g => Ok (g / RtoC s) | Err e => Err e end).
  { intros f Hf. rewrite (Hf s z D H). destruct (f z D); reflexivity. }
  repeat apply List.Forall_cons; try apply List.Forall_nil.
  - apply K, square_scales. - apply (K (fun z D => rectangular_gf_z ek z D sc)), rectangular_scales. - apply K, lieb_scales. - apply K, honeycomb_scales. - apply K, kagome_scales.
  - apply K, bethe_scales. - apply (K (fun z D => bethez_gf_z z D Z)), bethez_scales. - apply K, onedim_scales. - apply K, box_scales.
Qed.
Print Assumptions C51_scaling_gf.
Theorem C51_scaling_dos : forall (ellipkm1 : R -> result R) (parent : R -> R -> result R) (Z s x D : R), (0 < s)%R ->
  List.Forall (fun f : R -> R -> result R => f (s * x)%R (s * D)%R = match f x D with Ok g => Ok (g / s)%R | Err e => Err e end)
    (square_dos ellipkm1 :: lieb_dos parent :: honeycomb_dos parent :: kagome_dos parent ::
     bethe_dos :: (fun x D => bethez_dos x D Z) :: onedim_dos :: box_dos :: nil).
Proof.
  intros ek par Z s x D H. assert (K : forall f, rscales f -> f (s * x)%R (s * D)%R = match f x D with Ok g => Ok (g / s)%R | Err e => Err e end).
  { intros f Hf. rewrite (Hf s x D H). destruct (f x D); reflexivity. }
  repeat apply List.Forall_cons; try apply List.Forall_nil.
  - apply K, square_dos_scales. - apply K, lieb_dos_scales. - apply K, honeycomb_dos_scales. - apply K, kagome_dos_scales.
  - apply K, bethe_dos_scales. - apply (K (fun x D => bethez_dos x D Z)), bethez_dos_scales. - apply K, onedim_dos_scales. - apply K, box_dos_scales.
Qed.
Print Assumptions C51_scaling_dos.
(** the isotropic rectangular lattice is the square lattice *)
Theorem C51_rectangular : forall (ellipk : C -> result C) (z : C) (D : R), D <> 0%R -> rectangular_gf_z ellipk z D 1 = square_gf_z ellipk z D.
Proof. exact rectangular_square. Qed.
Print Assumptions C51_rectangular.

(** a mesh of two wave vectors, (0, 0) and (pi, 0), for the honeycomb lattice with D = 3 at z = 5 *)
Definition mesh2 (f : R * R -> C) : C := (f (0, 0)%R + f (PI, 0)%R) / 2.
Definition tri2 (x : C) (D : R) : result C := Ok (mesh2 (fun k => 1 / (x - bloch triangular (4 * (9 / 4) / 9 / 2) k 0 0))).
Definition res_example (k : R * R) (i j : nat) : C :=
  let a := bloch honeycomb 1 k 0 1 in let b := bloch honeycomb 1 k 1 0 in
  (match i, j with O, O => 5 | O, _ => a | _, O => b | _, _ => 5 end) / (5 * 5 - a * b).
Lemma mesh2_averages eps : averages mesh2 eps.
Proof. intros a b x Hx. unfold mesh2. rewrite C2_eq. field. repeat split; try apply Hx. exact C11_neq0. Qed.
Lemma phase_mod (t : R) : Cmod (cexp (Ci * RtoC t)) = 1%R.
Proof.
  unfold cexp, Cmod. cbn. replace (0 * t - 1 * 0)%R with 0%R by ring. replace (0 * 0 + 1 * t)%R with t by ring. rewrite exp_0.
  replace (1 * cos t * (1 * cos t * 1) + 1 * sin t * (1 * sin t * 1))%R with 1%R; [apply sqrt_1|]. assert (P := sin2_cos2 t). unfold Rsqr in P. lra.
Qed.
Lemma honeycomb_amp k : (Cmod (bloch honeycomb 1 k 0 1) <= 3)%R /\ (Cmod (bloch honeycomb 1 k 1 0) <= 3)%R.
Proof.
  rewrite hc01, hc10, !Cmult_1_l. set (u := cexp (Ci * RtoC (fst k))). set (v := cexp (Ci * RtoC (snd k))).
  assert (U : Cmod u = 1%R) by apply phase_mod. assert (V : Cmod v = 1%R) by apply phase_mod.
  assert (U' : Cmod (/ u) = 1%R) by (rewrite Cmod_inv, U by apply cexp_neq_0; apply Rinv_1). assert (V' : Cmod (/ v) = 1%R) by (rewrite Cmod_inv, V by apply cexp_neq_0; apply Rinv_1).
  assert (T1 := Cmod_triangle (1 + u) v). assert (T2 := Cmod_triangle 1 u). assert (T3 := Cmod_triangle (1 + / u) (/ v)). assert (T4 := Cmod_triangle 1 (/ u)).
  rewrite Cmod_1 in *. split; lra.
Qed.
Lemma res_example_ok k : is_resolvent 2 (bloch honeycomb (2 * 3 / 3 / 2) k) 5 (res_example k).
Proof.
  replace (2 * 3 / 3 / 2)%R with 1%R by field. unfold res_example. assert (A := honeycomb_amp k). assert (D0 := hc00 k 1). assert (D1 := hc11 k 1).
  set (a := bloch honeycomb 1 k 0 1) in *. set (b := bloch honeycomb 1 k 1 0) in *.
  assert (N : 5 * 5 - a * b <> 0).
  { intros E. assert (E' : 5 * 5 = a * b) by (replace (5 * 5) with (5 * 5 - a * b + a * b) by ring; rewrite E; ring). apply (f_equal Cmod) in E'. rewrite !Cmod_mult, Cmod_R, Rabs_pos_eq in E' by lra.
    assert (P := Rmult_le_compat _ _ _ _ (Cmod_ge_0 a) (Cmod_ge_0 b) (proj1 A) (proj2 A)). lra. }
  intros i j Hi Hj. assert (Ci' : i = 0%nat \/ i = 1%nat) by lia. assert (Cj' : j = 0%nat \/ j = 1%nat) by lia.
  destruct Ci' as [-> | ->], Cj' as [-> | ->]; rewrite nsum2; cbn [Nat.eqb]; rewrite ?D0, ?D1; fold a b; 
  match goal with |- @eq _ ?l ?r => change (@eq C l r) end; generalize (RtoC 5) N; clear; intros f N; field; exact N.
Qed.
Example C51_example : honeycomb_gf_z tri2 5 3 = Ok (mesh2 (fun k => site_average 2 (res_example k))) /\
  mesh2 (fun k => site_average 2 (res_example k)) = 5 * (1 / 16 + 1 / 24) / 2.
Proof.
  split.
  - apply (C51_honeycomb mesh2 tri2); [apply mesh2_averages|intros x _; reflexivity|lra|exact res_example_ok].
  - unfold mesh2, site_average. rewrite !nsum2, INR2. unfold res_example. rewrite !hc01, !hc10. cbn [fst snd].
    assert (E0 : cexp (Ci * RtoC 0) = 1) by (rewrite Cmult_0_r; apply cexp_0).
    assert (EP : cexp (Ci * RtoC PI) = - (1)).
    { unfold cexp. cbn. replace (0 * PI - 1 * 0)%R with 0%R by ring. replace (0 * 0 + 1 * PI)%R with PI by ring. rewrite exp_0, cos_PI, sin_PI. unfold Copp. cbn. f_equal; ring. }
    rewrite E0, EP. apply C_ext; cbn; field; lra.
Qed.
