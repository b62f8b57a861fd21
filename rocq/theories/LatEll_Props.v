(** * C51 for the lattices given by elliptic integrals; C65: symmetries of the lattice Green's functions *)
From Coq Require Import Reals List ZArith Bool Lia Lra.
From Coquelicot Require Import Coquelicot.
From Verif Require Import Base CBase CExp CSqrt Lattice_Model Bethe_Proofs LatDer_Spec LatDer_Model LatDer_Dos LatEll_Model LatEll_Proofs LatSym_Proofs LatEll_Dos.
Local Open Scope C_scope.

(** ** C51: scaling *)
Theorem C51_elliptic_scaling_gf : forall (ellipk : C -> result C) (s : R) (z : C) (D : R), (0 < s)%R ->
  List.Forall (fun f : C -> R -> result C => f (RtoC s * z) (s * D)%R = match f z D with Ok g => Ok (g / RtoC s) | Err e => Err e end)
    (sc_gf_z ellipk :: bcc_gf_z ellipk :: fcc_gf_z ellipk :: nil).
Proof.
  intros ek s z D H. assert (K : forall f, cscales f -> f (RtoC s * z) (s * D)%R = match f z D with Ok g => Ok (g / RtoC s) | Err e => Err e end).
  { intros f Hf. rewrite (Hf s z D H). destruct (f z D); reflexivity. }
  repeat apply List.Forall_cons; try apply List.Forall_nil; apply K; [apply sc_scales|apply bcc_scales|apply fcc_scales].
Qed.
Print Assumptions C51_elliptic_scaling_gf.
Theorem C51_elliptic_scaling_dos : forall (ellipk : C -> result C) (ellipkm1 : R -> result R) (small s x D : R), (0 < s)%R ->
  List.Forall (fun f : R -> R -> result R => f (s * x)%R (s * D)%R = match f x D with Ok g => Ok (g / s)%R | Err e => Err e end)
    (sc_dos ellipk small :: bcc_dos ellipk :: fcc_dos ellipk :: triangular_dos ellipkm1 :: nil).
Proof.
  intros ek ekm small s x D H. assert (K : forall f, rscales f -> f (s * x)%R (s * D)%R = match f x D with Ok g => Ok (g / s)%R | Err e => Err e end).
  { intros f Hf. rewrite (Hf s x D H). destruct (f x D); reflexivity. }
  repeat apply List.Forall_cons; try apply List.Forall_nil; apply K; [apply sc_dos_scales|apply bcc_dos_scales|apply fcc_dos_scales|apply triangular_dos_scales].
Qed.
Print Assumptions C51_elliptic_scaling_dos.
(** the triangular lattice masks the frequency -1 whatever the half-bandwidth: covariance holds unless one of the two
    frequencies is -1 *)
Theorem C51_triangular_scaling_partial : forall (ellipk : C -> result C) (s : R) (z : C) (D : R), (0 < s)%R -> z <> - (1) -> RtoC s * z <> - (1) ->
  triangular_gf_z ellipk (RtoC s * z) (s * D) = match triangular_gf_z ellipk z D with Ok g => Ok (g / RtoC s) | Err e => Err e end.
Proof. intros ek s z D H N1 N2. rewrite (tri_scales ek s z D H N1 N2). destruct (triangular_gf_z ek z D); reflexivity. Qed.
Print Assumptions C51_triangular_scaling_partial.
(** e.g. the lower band edge -2/3*half_bandwidth: finite for half_bandwidth = 3, infinite for 3/2 *)
Theorem C51_triangular_scaling_refuted : exists (s : R) (z : C) (D : R), (0 < s)%R /\ (0 < D)%R /\
  forall ellipk, ellipk (RtoC 0) = Ok (RtoC (PI / 2)) -> (exists g, triangular_gf_z ellipk z D = Ok g) /\ triangular_gf_z ellipk (RtoC s * z) (s * D) = Err NonFinite.
Proof.
  exists (1 / 2)%R, (RtoC (- 2)), 3%R. split; [lra|]. split; [lra|]. intros ek H0.
  assert (M : forall x D : R, (D <> 0)%R -> triangular_gf_z ek (RtoC x) D = if Req_EM_T x (- 1) then Err NonFinite else tri_core ek (RtoC (x / (D * 4 / 9))) (D * 4 / 9)).
  { intros x D HD. unfold triangular_gf_z. cbv zeta. rewrite rdiv_ok' by lra. cbn [bind]. replace (RtoC (1 / (D * 4 / 9)) * RtoC x) with (RtoC (x / (D * 4 / 9))) by (rewrite <- RtoC_mult; f_equal; field; lra).
    unfold cneg. cbn [snd RtoC]. destruct (Rlt_dec 0 0) as [L|_]; [lra|]. replace (RtoC (D * 4 / 9) * RtoC (x / (D * 4 / 9))) with (RtoC x) by (rewrite <- RtoC_mult; f_equal; field; lra).
    destruct (Ceq_dec (RtoC x) (- (1))) as [E|N], (Req_EM_T x (- 1)) as [E'|N']; try reflexivity.
    - exfalso. apply N'. apply (f_equal fst) in E. cbn in E. lra.
    - exfalso. apply N. rewrite E'. apply C_ext; cbn; ring.
    - destruct (tri_core ek _ _); reflexivity. }
  split.
  - rewrite M by lra. destruct (Req_EM_T (- 2) (- 1)); [lra|]. replace (- 2 / (3 * 4 / 9))%R with (- (3 / 2))%R by field. unfold tri_core. cbv zeta.
    assert (E0 : 2 * RtoC (- (3 / 2)) + 3 = RtoC 0) by (rewrite <- RtoC_mult, <- RtoC_plus; f_equal; lra). rewrite E0.
    assert (T : forall x : R, (0 <= x)%R -> tri_signed_sqrt (RtoC x) = RtoC (sqrt x)).
    { intros x Hx. unfold tri_signed_sqrt, cneg. cbn [fst snd RtoC]. destruct (Rlt_dec 0 0); [lra|]. rewrite andb_false_r. apply csqrt_R, Hx. }
    rewrite (T 0%R), sqrt_0 by lra. rewrite (T 0%R), sqrt_0 by lra. replace (RtoC 0 + 3) with (RtoC 3) by ring. rewrite (T 3%R) by lra.
    assert (T1 : tri_signed_sqrt (RtoC 0 - 1) = Ci).
    { replace (RtoC 0 - 1) with (RtoC (- (1))) by (apply C_ext; cbn; ring). unfold tri_signed_sqrt, cneg. cbn [fst snd RtoC]. destruct (Rlt_dec 0 0); [lra|]. rewrite andb_false_r, csqrt_neg, sqrt_1 by lra. reflexivity. }
    rewrite T1. assert (S := sqrt_lt_R0 3 ltac:(lra)).
    rewrite cdiv_ok. 2:{ intros E. apply (f_equal snd) in E. cbn in E. lra. }
    cbn [bind]. match goal with |- context [RtoC 0 * ?g] => replace (RtoC 0 * g) with (RtoC 0) by ring end. replace (RtoC 0 * RtoC 0) with (RtoC 0) by ring. rewrite H0. cbn [bind].
    unfold cneg. cbn [snd RtoC]. destruct (Rlt_dec (- 0) 0); [lra|]. cbn [bind]. rewrite rdiv_ok' by lra. cbn [bind]. eexists. reflexivity.
  - replace (RtoC (1 / 2) * RtoC (- 2)) with (RtoC (- 1)) by (rewrite <- RtoC_mult; f_equal; field). rewrite M by lra. destruct (Req_EM_T (- 1) (- 1)); [reflexivity|lra].
Qed.
Print Assumptions C51_triangular_scaling_refuted.

(** ** C65 *)
(** bipartite lattices: G(-z) = -G(z), with the same errors, whatever the elliptic integrals and the parents are *)
Theorem C65_odd : forall (ellipk : C -> result C) (parent : C -> R -> result C) (scale Z : R) (z : C) (D : R),
  List.Forall (fun f : C -> R -> result C => f (- z) D = match f z D with Ok g => Ok (- g) | Err e => Err e end)
    (bethe_gf_z :: (fun z D => bethez_gf_z z D Z) :: onedim_gf_z :: square_gf_z ellipk :: (fun z D => rectangular_gf_z ellipk z D scale) ::
     sc_gf_z ellipk :: bcc_gf_z ellipk :: lieb_gf_z parent :: honeycomb_gf_z parent :: nil).
Proof.
  intros ek par scale Z z D. assert (K : forall f, odd_gf f -> f (- z) D = match f z D with Ok g => Ok (- g) | Err e => Err e end).
  { intros f Hf. rewrite (Hf z D). destruct (f z D); reflexivity. }
  repeat apply List.Forall_cons; try apply List.Forall_nil.
  - apply K, bethe_odd. - apply (K (fun z D => bethez_gf_z z D Z)), bethez_odd. - apply K, onedim_odd. - apply K, square_odd. - apply (K (fun z D => rectangular_gf_z ek z D scale)), rectangular_odd.
  - apply K, sc_odd. - apply K, bcc_odd. - apply K, lieb_odd. - apply K, honeycomb_odd.
Qed.
Print Assumptions C65_odd.
Theorem C65_odd_box : forall (z : C) (D : R), D <> 0%R -> snd z <> 0%R -> box_gf_z (- z) D = match box_gf_z z D with Ok g => Ok (- g) | Err e => Err e end.
Proof. intros z D HD Hz. rewrite (box_odd D z HD Hz). destruct (box_gf_z z D); reflexivity. Qed.
Print Assumptions C65_odd_box.
Theorem C65_even : forall (ellipk : C -> result C) (ellipkm1 : R -> result R) (parent : R -> R -> result R) (small x D : R),
  List.Forall (fun f : R -> R -> result R => f (- x)%R D = f x D) (square_dos ellipkm1 :: sc_dos ellipk small :: bcc_dos ellipk :: lieb_dos parent :: honeycomb_dos parent :: nil).
Proof.
  intros ek ekm par small x D. repeat apply List.Forall_cons; try apply List.Forall_nil.
  - apply square_dos_even. - apply sc_dos_even. - apply bcc_dos_even. - apply lieb_dos_even. - apply honeycomb_dos_even.
Qed.
Print Assumptions C65_even.

(** Schwarz reflection off the real axis: advanced and retarded Green's functions are conjugate *)
Theorem C65_conj : forall (ellipk : C -> result C) (Z : R) (z : C) (D : R), (0 < D)%R -> snd z <> 0%R ->
  List.Forall (fun f : C -> R -> result C => f (Cconj z) D = match f z D with Ok g => Ok (Cconj g) | Err e => Err e end)
    (bethe_gf_z :: (fun z D => bethez_gf_z z D Z) :: onedim_gf_z :: box_gf_z :: triangular_gf_z ellipk :: fcc_gf_z ellipk :: nil).
Proof.
  intros ek Z z D HD Hz. repeat apply List.Forall_cons; try apply List.Forall_nil.
  - rewrite bethe_conj by lra. destruct (bethe_gf_z z D); reflexivity. - rewrite bethez_conj by lra. destruct (bethez_gf_z z D Z); reflexivity.
  - rewrite onedim_conj by lra. destruct (onedim_gf_z z D); reflexivity. - rewrite box_conj by lra. destruct (box_gf_z z D); reflexivity.
  - assert (K := tri_conj_off ek D HD z Hz). cbn beta in K. rewrite K. destruct (triangular_gf_z ek z D); reflexivity.
  - assert (K := fcc_conj_off ek D HD z Hz). cbn beta in K. rewrite K. destruct (fcc_gf_z ek z D); reflexivity.
Qed.
Print Assumptions C65_conj.
Theorem C65_conj_elliptic : forall (ellipk : C -> result C) (scale : R) (z : C) (D : R), (0 < D)%R -> (0 < scale)%R -> snd z <> 0%R ->
  (forall m : C, snd m <> 0%R \/ (fst m < 1)%R -> ellipk (Cconj m) = match ellipk m with Ok k => Ok (Cconj k) | Err e => Err e end) ->
  List.Forall (fun f : C -> R -> result C => f (Cconj z) D = match f z D with Ok g => Ok (Cconj g) | Err e => Err e end)
    (square_gf_z ellipk :: (fun z D => rectangular_gf_z ellipk z D scale) :: bcc_gf_z ellipk :: nil).
Proof.
  intros ek s z D HD Hs Hz Hk. assert (Hk' : forall m : C, snd m <> 0%R \/ (fst m < 1)%R -> ek (Cconj m) = sconj (ek m)) by (intros m Hm; rewrite (Hk m Hm); destruct (ek m); reflexivity).
  repeat apply List.Forall_cons; try apply List.Forall_nil.
  - rewrite (square_conj ek Hk') by lra. destruct (square_gf_z ek z D); reflexivity. - rewrite (rectangular_conj ek Hk') by lra. destruct (rectangular_gf_z ek z D s); reflexivity.
  - rewrite (bcc_conj ek Hk') by lra. destruct (bcc_gf_z ek z D); reflexivity.
Qed.
Print Assumptions C65_conj_elliptic.
Theorem C65_conj_derived : forall (ellipk : C -> result C) (z : C) (D : R), (0 < D)%R -> snd z <> 0%R ->
  (forall m : C, snd m <> 0%R \/ (fst m < 1)%R -> ellipk (Cconj m) = match ellipk m with Ok k => Ok (Cconj k) | Err e => Err e end) ->
  let reflected := fun f : C -> R -> result C => f (Cconj z) D = match f z D with Ok g => Ok (Cconj g) | Err e => Err e end in
  (fst z <> 0%R -> reflected (lieb_gf_z (square_gf_z ellipk)) /\ reflected (honeycomb_gf_z (triangular_gf_z ellipk))) /\
  (fst z <> (D / 3)%R -> reflected (kagome_gf_z (triangular_gf_z ellipk))).
Proof.
  intros ek z D HD Hz Hk reflected. assert (Hk' : forall m : C, snd m <> 0%R \/ (fst m < 1)%R -> ek (Cconj m) = sconj (ek m)) by (intros m Hm; rewrite (Hk m Hm); destruct (ek m); reflexivity).
  unfold reflected. split; [intros Hx; split|intros Hx].
  - rewrite lieb_conj; [destruct (lieb_gf_z _ z D); reflexivity|lra|intros w Hw; apply (square_conj ek Hk'); [lra|exact Hw]|exact Hx|exact Hz].
  - rewrite honeycomb_conj; [destruct (honeycomb_gf_z _ z D); reflexivity|lra|apply tri_conj_off; lra|exact Hx|exact Hz].
  - rewrite kagome_conj; [destruct (kagome_gf_z _ z D); reflexivity|lra|apply tri_conj_off; lra|exact Hx|exact Hz].
Qed.
Print Assumptions C65_conj_derived.

(** bcc.dos is the spectral function of bcc.gf_z; the logarithmic singularity at the band centre is excluded *)
Theorem C65_bcc_dos : forall (ellipk : C -> result C) (e D : R), elliptic_like ellipk -> (0 < D)%R -> e <> 0%R ->
  exists g, boundary (bcc_gf_z ellipk) e D g /\ bcc_dos ellipk e D = Ok (- snd g / PI)%R.
Proof. exact bcc_boundary. Qed.
Print Assumptions C65_bcc_dos.

(** the first two terms of the elliptic integral meet the hypothesis; band centre of the upper half, e = D = 1 *)
Definition ellip2 (m : C) : result C := Ok (RtoC (PI / 2) + RtoC (PI / 8) * m).
Lemma ellip2_like : elliptic_like ellip2.
Proof.
  intros m _. exists (RtoC (PI / 2) + RtoC (PI / 8) * m). split; [reflexivity|]. split; [unfold ellip2; f_equal; cj; reflexivity|].
  assert (P := PI_RGT_0). intros t Ht. exists (t / PI)%R. split; [apply Rdiv_lt_0_compat; assumption|]. intros w Hw. eexists. split; [reflexivity|].
  replace (RtoC (PI / 2) + RtoC (PI / 8) * w - (RtoC (PI / 2) + RtoC (PI / 8) * m)) with (RtoC (PI / 8) * (w - m)) by ring. rewrite Cmod_mult, Cmod_R, Rabs_pos_eq by lra.
  assert (X : (PI * Cmod (w - m)%C < t)%R). { apply (Rmult_lt_reg_r (/ PI)); [apply Rinv_0_lt_compat, P|]. replace (PI * Cmod (w - m)%C * / PI)%R with (Cmod (w - m)%C) by (field; lra). exact Hw. }
  assert (G := Cmod_ge_0 (w - m)%C). assert (G2 := Rmult_le_pos PI _ ltac:(lra) G). lra.
Qed.
Example C65_example : exists g, boundary (bcc_gf_z ellip2) (1 / 2) 1 g /\ bcc_dos ellip2 (1 / 2) 1 = Ok (9 * sqrt 3 / (16 * PI))%R /\ (- snd g / PI = 9 * sqrt 3 / (16 * PI))%R.
Proof.
  assert (P := PI_RGT_0). assert (V : bcc_dos ellip2 (1 / 2) 1 = Ok (9 * sqrt 3 / (16 * PI))%R).
  { unfold bcc_dos. rewrite rdiv_ok' by lra. cbn [bind]. destruct (Req_EM_T _ 0); [lra|]. rewrite !Rabs_pos_eq by lra. destruct (Rle_dec _ 1); [|lra].
    replace (1 / (1 / 2 / 1 * (1 / 2 / 1)) - 1)%R with 3%R by field. unfold ellip2. cbn [bind]. rewrite rdiv_ok'. 2:{ apply Rgt_not_eq, Rmult_lt_0_compat; [apply Rmult_lt_0_compat; [apply Rmult_lt_0_compat; assumption|assumption]|lra]. }
    cbn [bind]. f_equal. cbn. field. lra. }
  destruct (C65_bcc_dos ellip2 (1 / 2)%R 1%R ellip2_like ltac:(lra) ltac:(lra)) as (g & B & E). exists g. split; [exact B|]. split; [exact V|]. rewrite V in E. injection E as E. symmetry. exact E.
Qed.
