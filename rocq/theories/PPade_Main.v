(** * The main theorem on continuation *)
From Coq Require Import List Arith ZArith Lia Lra Bool Reals Field Permutation FinFun.
From Coquelicot Require Import Complex.
From Verif Require Import Base FSum CBase LinPred_Burg Herm_Model Herm_Spec Herm_Proofs Herm_Gauss Pade_Spec PadeKind_Proofs Linalg_Model Linalg_Proofs Mat Cauchy Backend
  NPoles_Model NPoles_Proofs Rat_Model Pole_Model PPade_Lin PPade_Rank PPade_Rat PPade_Spec PPade_Model PPade_Basis PPade_Proofs PPade_Cont.
Import ListNotations.
Local Open Scope fld_scope.
Ltac cring := PPade_Basis.cring.

Section Rot.
Variable i : CF.
Hypothesis Hi : i <> 0.
Definition rot_pr (pr : list (CF * CF)) : list (CF * CF) := map (fun a => (fst a / i, snd a / i)) pr.
Lemma rot_fst pr : map fst (rot_pr pr) = map (fun x => x / i) (map fst pr).
Proof. unfold rot_pr. now rewrite !map_map. Qed.
Lemma rot_snd pr : map snd (rot_pr pr) = map (fun x => x / i) (map snd pr).
Proof. unfold rot_pr. now rewrite !map_map. Qed.
Lemma rot_in l x : In (x / i) (map (fun x => x / i) l) <-> In x l.
Proof. split; [|intros H; apply in_map_iff; now exists x]. intros H. apply in_map_iff in H. destruct H as (y & E & Hy). apply (div_inj CF i y x Hi) in E. now subst. Qed.
Lemma rot_polesum c pr x : ~ In x (map fst pr) -> polesum c (rot_pr pr) (x / i) = polesum c pr x.
Proof.
  intros Hx. unfold polesum. f_equal. unfold rot_pr. rewrite map_map. f_equal. apply map_ext_in. intros a Ha. cbn [fst snd]. apply gscale_term; [exact Hi|].
  intros E. rewrite (fsub_eq0 CF) in E. apply Hx. rewrite E. now apply in_map.
Qed.
Lemma rot_back l : map (fun x => i * x) (map (fun x => x / i) l) = l.
Proof. rewrite map_map. rewrite <- (map_id l) at 2. apply map_ext. intros x. now apply gmul_div. Qed.
Lemma rot_nodup l : NoDup l -> NoDup (map (fun x => x / i) l).
Proof. intros H. apply Injective_map_NoDup; [|exact H]. intros x y. now apply div_inj. Qed.
Lemma rot_lsum (l : list CF) : lsum (map (fun x => x / i) l) = lsum l / i.
Proof. rewrite (map_ext _ (fun x => x * Finv i)) by (intros x; apply (Fdiv_def (Fth CF))). rewrite lsum_map_mul_r, map_id. symmetry. apply (Fdiv_def (Fth CF)). Qed.
Lemma div_i_neq0 x : x <> 0 -> x / i <> 0.
Proof. intros H E. apply H. rewrite <- (gmul_div CF i x Hi), E. cring. Qed.
Lemma samples_rot c pr dn w z fct : samples_of c pr dn w z fct -> samples_of c (rot_pr pr) dn w (map (fun x => x / i) z) fct.
Proof.
  intros [H1 H2 H3 H4 H5 H6 H7 H8 H9]. constructor.
  - rewrite rot_fst. now apply rot_nodup.
  - intros a Ha. unfold rot_pr in Ha. apply in_map_iff in Ha. destruct Ha as (a' & <- & Ha). cbn [snd]. apply div_i_neq0. now apply H2.
  - destruct H3 as [H3|(E1 & E2 & E3)]; [now left|right]. split; [exact E1|]. split; [exact E2|]. rewrite rot_snd, rot_lsum. now apply div_i_neq0.
  - now apply rot_nodup.
  - intros x Hx. apply in_map_iff in Hx. destruct Hx as (y & <- & Hy). rewrite rot_fst, rot_in. now apply H5.
  - rewrite H6, map_map. apply map_ext_in. intros x Hx. symmetry. apply rot_polesum. now apply H5.
  - intros x Hx. apply in_map_iff in Hx. destruct Hx as (y & <- & Hy). rewrite rot_polesum by now apply H5. now apply H7.
  - rewrite map_length. exact H8.
  - unfold rot_pr. rewrite !map_length. exact H9.
Qed.
Lemma rot_amp c pr dn w z fct : samples_of c pr dn w z fct -> amplitude c (rot_pr pr) * fpow i dn = amplitude c pr.
Proof.
  intros H. unfold amplitude. destruct (so_deg _ _ _ _ _ _ H) as [(-> & Hc)|(-> & Hc & Hr)]; destruct (Feq_dec c 0) as [E|E]; try contradiction.
  - cbn [fpow]. cring.
  - rewrite rot_snd, rot_lsum. cbn [fpow]. transitivity (i * (lsum (map snd pr) / i)); [cring|]. now apply gmul_div.
Qed.
End Rot.

Section Main.
Variable phi : nat -> CF -> CF.
Hypothesis Hphi : graded phi.
Variables (qr qrr : mat CF -> mat CF * mat CF) (svd : mat CF -> list R * mat CF) (eig : mat CF -> mat CF -> list CF) (median : list CF -> CF) (real_close0 : list CF -> bool)
  (solve_triangular : mat CF -> list CF -> result (list CF)) (lstsq : mat CF -> list CF -> list CF * list CF) (allclose0 : list CF -> bool) (tol : R).
Hypothesis HB : backend_ok CF Cconj cle qr solve_triangular lstsq allclose0.
Hypothesis Hqrr : forall A, qrr_spec CF A (qrr A).
Hypothesis Hsvd : forall M, svd_spec M (svd M).
Hypothesis Heig : eig_ok eig.
Hypothesis Htol : (0 < tol)%R.
Notation continuation := (continuation phi qr qrr svd eig median real_close0 solve_triangular lstsq allclose0 tol).

Variables (c : CF) (pr : list (CF * CF)) (dn : nat) (weight : option (list R)) (z fct : list CF) (rotate : option bool).
Hypothesis HS : samples_of c pr dn weight z fct.
Hypothesis Hmed : median fct <> 0.
Hypothesis Hk : (dn < length pr)%nat.
Let degree := (- Z.of_nat dn)%Z.
Let k := length pr.
Let rot := match rotate with Some b => b | None => real_close0 z end.
Let zr := if rot then map (fun x : CF => x / (Ci : CF)) z else z.
Let back := fun l : list CF => if rot then map (fun x : CF => (Ci : CF) * x) l else l.

Lemma Ci_neq0 : (Ci : CF) <> 0.
Proof. intros E. apply (f_equal snd) in E. cbn in E. lra. Qed.
Lemma back_zr : back zr = z.
Proof. unfold back, zr. destruct rot; [|reflexivity]. apply rot_back. exact Ci_neq0. Qed.

Lemma roots_back : exists pls' zrs', poles phi qr qrr svd eig median zr fct (Some (Z.of_nat k + degree)%Z) k weight = Ok pls' /\
  zeros phi qr qrr svd eig median zr fct pls' (Some (Z.of_nat k + degree)%Z) weight = Ok zrs' /\
  length (back pls') = k /\ length (back zrs') = (k - dn)%nat /\ (forall x, prodsub CF (back pls') x = prodsub CF (map fst pr) x) /\
  (forall x, ~ In x (map fst pr) -> polesum c pr x * prodsub CF (back pls') x = amplitude c pr * prodsub CF (back zrs') x).
Proof.
  assert (Hqr : forall A, qr_spec CF Cconj A (qr A)) by apply HB.
  unfold zr, back. destruct rot.
  - set (i := Ci : CF). assert (Hi := Ci_neq0). fold i in Hi.
    assert (HS' := samples_rot i Hi c pr dn weight z fct HS). assert (Lk : length (rot_pr i pr) = k) by (unfold rot_pr; apply map_length).
    destruct (frame_roots c (rot_pr i pr) dn weight (map (fun x => x / i) z) fct HS' phi Hphi qr qrr svd eig median Hqr Hqrr Hsvd Heig Hmed) as (pls & zrs & P1 & P2 & P3 & P4 & P5 & P6); [rewrite Lk; exact Hk|].
    rewrite Lk in *. exists pls, zrs. split; [exact P1|]. split; [exact P2|]. rewrite !map_length. split; [exact P3|]. split; [exact P4|].
    assert (Q : forall x, prodsub CF (map (fun x => i * x) pls) x = prodsub CF (map fst pr) x).
    { intros x. rewrite <- (rot_back i Hi (map fst pr)). rewrite !(prodsub_scale CF i _ x Hi). rewrite P5, rot_fst, !map_length. rewrite P3. reflexivity. }
    split; [exact Q|]. intros x Hx. rewrite !(prodsub_scale CF i _ x Hi), P3, P4.
    assert (E := P6 (x / i)). rewrite rot_fst, rot_in in E by exact Hi. specialize (E Hx). rewrite (rot_polesum i Hi) in E by exact Hx.
    transitivity (fpow i k * (polesum c pr x * prodsub CF pls (x / i))); [cring|]. rewrite E. rewrite <- (rot_amp i Hi _ _ _ _ _ _ HS).
    assert (F : fpow i k = fpow i dn * fpow i (k - dn)) by (rewrite <- (fpow_add' CF); f_equal; unfold k; lia). rewrite F. cring.
  - exact (frame_roots c pr dn weight z fct HS phi Hphi qr qrr svd eig median Hqr Hqrr Hsvd Heig Hmed Hk).
Qed.
Lemma zr_samples : exists pr', samples_of c pr' dn weight zr fct /\ length pr' = k.
Proof.
  unfold zr. destruct rot; [exists (rot_pr (Ci : CF) pr); split; [apply samples_rot; [exact Ci_neq0|exact HS]|unfold rot_pr; apply map_length]|exists pr; split; [exact HS|reflexivity]].
Qed.

Lemma combine_fst_snd (l : list (CF * CF)) : combine (map fst l) (map snd l) = l.
Proof. induction l as [|[a b] l IH]; [reflexivity|]. cbn [map combine fst snd]. now rewrite IH. Qed.

Theorem continuation_exact moms real_asymp :
  (match weight with None => True | Some w => rsum w <> 0%R end) ->
  (length moms <= k)%nat -> (forall j, (j < length moms)%nat -> nth j moms 0 = true_moment pr j) ->
  (real_asymp = true -> Im (amplitude c pr) = 0%R) ->
  (2 * Z.min ((Z.of_nat (length z) - degree) / 2) 50 + degree < Z.of_nat (length z))%Z ->
  (forall n, (0 <= n <= (Z.of_nat (length z) - degree) / 2)%Z -> resolved tol (np_mat phi qrr zr fct weight degree n) (fst (svd (np_mat phi qrr zr fct weight degree n)))) ->
  exists fuel, forall fuel', (fuel <= fuel')%nat -> exists pade, continuation fuel' z fct degree weight moms rotate real_asymp = Ok pade /\
    length (pa_poles pade) = length (pa_residues pade) /\ Permutation (combine (pa_poles pade) (pa_residues pade)) pr /\
    pa_amplitude pade = amplitude c pr /\ length (pa_zeros pade) = (k - dn)%nat /\
    forall x, ~ In x (map fst pr) -> eval_polefct pade x = Ok (polesum c pr x) /\ eval_zeropole pade x = Ok (polesum c pr x).
Proof.
  intros HW HM HMom HR Hstart Hres.
  destruct zr_samples as (pr' & HS' & Lpr'). assert (Lzr : length zr = length z) by (unfold zr; destruct rot; [apply map_length|reflexivity]).
  destruct (frame_number c pr' dn weight zr fct HS' phi Hphi qrr svd tol Hqrr Hsvd Htol None) as [fuel Hfuel]; [rewrite Lzr; exact Hstart|rewrite Lzr; exact Hres|].
  rewrite Lpr' in Hfuel. exists fuel. intros fuel' Hf. specialize (Hfuel fuel' Hf).
  destruct roots_back as (pls & zrs & P1 & P2 & P3 & P4 & P5 & P6).
  assert (Hdeg : dn = 0%nat \/ dn = 1%nat) by (destruct (so_deg _ _ _ _ _ _ HS) as [(E & _)|(E & _)]; lia).
  assert (Lf : length fct = length z) by (rewrite (so_f _ _ _ _ _ _ HS); apply map_length).
  assert (Nz : (2 * k + 5 <= length z + dn)%nat) by exact (so_n _ _ _ _ _ _ HS).
  assert (Fi : forall i, (i < length z)%nat -> nth i fct 0 = polesum c pr (nth i z 0)) by (intros i Hi; apply (f_nth _ _ _ _ _ _ HS i Hi)).
  assert (Off : forall x, In x z -> ~ In x (map fst pr)) by exact (so_off _ _ _ _ _ _ HS).
  assert (Q0 : forall x, ~ In x (map fst pr) -> prodsub CF (back pls) x <> 0) by (intros x Hx; rewrite P5, (prodsub_eq0 CF); exact Hx).
  destruct (asymptotic_exact z fct (back zrs) (back pls) weight (amplitude c pr) Lf ltac:(lia)) as [std Hstd].
  { intros i Hi. assert (In (nth i z 0) z) as Iz by now apply nth_In. assert (E := P6 _ (Off _ Iz)). rewrite Fi by exact Hi. split; [|exact E].
    intros Z0. rewrite Z0 in E. assert (X : polesum c pr (nth i z 0) * prodsub CF (back pls) (nth i z 0) = 0) by (rewrite E; cring).
    destruct (fmul_eq0 CF _ _ X) as [F|F]; [exact (so_f0 _ _ _ _ _ _ HS _ Iz F)|exact (Q0 _ (Off _ Iz) F)]. }
  { assert (W := so_w _ _ _ _ _ _ HS). destruct weight; [split; [apply W|exact HW]|exact I]. }
  assert (NDp := so_nodup _ _ _ _ _ _ HS).
  assert (Perm : Permutation (back pls) (map fst pr)) by (apply (same_roots_perm CF); [exact NDp|rewrite map_length; exact P3|exact P5]).
  destruct (Permutation_map_inv _ _ Perm) as (pr2 & Epls & Perm2).
  assert (ND2 : NoDup (map fst pr2)) by (rewrite <- Epls; apply (Permutation_NoDup (Permutation_sym Perm)); exact NDp).
  assert (L2 : length pr2 = k) by (symmetry; apply Permutation_length; exact Perm2).
  assert (In2 : forall x, In x (map fst pr2) <-> In x (map fst pr)).
  { intros x. rewrite <- Epls. split; apply Permutation_in; [exact Perm|now apply Permutation_sym]. }
  assert (PS2 : forall x, lsum (map (fun a => snd a / (x - fst a)) pr2) = lsum (map (fun a => snd a / (x - fst a)) pr)) by (intros x; apply lsum_perm; now apply Permutation_sym).
  set (a := amplitude c pr).
  assert (Ra : (if real_asymp then RtoC (Re a) else a) = a).
  { destruct real_asymp; [|reflexivity]. apply C_ext; cbn [fst snd RtoC]; [reflexivity|]. symmetry. exact (HR eq_refl). }
  set (g := if (degree =? 0)%Z then map (fun x : CF => x - a) fct else fct).
  assert (Hg : forall i, (i < length z)%nat -> nth i g 0 = lsum (map (fun b => snd b / (nth i z 0 - fst b)) pr2)).
  { intros i Hi. rewrite PS2. unfold g, a, amplitude. destruct (so_deg _ _ _ _ _ _ HS) as [(E & Hc)|(E & Hc & _)]; destruct (Feq_dec c 0) as [X|X]; try contradiction.
    - destruct (Z.eqb_spec degree 0) as [_|Y]; [|unfold degree in Y; lia]. rewrite (nth_map_in _ _ _ _ (0 : CF)) by lia. rewrite Fi by exact Hi. unfold polesum. cring.
    - destruct (Z.eqb_spec degree 0) as [Y|_]; [unfold degree in Y; lia|]. rewrite Fi by exact Hi. unfold polesum. rewrite Hc. cring. }
  assert (Hresid : exists e, residues_ols qr solve_triangular lstsq allclose0 z g (map fst pr2) weight moms = Ok (map snd pr2, e)).
  { apply (residues_exact qr solve_triangular lstsq allclose0 HB); [exact ND2|unfold k in L2; lia|lia|exact (so_z _ _ _ _ _ _ HS)| |exact Hg|exact (w_neq0 _ _ _ _ _ _ HS)|lia|].
    - intros x Hx. rewrite In2. now apply Off.
    - intros j Hj. rewrite HMom by exact Hj. unfold true_moment. now apply lsum_perm. }
  destruct Hresid as [err Hresid]. exists (PadeApprox (back zrs) (back pls) (map snd pr2) a).
  split; [|split; [|split; [|split; [|split]]]]; cbn [pa_poles pa_residues pa_amplitude pa_zeros].
  - change (number_poles_data phi qrr svd tol fuel' zr fct degree weight None = Ok (Z.of_nat k, false)) in Hfuel. unfold PPade_Model.continuation. destruct (Z.ltb_spec 0 degree) as [X|_]; [unfold degree in X; lia|]. fold rot. fold zr. rewrite Hfuel. cbn [bind fst]. rewrite Nat2Z.id. rewrite P1. cbn [bind]. rewrite P2. cbn [bind].
    change (if rot then map (fun x : CF => (Ci : CF) * x) zr else zr) with (back zr). rewrite back_zr.
    change (if rot then map (fun x : CF => (Ci : CF) * x) zrs else zrs) with (back zrs). change (if rot then map (fun x : CF => (Ci : CF) * x) pls else pls) with (back pls).
    rewrite Hstd. cbn [bind fst]. fold a. rewrite Ra. fold g. rewrite Epls, Hresid. reflexivity.
  - rewrite Epls, !map_length. reflexivity.
  - rewrite Epls, combine_fst_snd. now apply Permutation_sym.
  - reflexivity.
  - exact P4.
  - intros x Hx. split.
    + unfold eval_polefct. cbn [pa_poles pa_residues pa_amplitude pa_zeros]. rewrite P3, P4. destruct (Nat.leb_spec (k - dn) k) as [_|X]; [|lia].
      unfold gf_z. destruct (existsb _ _) eqn:EX.
      * exfalso. apply existsb_exists in EX. destruct EX as (p & Hp & E). unfold feqb in E. destruct (Feq_dec (x - p) 0) as [F|F]; [|discriminate]. rewrite (fsub_eq0 CF x p) in F. subst p. apply Hx. apply In2. now rewrite <- Epls.
      * cbn [bind]. f_equal. rewrite Epls, combine_fst_snd. rewrite PS2. unfold polesum. f_equal. unfold a, amplitude.
        destruct (so_deg _ _ _ _ _ _ HS) as [(E & Hc)|(E & Hc & _)]; destruct (Feq_dec c 0) as [X|X]; try contradiction.
        -- destruct (Nat.eqb_spec (k - dn) k) as [_|Y]; [reflexivity|lia].
        -- destruct (Nat.eqb_spec (k - dn) k) as [Y|_]; [unfold k in *; lia|now rewrite Hc].
    + unfold eval_zeropole, zp_eval, fdiv. cbn [zp_poles zp_zeros zp_amplitude pa_poles pa_amplitude pa_zeros]. rewrite !(prod_prodsub). destruct (Feq_dec _ 0) as [F|F]; [contradiction (Q0 x Hx)|]. f_equal. unfold a. rewrite <- P6 by exact Hx.
      apply (fmul_cancel_l CF (prodsub CF (back pls) x) _ _ F). transitivity (polesum c pr x * prodsub CF (back pls) x / prodsub CF (back pls) x * prodsub CF (back pls) x); [cring|]. rewrite fdiv_mul by exact F. cring.
Qed.
End Main.
