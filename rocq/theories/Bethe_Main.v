(** * Bethe lattice: functional equation, derivatives, coordination number *)
From Coq Require Import Reals Lra Psatz Field.
From Coquelicot Require Import Coquelicot.
From Verif Require Import Base CBase CExp CSqrt Lattice_Model Bethe_Proofs.
Local Open Scope C_scope.

Section M.
Variable D : R.
Hypothesis HD : (0 < D)%R.
Lemma DC : RtoC D <> 0. Proof. apply RtoC_neq0. lra. Qed.
Lemma zD_neq (z : C) : z <> 0 -> z / D <> 0. Proof. intros H. apply Cdiv_neq0; [exact H|exact DC]. Qed.
Lemma zD_split (z : C) : fst (z / D) = (fst z / D)%R /\ snd (z / D) = (snd z / D)%R.
Proof. replace (z / D) with (z * RtoC (/ D)) by (rewrite RtoC_inv by lra; reflexivity). split; cbn; field; lra. Qed.
(** z outside of the band [-D, D] *)
Definition off_band (z : C) : Prop := snd z <> 0%R \/ (D < Rabs (fst z))%R.
Lemma off_band_neq0 z : off_band z -> z <> 0.
Proof. intros [H|H] ->; cbn in H; [lra|rewrite Rabs_R0 in H; lra]. Qed.
Lemma off_band_cut z : off_band z -> cutfree (z / D).
Proof.
  unfold off_band, cutfree. destruct (zD_split z) as [-> ->]. intros [H|H]; [left|right].
  - intros E. apply H. apply (Rmult_eq_reg_r (/ D)); [|apply Rinv_neq_0_compat; lra]. rewrite Rmult_0_l. exact E.
  - unfold Rdiv. rewrite Rabs_mult, (Rabs_pos_eq (/ D)) by (left; apply Rinv_0_lt_compat; lra).
    apply (Rmult_lt_reg_r D); [lra|]. rewrite Rmult_assoc, Rinv_l by lra. lra.
Qed.

Lemma bethe_ok (z : C) : z <> 0 -> bethe_gf_z z D = Ok (2 / D * uu (z / D)).
Proof.
  intros H. unfold bethe_gf_z. rewrite cdiv_ok by exact DC. cbn [bind]. assert (N := zD_neq z H).
  rewrite cdiv_ok by (apply Cmult_neq_0; exact N). cbn [bind]. f_equal. unfold uu, sq. ring.
Qed.
Lemma bethe_zero : bethe_gf_z 0 D = Err NonFinite.
Proof.
  unfold bethe_gf_z. rewrite cdiv_ok by exact DC. cbn [bind]. unfold cdiv. destruct (Ceq_dec _ 0) as [|N]; [reflexivity|].
  exfalso. apply N. field. exact DC.
Qed.
Lemma bethe_inv (z G : C) : bethe_gf_z z D = Ok G -> z <> 0 /\ G = 2 / D * uu (z / D).
Proof.
  intros H. destruct (Ceq_dec z 0) as [->|N]; [rewrite bethe_zero in H; discriminate|]. rewrite (bethe_ok z N) in H. injection H as <-. now split.
Qed.

Lemma quarter : RtoC (1 / 2 * D) = D / 2.
Proof. rewrite RtoC_mult, RtoC_div by lra. field. exact C2_neq0. Qed.

Theorem bethe_equation (z G : C) : bethe_gf_z z D = Ok G ->
  (D / 2) * (D / 2) * (G * G) - z * G + 1 = 0 /\ bethe_gf_z_inv G D = Ok z.
Proof.
  intros H. apply bethe_inv in H. destruct H as [Hz ->]. set (w := z / D). assert (Hw : w <> 0) by now apply zD_neq.
  assert (Ez : z = w * D) by (unfold w; field; exact DC). assert (U := uu_quad w Hw). assert (N := uu_neq0 w Hw). assert (DC := DC). set (u := uu w) in *.
  assert (X : (D / 2) * (D / 2) * (2 / D * u * (2 / D * u)) - z * (2 / D * u) + 1 = 0).
  { rewrite Ez. transitivity (u * u - 2 * w * u + 1); [|exact U]. field. split; [exact DC|exact C2_neq0]. }
  split; [exact X|]. unfold bethe_gf_z_inv. assert (NG : 2 / D * u <> 0) by (apply Cmult_neq_0; [apply Cdiv_neq0; [exact C2_neq0|exact DC]|exact N]).
  rewrite cdiv_ok by exact NG. cbn [bind]. f_equal. rewrite !quarter. set (G := 2 / D * u) in *.
  transitivity (((D / 2) * (D / 2) * (G * G) - z * G + 1 + z * G) / G); [field; repeat split; first [exact NG|exact C2_neq0]|]. rewrite X. field. exact NG.
Qed.

Theorem bethe_bound (z G : C) : bethe_gf_z z D = Ok G -> (Cmod G <= 2 / D)%R.
Proof.
  intros H. apply bethe_inv in H. destruct H as [Hz ->]. assert (Hw := zD_neq z Hz). assert (L := uu_le _ Hw).
  rewrite Cmod_mult, Cmod_div by exact DC. rewrite !Cmod_R, !Rabs_pos_eq by lra. assert (0 < 2 / D)%R by (apply Rdiv_lt_0_compat; lra). nra.
Qed.
Theorem bethe_im (z G : C) : bethe_gf_z z D = Ok G -> ((0 < snd z)%R -> (snd G < 0)%R) /\ ((snd z < 0)%R -> (0 < snd G)%R).
Proof.
  intros H. apply bethe_inv in H. destruct H as [Hz ->]. assert (Hw := zD_neq z Hz). destruct (uu_im _ Hw) as [_ I]. destruct (zD_split z) as [_ Es]. rewrite Es in I.
  assert (P : (0 < 2 / D)%R) by (apply Rdiv_lt_0_compat; lra).
  assert (E : snd (2 / D * uu (z / D)) = (2 / D * snd (uu (z / D)%C))%R).
  { replace (2 / D * uu (z / D)) with (RtoC (2 / D) * uu (z / D)) by (rewrite RtoC_div by lra; reflexivity). unfold Cmult. cbn [fst snd RtoC]. ring. }
  rewrite E. set (y := snd (uu (z / D)%C)) in *. split; intros Hs.
  - assert (0 < snd z / D)%R by (apply Rdiv_lt_0_compat; lra). specialize (I ltac:(lra)). assert (y < 0)%R by nra. nra.
  - assert (snd z / D < 0)%R by (apply Rmult_lt_reg_r with D; [lra|]; unfold Rdiv; rewrite Rmult_assoc, Rinv_l by lra; lra). specialize (I ltac:(lra)). assert (0 < y)%R by nra. nra.
Qed.
Theorem bethe_inv_left (G : C) : G <> 0 -> (Cmod G < 2 / D)%R -> exists z, bethe_gf_z_inv G D = Ok z /\ bethe_gf_z z D = Ok G.
Proof.
  intros HG L. exists (RtoC (1 / 2 * D) * RtoC (1 / 2 * D) * G + 1 / G). split; [unfold bethe_gf_z_inv; now rewrite cdiv_ok|].
  assert (DC := DC). rewrite !quarter. set (v := D / 2 * G). assert (Hv : v <> 0) by (apply Cmult_neq_0; [apply Cdiv_neq0; [exact DC|exact C2_neq0]|exact HG]).
  assert (Lv : (Cmod v < 1)%R). { unfold v. rewrite Cmod_mult, Cmod_div by exact C2_neq0. rewrite !Cmod_R, !Rabs_pos_eq by lra.
    apply (Rmult_lt_compat_l (D / 2)) in L; [|lra]. replace (D / 2 * (2 / D))%R with 1%R in L by (field; lra). exact L. }
  assert (E : D / 2 * (D / 2) * G + 1 / G = D * ((v + / v) / 2)).
  { unfold v. rewrite C2_eq. field. repeat split; try assumption; exact C11_neq0. }
  assert (Hu := uu_unique v Hv Lv). set (w := (v + / v) / 2) in *.
  assert (Hw : w <> 0). { intros E0. apply Hv. rewrite <- Hu, E0. unfold uu. ring. }
  rewrite E, bethe_ok by (apply Cmult_neq_0; assumption). f_equal. replace (D * w / D) with w by (field; exact DC). rewrite Hu. unfold v. field. split; [exact C2_neq0|exact DC].
Qed.

(** ** derivatives *)
Definition G0 (z : C) : C := 2 / D * uu (z / D).
Lemma is_cderive_scal_z z : is_cderive (fun z => z / D) z (1 / D).
Proof. apply is_cderive_ext with (fun w => / D * w); [intros w; unfold Cdiv; ring|]. replace (1 / D) with (/ D * 1) by (unfold Cdiv; ring). apply is_cderive_scal, is_cderive_id. Qed.
Lemma is_cderive_sq (w : C) : cutfree w -> w <> 0 -> is_cderive sq w (/ (w * w * w * sq w)).
Proof.
  intros Hc Hw. assert (Ho := offcut_sq w Hw Hc). assert (Hs := sq_pos w Hw Hc).
  assert (Hsn : sq w <> 0) by now apply re_pos_neq0.
  assert (H1 : is_cderive (fun w => 1 - 1 / (w * w)) w (2 / (w * w * w))).
  { replace (2 / (w * w * w)) with (0 - (- (1 * w + w * 1) / (w * w * (w * w)))) by (rewrite C2_eq; field; exact Hw).
    apply is_cderive_sub; [apply is_cderive_const|]. apply is_cderive_ext with (fun w => / (w * w)); [intros; unfold Cdiv; ring|].
    apply (is_cderive_inv (fun w => w * w)); [apply (is_cderive_mul (fun w => w) (fun w => w)); apply is_cderive_id|apply Cmult_neq_0; exact Hw]. }
  replace (/ (w * w * w * sq w)) with (/ (2 * sq w) * (2 / (w * w * w))) by (field; repeat split; try assumption; exact C2_neq0).
  apply (is_cderive_comp csqrt (fun w => 1 - 1 / (w * w))); [exact H1|]. exact (is_cderive_csqrt _ Ho).
Qed.
Lemma is_cderive_uu (w : C) : cutfree w -> w <> 0 -> is_cderive uu w (1 - 1 / sq w).
Proof.
  intros Hc Hw. assert (Hs := sq_pos w Hw Hc). assert (Hsn : sq w <> 0) by now apply re_pos_neq0. assert (S := sq_sqr w).
  replace (1 - 1 / sq w) with (1 * (1 - sq w) + w * (0 - / (w * w * w * sq w))).
  - apply (is_cderive_mul (fun w => w) (fun w => 1 - sq w)); [apply is_cderive_id|]. apply (is_cderive_sub (fun _ => 1) sq); [apply is_cderive_const|]. now apply is_cderive_sq.
  - transitivity (1 - (sq w * sq w + 1 / (w * w)) / sq w); [field; now split|]. rewrite S. field. now split.
Qed.

Theorem bethe_d1 (z : C) : off_band z -> exists d, bethe_gf_d1_z z D = Ok d /\
  is_cderive (fun x => 2 / D * uu (x / D)) z d.
Proof.
  intros Hz. assert (Hz0 := off_band_neq0 z Hz). assert (Hc := off_band_cut z Hz). assert (Hw := zD_neq z Hz0). assert (DC := DC).
  assert (Hs := sq_pos _ Hw Hc). assert (Hsn : sq (z / D) <> 0) by now apply re_pos_neq0.
  assert (Es : csqrt (1 - D / z * (D / z)) = sq (z / D)) by (unfold sq; f_equal; field; now split).
  eexists. split.
  - unfold bethe_gf_d1_z. rewrite cdiv_ok by exact Hz0. cbn [bind]. rewrite cdiv_ok by (apply Cmult_neq_0; exact DC). cbn [bind]. rewrite Es. rewrite cdiv_ok by exact Hsn. cbn [bind]. reflexivity.
  - replace (2 / (D * D) * (1 - 1 / sq (z / D))) with (2 / D * ((1 - 1 / sq (z / D)) * (1 / D))) by (field; now split).
    apply is_cderive_scal. apply (is_cderive_comp uu (fun z => z / D)); [apply is_cderive_scal_z|]. now apply is_cderive_uu.
Qed.
Theorem bethe_d2 (z : C) : off_band z -> exists d, bethe_gf_d2_z z D = Ok d /\
  is_cderive (fun x => 2 / (D * D) * (1 - 1 / sq (x / D))) z d.
Proof.
  intros Hz. assert (Hz0 := off_band_neq0 z Hz). assert (Hc := off_band_cut z Hz). assert (Hw := zD_neq z Hz0). assert (DC := DC).
  assert (Hs := sq_pos _ Hw Hc). assert (Hsn : sq (z / D) <> 0) by now apply re_pos_neq0.
  set (w := z / D) in *. assert (S := sq_sqr w).
  assert (Hd : 1 - w * w = - (w * w) * (sq w * sq w)) by (rewrite S; field; exact Hw).
  assert (Hdn : 1 - w * w <> 0). { rewrite Hd. apply Cmult_neq_0; [|now apply Cmult_neq_0]. intros E. apply Hw. destruct (Ceq_dec w 0) as [|N]; [assumption|exfalso]. apply (Cmult_neq_0 w w N N). transitivity (- - (w * w)); [ring|rewrite E; ring]. }
  eexists. split.
  - unfold bethe_gf_d2_z. rewrite cdiv_ok by exact DC. fold w. cbn [bind]. rewrite cdiv_ok by (apply Cmult_neq_0; exact Hw). cbn [bind]. fold (sq w). rewrite cdiv_ok by (apply Cmult_neq_0; exact Hdn). reflexivity.
  - replace (2 / (D * D * D) * w * sq w / ((1 - w * w) * (1 - w * w))) with (2 / (D * D) * (0 - - (/ (w * w * w * sq w) * (1 / D)) / (sq w * sq w))).
    2:{ rewrite Hd. field. repeat split; try assumption. intros E. apply (Cmult_neq_0 w w Hw Hw). transitivity (- - (w * w)); [ring|rewrite E; ring]. }
    apply is_cderive_scal. apply (is_cderive_sub (fun _ => 1) (fun x => 1 / sq (x / D))); [apply is_cderive_const|].
    apply is_cderive_ext with (fun x => / sq (x / D)); [intros; unfold Cdiv; ring|].
    apply (is_cderive_inv (fun x => sq (x / D))); [|exact Hsn]. apply (is_cderive_comp sq (fun z => z / D)); [apply is_cderive_scal_z|]. now apply is_cderive_sq.
Qed.

Lemma im_add (z h : C) : snd (z + h) = (snd z + snd h)%R. Proof. reflexivity. Qed.
Lemma re_add (z h : C) : fst (z + h) = (fst z + fst h)%R. Proof. reflexivity. Qed.
Lemma Cmod_ge_im (z : C) : (Rabs (snd z) <= Cmod z)%R.
Proof. apply Rsqr_incr_0_var; [|apply Cmod_ge_0]. unfold Rsqr. rewrite Cmod_sqr, <- Rabs_mult. rewrite Rabs_pos_eq by nra. nra. Qed.
Lemma off_band_open (z : C) : off_band z -> exists r, (0 < r)%R /\ forall h : C, (Cmod h < r)%R -> off_band (z + h).
Proof.
  intros [H|H].
  - exists (Rabs (snd z)). split; [now apply Rabs_pos_lt|]. intros h Hh. left. rewrite im_add. intros E. assert (B := Cmod_ge_im h).
    replace (snd h) with (- snd z)%R in B by lra. rewrite Rabs_Ropp in B. lra.
  - exists (Rabs (fst z) - D)%R. split; [lra|]. intros h Hh. right. rewrite re_add. assert (B := Cmod_ge_re h). assert (T := Rabs_triang_inv (fst z) (- fst h)).
    rewrite Rabs_Ropp in T. replace (fst z - - fst h)%R with (fst z + fst h)%R in T by ring. lra.
Qed.

Theorem bethe_d1_derive (z : C) (g : C -> C) : off_band z -> (forall x, off_band x -> bethe_gf_z x D = Ok (g x)) ->
  exists d, bethe_gf_d1_z z D = Ok d /\ is_cderive g z d.
Proof.
  intros Hz Hg. destruct (bethe_d1 z Hz) as (d & E & Hd). exists d. split; [exact E|]. destruct (off_band_open z Hz) as (r & Hr & Ho).
  refine (is_cderive_ext_near _ _ _ _ r Hr _ Hd). intros h Hh. specialize (Ho h Hh). assert (X := Hg _ Ho). rewrite bethe_ok in X by now apply off_band_neq0. now injection X.
Qed.
Lemma bethe_d1_val (x d : C) : off_band x -> bethe_gf_d1_z x D = Ok d -> d = 2 / (D * D) * (1 - 1 / sq (x / D)).
Proof.
  intros Hx. assert (H0 := off_band_neq0 x Hx). assert (Hw := zD_neq x H0). assert (Hs := sq_pos _ Hw (off_band_cut x Hx)). assert (DC := DC).
  assert (Es : csqrt (1 - D / x * (D / x)) = sq (x / D)) by (unfold sq; f_equal; field; now split).
  unfold bethe_gf_d1_z. rewrite cdiv_ok by exact H0. cbn [bind]. rewrite cdiv_ok by (apply Cmult_neq_0; exact DC). cbn [bind]. rewrite Es. rewrite cdiv_ok by now apply re_pos_neq0.
  cbn [bind]. now intros [= <-].
Qed.
Theorem bethe_d2_derive (z : C) (g : C -> C) : off_band z -> (forall x, off_band x -> bethe_gf_d1_z x D = Ok (g x)) ->
  exists d, bethe_gf_d2_z z D = Ok d /\ is_cderive g z d.
Proof.
  intros Hz Hg. destruct (bethe_d2 z Hz) as (d & E & Hd). exists d. split; [exact E|]. destruct (off_band_open z Hz) as (r & Hr & Ho).
  refine (is_cderive_ext_near _ _ _ _ r Hr _ Hd). intros h Hh. specialize (Ho h Hh). symmetry. exact (bethe_d1_val _ _ Ho (Hg _ Ho)).
Qed.

(** ** finite coordination number *)
Lemma sq_alt (z : C) : z <> 0 -> csqrt (1 - D / z * (D / z)) = sq (z / D).
Proof. intros H. unfold sq. f_equal. assert (DC := DC). field. now split. Qed.
Lemma zden_neq (z : C) (Z : R) : z <> 0 -> (2 <= Z)%R -> (2 < Z)%R \/ sq (z / D) <> 0 -> (Z - 2 + Z * sq (z / D) : C) <> 0.
Proof.
  intros Hz HZ Hor E. assert (Hs := sq_re (z / D)). assert (E1 := f_equal fst E). assert (E2 := f_equal snd E). cbn in E1, E2.
  assert (F0 : fst (sq (z / D)) = 0%R /\ Z = 2%R) by (split; nra). destruct F0 as [F0 F1]. destruct Hor as [H|H]; [lra|]. apply H. apply C_ext; [exact F0|]. cbn. rewrite F1 in E2. lra.
Qed.
Lemma bethez_ok (z : C) (Z : R) : z <> 0 -> (2 <= Z)%R -> (2 < Z)%R \/ sq (z / D) <> 0 ->
  bethez_gf_z z D Z = Ok (2 * (Z - 1) / (z * (Z - 2 + Z * sq (z / D)))).
Proof.
  intros Hz HZ Hor. unfold bethez_gf_z. destruct (Rlt_dec 1 Z); [|lra]. assert (DC := DC). assert (N := zden_neq z Z Hz HZ Hor).
  rewrite cdiv_ok by exact Hz. cbn [bind]. rewrite cdiv_ok by exact DC. cbn [bind]. rewrite sq_alt by exact Hz. rewrite cdiv_ok by exact N. f_equal.
  set (s := sq (z / D)) in *. field. repeat split; assumption.
Qed.
Lemma onedim_ok (z : C) : z <> 0 -> sq (z / D) <> 0 -> onedim_gf_z z D = Ok (1 / (z * sq (z / D))).
Proof.
  intros Hz Hs. assert (DC := DC). unfold onedim_gf_z. rewrite cdiv_ok by exact Hz. cbn [bind]. rewrite cdiv_ok by exact DC. cbn [bind]. rewrite sq_alt by exact Hz. rewrite cdiv_ok by exact Hs. f_equal. field. repeat split; assumption.
Qed.
Lemma onedim_band_edge (z : C) : z <> 0 -> sq (z / D) = 0 -> onedim_gf_z z D = Err NonFinite.
Proof.
  intros Hz Hs. assert (DC := DC). unfold onedim_gf_z. rewrite cdiv_ok by exact Hz. cbn [bind]. rewrite cdiv_ok by exact DC. cbn [bind]. rewrite sq_alt, Hs by exact Hz. unfold cdiv. destruct (Ceq_dec 0 0); [reflexivity|easy].
Qed.

(** coordination two is the chain, for every z (also at the band edge where both are infinite) *)
Theorem bethez_2 (z : C) : bethez_gf_z z D 2 = onedim_gf_z z D.
Proof.
  destruct (Ceq_dec z 0) as [->|Hz].
  { unfold bethez_gf_z, onedim_gf_z. destruct (Rlt_dec 1 2); [|lra]. unfold cdiv at 1 4. destruct (Ceq_dec 0 0); [reflexivity|easy]. }
  destruct (Ceq_dec (sq (z / D)) 0) as [Hs|Hs].
  - rewrite onedim_band_edge by assumption. assert (DC := DC). unfold bethez_gf_z. destruct (Rlt_dec 1 2); [|lra]. rewrite cdiv_ok by exact Hz. cbn [bind]. rewrite cdiv_ok by exact DC. cbn [bind]. rewrite sq_alt, Hs by exact Hz.
    unfold cdiv. destruct (Ceq_dec _ 0) as [|N]; [reflexivity|]. exfalso. apply N. ring.
  - rewrite bethez_ok, onedim_ok by (try assumption; try lra; now right). f_equal. rewrite C2_eq. set (s := sq (z / D)) in *. field. repeat split; try assumption; try exact C11_neq0.
Qed.

(** cavity construction: hopping t with D = 2 t sqrt(Z-1), Z-1 descendants *)
Theorem bethez_cavity (z : C) (Z t : R) (g G : C) : (1 < Z)%R -> (4 * (Z - 1) * (t * t) = D * D)%R ->
  bethe_gf_z z D = Ok g -> bethez_gf_z z D Z = Ok G ->
  g * (z - (Z - 1) * (t * t) * g) = 1 /\ G * (z - Z * (t * t) * g) = 1.
Proof.
  intros HZ Ht Hg HG. destruct (bethe_equation z g Hg) as [Eq _]. apply bethe_inv in Hg. destruct Hg as [Hz Eg]. assert (DC := DC).
  assert (Tt : RtoC t * RtoC t = D * D / (2 * 2 * (Z - 1))).
  { rewrite <- !RtoC_mult, <- RtoC_minus, <- RtoC_mult, <- RtoC_div by nra. f_equal. apply (Rmult_eq_reg_l (4 * (Z - 1))%R); [|lra]. rewrite Ht. field. lra. }
  assert (HZ1 : (Z - 1 : C) <> 0) by (rewrite <- RtoC_minus; apply RtoC_neq0; lra).
  split.
  - rewrite Tt. transitivity (- (D / 2 * (D / 2) * (g * g) - z * g + 1) + 1); [field; repeat split; try assumption; exact C2_neq0|rewrite Eq; ring].
  - destruct (Ceq_dec (Z - 2 + Z * sq (z / D)) 0) as [E0|N].
    { exfalso. unfold bethez_gf_z in HG. destruct (Rlt_dec 1 Z); [|lra]. rewrite cdiv_ok in HG by exact Hz. cbn [bind] in HG. rewrite cdiv_ok in HG by exact DC. cbn [bind] in HG. rewrite sq_alt in HG by exact Hz.
      unfold cdiv in HG. destruct (Ceq_dec _ 0); [discriminate|easy]. }
    assert (EG : G = 2 * (Z - 1) / (z * (Z - 2 + Z * sq (z / D)))).
    { unfold bethez_gf_z in HG. destruct (Rlt_dec 1 Z); [|lra]. rewrite cdiv_ok in HG by exact Hz. cbn [bind] in HG. rewrite cdiv_ok in HG by exact DC. cbn [bind] in HG. rewrite sq_alt in HG by exact Hz.
      rewrite cdiv_ok in HG by exact N. injection HG as <-. set (s := sq (z / D)) in *. field. repeat split; assumption. }
    rewrite EG, Eg, Tt. unfold uu. set (s := sq (z / D)) in *. rewrite C2_eq in *. field. repeat split; try assumption; first [exact C11_neq0 | exact (Cmult_neq_0 _ _ C11_neq0 C11_neq0)].
Qed.

(** Z -> infinity *)
Theorem bethez_limit (z G : C) : bethe_gf_z z D = Ok G -> forall eps, (0 < eps)%R -> exists Z0, forall Z, (Z0 < Z)%R ->
  exists GZ, bethez_gf_z z D Z = Ok GZ /\ (Cmod (GZ - G)%C < eps)%R.
Proof.
  intros HG eps He. apply bethe_inv in HG. destruct HG as [Hz ->]. assert (DC := DC). assert (Hw := zD_neq z Hz).
  set (s := sq (z / D)). assert (Hs : (0 <= fst s)%R) by apply sq_re. assert (N1 : 1 + s <> 0) by (intros E; apply (f_equal fst) in E; cbn in E; lra).
  assert (EG : 2 / D * uu (z / D) = 2 / (z * (1 + s))).
  { assert (P := uu_prod (z / D) Hw). fold s in P. transitivity (2 / D * uu (z / D) * 1); [ring|]. 
    transitivity (2 / D * (uu (z / D) * (z / D * (1 + s))) * D / (z * (1 + s))); [field; repeat split; assumption|]. rewrite P. field. repeat split; assumption. }
  rewrite EG.
  (* the difference is 2 (1 - s)/(z (1+s) (Z - 2 + Z s)), denominators at least Z - 2 *)
  set (c := (Cmod (2 * (1 - s))%C / (Cmod z * Cmod (1 + s)%C))%R).
  assert (Pz := proj1 (Cmod_gt_0 z) Hz). assert (P1 := proj1 (Cmod_gt_0 (1 + s)) N1).
  assert (Hc : (0 <= c)%R) by (apply Rdiv_le_0_compat; [apply Cmod_ge_0|nra]).
  exists (c / eps + 3)%R. intros Z HZ. assert (Hce : (0 <= c / eps)%R) by (apply Rdiv_le_0_compat; lra).
  exists (2 * (Z - 1) / (z * (Z - 2 + Z * s))). split; [apply bethez_ok; [exact Hz|lra|left; lra]|].
  assert (N := zden_neq z Z Hz ltac:(lra) ltac:(left; lra)). fold s in N.
  replace (2 * (Z - 1) / (z * (Z - 2 + Z * s)) - 2 / (z * (1 + s))) with (2 * (1 - s) / (z * (1 + s) * (Z - 2 + Z * s))).
  2:{ rewrite C2_eq in *. field. repeat split; assumption. }
  rewrite Cmod_div by (repeat apply Cmult_neq_0; assumption). rewrite (Cmod_mult (z * (1 + s))), (Cmod_mult z).
  assert (B : (Z - 2 <= Cmod (Z - 2 + Z * s)%C)%R). { eapply Rle_trans; [|apply Cmod_ge_re]. cbn. rewrite Rabs_pos_eq by nra. nra. }
  replace (Cmod (2 * (1 - s))%C / (Cmod z * Cmod (1 + s)%C * Cmod (Z - 2 + Z * s)%C))%R with (c / Cmod (Z - 2 + Z * s)%C)%R by (unfold c; field; repeat split; lra).
  apply (Rmult_lt_reg_r (Cmod (Z - 2 + Z * s)%C)); [lra|]. unfold Rdiv. rewrite Rmult_assoc, Rinv_l by lra. rewrite Rmult_1_r.
  assert (E : c = (c / eps * eps)%R) by (field; lra). rewrite E. rewrite (Rmult_comm eps). apply Rmult_lt_compat_r; lra.
Qed.
End M.

(** ** surface Green's function, Hubbard I *)
Theorem surface_equation (z eps : C) (t : R) (g : C) : (0 < t)%R -> surface_gf_zeps z eps t = Ok g ->
  t * t * (g * g) - (z - eps) * g + 1 = 0 /\ ((0 < snd (z - eps)%C)%R -> (snd g < 0)%R) /\ (Cmod g <= 1 / t)%R.
Proof.
  intros Ht H. unfold surface_gf_zeps in H. assert (H2 : (0 < 2 * t)%R) by lra. assert (N : RtoC t <> 0) by (apply RtoC_neq0; lra).
  destruct (bethe_equation _ H2 _ _ H) as [E _]. split; [|split].
  - rewrite <- E. rewrite RtoC_mult. field. exact C2_neq0.
  - intros Hs. exact (proj1 (bethe_im _ H2 _ _ H) Hs).
  - assert (B := bethe_bound _ H2 _ _ H). replace (2 / (2 * t))%R with (1 / t)%R in B by (field; lra). exact B.
Qed.
Theorem hubbard_I_atomic (z U n S : C) : hubbard_I_self_z z U n = Ok S -> z <> 0 -> z <> U ->
  z - S <> 0 /\ 1 / (z - S) = (1 - n) / z + n / (z - U).
Proof.
  unfold hubbard_I_self_z. intros H Hz HU. unfold cdiv in H. destruct (Ceq_dec _ 0) as [|N]; [discriminate|]. injection H as <-.
  assert (HU0 : z - U <> 0) by (intros E; apply HU; transitivity (z - U + U); [ring|rewrite E; ring]).
  assert (E : z - U * n * z / (z - U + U * n) = z * (z - U) / (z - U + U * n)) by (field; exact N).
  rewrite E. split; [apply Cdiv_neq0; [now apply Cmult_neq_0|exact N]|]. field. repeat split; assumption.
Qed.
