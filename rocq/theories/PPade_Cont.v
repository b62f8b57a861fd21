(** * continuation reproduces rational functions *)
From Coq Require Import List Arith ZArith Lia Lra Bool Reals Field Permutation.
From Coquelicot Require Import Complex.
From Verif Require Import Base FSum CBase LinPred_Burg Herm_Model Herm_Spec Herm_Proofs Herm_Gauss Pade_Spec PadeKind_Proofs Linalg_Model Linalg_Proofs Mat Cauchy Backend
  NPoles_Model NPoles_Proofs Rat_Model Pole_Model PPade_Lin PPade_Rank PPade_Rat PPade_Spec PPade_Model PPade_Basis PPade_Proofs.
Import ListNotations.
Local Open Scope fld_scope.
Ltac cring := PPade_Basis.cring.

Section Gen.
Variable K : Fld.
Add Field KFpc : (Fth K).
Lemma gdiv_mul_l (a x : K) : a <> 0 -> a * x / a = x.
Proof. intros H. field. exact H. Qed.
Lemma gmul_div (i x : K) : i <> 0 -> i * (x / i) = x.
Proof. intros H. field. exact H. Qed.
Lemma gscale_term (i r x p : K) : i <> 0 -> x - p <> 0 -> r / i / (x / i - p / i) = r / (x - p).
Proof.
  intros Hi Hx. assert (E : x / i - p / i = (x - p) / i) by (field; exact Hi). rewrite E. field. split; assumption.
Qed.
Lemma div_inj (i x y : K) : i <> 0 -> x / i = y / i -> x = y.
Proof. intros Hi H. rewrite <- (gmul_div i x Hi), H. now apply gmul_div. Qed.
End Gen.

Section Frame.
Variables (c : CF) (pr : list (CF * CF)) (dn : nat) (weight : option (list R)) (z fct : list CF).
Hypothesis HS : samples_of c pr dn weight z fct.
Let k := length pr.
Let N := length z.
Let n0 := (k - dn)%nat.

Lemma amp_lead : bc CF pr c n0 = amplitude c pr /\ amplitude c pr <> 0 /\ (n0 + dn = k)%nat /\ (dn = 0 \/ dn = 1)%nat.
Proof.
  destruct (bc_lead CF pr c n0) as [B1 B2]. fold k in B1, B2. unfold amplitude. destruct (so_deg _ _ _ _ _ _ HS) as [(E & Hc)|(E & Hc & Hr)].
  - destruct (Feq_dec c 0) as [X|X]; [contradiction|]. rewrite B1 by lia. repeat split; [exact Hc|lia|lia].
  - destruct (Feq_dec c 0) as [X|X]; [|contradiction]. assert (0 < k)%nat by (unfold k; destruct pr; [exfalso; apply Hr; reflexivity|cbn; lia]).
    rewrite B2 by (assumption || lia). repeat split; [|exact Hr|lia|lia]. unfold rr. rewrite lsum_nth, map_length. reflexivity.
Qed.
Lemma deg_cases : n0 = k \/ (S n0 = k /\ c = 0).
Proof. destruct (so_deg _ _ _ _ _ _ HS) as [(E & Hc)|(E & Hc & Hr)]; [left; lia|right]. assert (0 < k)%nat by (unfold k; destruct pr; [exfalso; apply Hr; reflexivity|cbn; lia]). split; [lia|exact Hc]. Qed.
Lemma z_in i : (i < N)%nat -> In (nth i z 0) z.
Proof. intros H. now apply nth_In. Qed.
Lemma f_nth i : (i < N)%nat -> nth i fct 0 = polesum c pr (nth i z 0).
Proof. intros H. rewrite (so_f _ _ _ _ _ _ HS). now rewrite (nth_map_in _ _ _ _ (0 : CF)) by exact H. Qed.
Lemma w_neq0 i : (i < N)%nat -> wgt weight i <> 0%R.
Proof.
  intros H. assert (W := so_w _ _ _ _ _ _ HS). destruct weight as [w|]; cbn [wgt]; [|lra]. apply W. apply nth_In. destruct W as [-> _]. exact H.
Qed.
Lemma z_distinct : distinct CF N (fun i => nth i z 0).
Proof. intros i j Hi Hj E. now apply (proj1 (NoDup_nth z 0) (so_z _ _ _ _ _ _ HS)). Qed.
Lemma z_off i j : (i < N)%nat -> (j < k)%nat -> nth i z 0 <> pp CF pr j.
Proof. intros Hi Hj E. apply (so_off _ _ _ _ _ _ HS (nth i z 0) (z_in i Hi)). rewrite E. unfold pp. apply nth_In. rewrite map_length. exact Hj. Qed.
Lemma f_data i : (i < N)%nat -> nth i fct 0 * ev CF (S k) (qc CF pr) (nth i z 0) = ev CF (S n0) (bc CF pr c) (nth i z 0).
Proof. intros Hi. rewrite (qc_ev CF pr), (bc_ev CF pr c n0 _ deg_cases), f_nth by exact Hi. apply numer_f. apply (so_off _ _ _ _ _ _ HS). now apply z_in. Qed.
Lemma f_neq0 i : (i < N)%nat -> nth i fct 0 <> (0 : CF).
Proof. intros Hi. rewrite f_nth by exact Hi. apply (so_f0 _ _ _ _ _ _ HS). now apply z_in. Qed.
Lemma fct_length : length fct = N.
Proof. rewrite (so_f _ _ _ _ _ _ HS). apply map_length. Qed.
Lemma q_prod x : ev CF (S k) (qc CF pr) x = prodsub CF (map (pp CF pr) (seq 0 k)) x.
Proof. unfold k. rewrite (map_pp CF pr). apply (qc_ev CF pr). Qed.
Lemma p_numer j : (j < k)%nat -> ev CF (S n0) (bc CF pr c) (pp CF pr j) <> 0.
Proof. intros Hj. rewrite (bc_ev CF pr c n0 _ deg_cases). apply numer_pole; [exact (so_nodup _ _ _ _ _ _ HS)|exact (so_res _ _ _ _ _ _ HS)|exact Hj]. Qed.

Variable phi : nat -> CF -> CF.
Hypothesis Hphi : graded phi.
Variables (qr qrr : mat CF -> mat CF * mat CF) (svd : mat CF -> list R * mat CF) (eig : mat CF -> mat CF -> list CF) (median : list CF -> CF) (tol : R).
Hypothesis Hqr : forall A, qr_spec CF Cconj A (qr A).
Hypothesis Hqrr : forall A, qrr_spec CF A (qrr A).
Hypothesis Hsvd : forall M, svd_spec M (svd M).
Hypothesis Heig : eig_ok eig.
Hypothesis Hmed : median fct <> 0.
Hypothesis Htol : (0 < tol)%R.
Let degree := (- Z.of_nat dn)%Z.

Lemma frame_number n0' : match n0' with None => (2 * Z.min ((Z.of_nat N - degree) / 2) 50 + degree < Z.of_nat N)%Z | Some n => (1 <= n /\ 2 * n + degree < Z.of_nat N)%Z end ->
  (forall n, (0 <= n <= (Z.of_nat N - degree) / 2)%Z -> resolved tol (np_mat phi qrr z fct weight degree n) (fst (svd (np_mat phi qrr z fct weight degree n)))) ->
  exists fuel, forall fuel', (fuel <= fuel')%nat -> number_poles_data phi qrr svd tol fuel' z fct degree weight n0' = Ok (Z.of_nat k, false).
Proof.
  intros H0 Hres. destruct amp_lead as (_ & _ & Hk & Hdn).
  exact (number_poles_exact_data phi Hphi k n0 dn (pp CF pr) (qc CF pr) (bc CF pr c) z fct weight Hdn Hk (pp_distinct CF pr (so_nodup _ _ _ _ _ _ HS)) q_prod
    p_numer z_distinct z_off fct_length f_data f_neq0 w_neq0 (so_n _ _ _ _ _ _ HS) qrr svd tol Hqrr Hsvd Htol n0' H0 Hres).
Qed.

Lemma frame_roots : (dn < k)%nat -> exists pls zrs,
  poles phi qr qrr svd eig median z fct (Some (Z.of_nat k + degree)%Z) k weight = Ok pls /\
  zeros phi qr qrr svd eig median z fct pls (Some (Z.of_nat k + degree)%Z) weight = Ok zrs /\
  length pls = k /\ length zrs = n0 /\ (forall x, prodsub CF pls x = prodsub CF (map fst pr) x) /\
  (forall x, ~ In x (map fst pr) -> polesum c pr x * prodsub CF pls x = amplitude c pr * prodsub CF zrs x).
Proof.
  intros Hk1. destruct amp_lead as (Ha & Ha0 & Hk & Hdn).
  assert (Hb : bc CF pr c n0 <> 0) by (rewrite Ha; exact Ha0).
  destruct (poles_exact phi Hphi k n0 dn (pp CF pr) (qc CF pr) (bc CF pr c) z fct weight Hdn Hk (pp_distinct CF pr (so_nodup _ _ _ _ _ _ HS)) q_prod (qc_lead CF pr)
    p_numer z_distinct z_off fct_length f_data f_neq0 w_neq0 (so_n _ _ _ _ _ _ HS) qr qrr svd eig median Hqr Hqrr Hsvd Heig Hmed ltac:(lia)) as (pls & P1 & P2 & P3).
  destruct (zeros_exact phi Hphi k n0 dn (pp CF pr) (qc CF pr) (bc CF pr c) z fct weight Hdn Hk q_prod
    p_numer Hb z_distinct z_off fct_length f_data f_neq0 w_neq0 (so_n _ _ _ _ _ _ HS) qr qrr svd eig median Hqr Hqrr Hsvd Heig Hmed pls ltac:(lia) P3) as (zrs & Z1 & Z2 & Z3).
  exists pls, zrs. split; [exact P1|]. split; [exact Z1|]. split; [exact P2|]. split; [exact Z2|].
  assert (PQ : forall x, prodsub CF pls x = prodsub CF (map fst pr) x) by (intros x; rewrite P3; unfold k; now rewrite (map_pp CF pr)).
  split; [exact PQ|]. intros x Hx. rewrite PQ. unfold polesum. rewrite (numer_f CF pr c x Hx). rewrite <- (bc_ev CF pr c n0 x deg_cases), <- Z3, Ha. cring.
Qed.
End Frame.

(** ** asymptotic *)
Lemma sequence_ok {A B} (g : A -> result B) (h : A -> B) l : (forall x, In x l -> g x = Ok (h x)) -> sequence (map g l) = Ok (map h l).
Proof. induction l as [|a l IH]; intros H; [reflexivity|]. cbn [map sequence]. rewrite H by now left. cbn [bind]. rewrite IH by (intros; apply H; now right). reflexivity. Qed.
Lemma fnat_C_neq0 n : (0 < n)%nat -> fnat (K := CF) n <> 0.
Proof.
  intros H E. assert (X : forall m, fnat (K := CF) m = RtoC (INR m)).
  { induction m as [|m IH]; [reflexivity|]. rewrite S_INR, RtoC_plus. cbn [fnat]. rewrite IH. cring. }
  rewrite X in E. apply RtoC_inj in E. apply (not_0_INR n); [lia|exact E].
Qed.
Lemma lsum_const (a : CF) l : (forall x, In x l -> x = a) -> lsum l = a * fnat (length l).
Proof. induction l as [|x l IH]; intros H; [cbn [lsum fold_right length fnat]; cring|]. rewrite lsum_cons, IH by (intros; apply H; now right). rewrite (H x) by now left. cbn [length fnat]. cring. Qed.
Lemma asymptotic_exact z fct zrs pls weight (a : CF) : length fct = length z -> (0 < length z)%nat ->
  (forall i, (i < length z)%nat -> prodsub CF zrs (nth i z 0) <> 0 /\ nth i fct 0 * prodsub CF pls (nth i z 0) = a * prodsub CF zrs (nth i z 0)) ->
  match weight with None => True | Some w => length w = length z /\ rsum w <> 0%R end ->
  exists std, asymptotic z fct zrs pls weight = Ok (a, std).
Proof.
  intros HL HN H HW. unfold asymptotic.
  set (g := fun x => prodsub CF pls x / prodsub CF zrs x).
  rewrite (sequence_ok _ g).
  2:{ intros x Hx. apply (In_nth _ _ (0 : CF)) in Hx. destruct Hx as (i & Hi & <-). destruct (H i Hi) as [H1 _]. unfold zp_reciprocal, fdiv. cbn [zp_poles zp_zeros zp_amplitude].
      destruct (Feq_dec 1 0) as [E|_]; [exfalso; exact (F1_neq_0 CF E)|]. cbn [bind]. rewrite !(prod_prodsub). destruct (Feq_dec _ 0) as [E|_]; [contradiction|]. f_equal. unfold g. rewrite !(Fdiv_def (Fth CF)).
      assert (X : Finv (1 : CF) = 1). { assert (Y := Finv_l (Fth CF) 1 (F1_neq_0 CF)). rewrite <- Y at 2. cring. } rewrite X. cring. }
  cbn [bind]. set (ratios := vmul fct (map g z)).
  assert (LR : length ratios = length z) by (unfold ratios; rewrite vmul_length; rewrite ?map_length; exact HL).
  assert (R : forall x, In x ratios -> x = a).
  { intros x Hx. apply (In_nth _ _ (0 : CF)) in Hx. destruct Hx as (i & Hi & <-). rewrite LR in Hi. unfold ratios. rewrite vmul_nth by now rewrite map_length. rewrite (nth_map_in _ _ _ _ (0 : CF)) by exact Hi.
    destruct (H i Hi) as [H1 H2]. unfold g. apply (fmul_cancel_l CF _ _ _ H1). transitivity (nth i fct 0 * (prodsub CF pls (nth i z 0) / prodsub CF zrs (nth i z 0) * prodsub CF zrs (nth i z 0))); [cring|]. rewrite fdiv_mul by exact H1. rewrite H2. cring. }
  destruct weight as [w|].
  - destruct HW as [Lw Hw0]. destruct (Req_EM_T (rsum w) 0) as [E|_]; [contradiction|]. eexists. f_equal. f_equal.
    assert (X : lsum (map (fun p => fst p * (RtoC (snd p) : CF)) (combine ratios w)) = a * (RtoC (rsum w) : CF)).
    { rewrite <- LR in Lw. clear - R Lw. revert w Lw. induction ratios as [|x l IH]; intros [|y w] Lw; try discriminate; [cbn [combine map lsum fold_right rsum]; cring|].
      cbn [combine map fst snd]. rewrite lsum_cons, IH; [|intros; apply R; now right|now injection Lw]. rewrite (R x) by now left. cbn [rsum fold_right]. fold (rsum w). rewrite RtoC_plus. cring. }
    rewrite X. apply (fmul_cancel_l CF (RtoC (rsum w) : CF)); [intros E; apply RtoC_inj in E; contradiction|].
    transitivity (a * RtoC (rsum w) / (RtoC (rsum w) : CF) * (RtoC (rsum w) : CF)); [cring|]. rewrite fdiv_mul; [cring|intros E; apply RtoC_inj in E; contradiction].
  - unfold fdiv. destruct (Feq_dec _ 0) as [E|NZ]; [exfalso; rewrite LR in E; exact (fnat_C_neq0 _ HN E)|]. cbn [bind]. rewrite (lsum_const a ratios R).
    assert (Y : a * fnat (length ratios) / fnat (length ratios) = a).
    { apply (fmul_cancel_l CF (fnat (length ratios)) _ _ NZ). transitivity (a * fnat (length ratios) / fnat (length ratios) * fnat (length ratios)); [cring|]. rewrite fdiv_mul by exact NZ. cring. }
    rewrite Y. eexists. reflexivity.
Qed.

(** ** residues *)
Lemma cle_zero (u v : list C) : cle u v -> (forall i, nth i v (RtoC 0) = RtoC 0) -> forall i, nth i u (RtoC 0) = RtoC 0.
Proof.
  unfold cle. intros H Hv.
  assert (V : fold_right (fun z0 s => (Cmod z0 * Cmod z0 + s)%R) 0%R v = 0%R).
  { clear H. induction v as [|a v IH]; [reflexivity|]. cbn [fold_right]. rewrite IH by (intros i; exact (Hv (S i))). assert (A := Hv 0%nat). cbn [nth] in A. rewrite A, Cmod_0. ring. }
  rewrite V in H. clear V Hv v.
  assert (P : forall l : list C, (0 <= fold_right (fun z0 s => (Cmod z0 * Cmod z0 + s)%R) 0 l)%R).
  { induction l as [|a l IH]; [apply Rle_refl|]. cbn [fold_right]. assert (0 <= Cmod a * Cmod a)%R by apply Rle_0_sqr. lra. }
  induction u as [|a u IH]; intros i; [destruct i; reflexivity|]. cbn [fold_right] in H. assert (A := P u). assert (B : (0 <= Cmod a * Cmod a)%R) by apply Rle_0_sqr.
  destruct i; cbn [nth]; [|apply IH; lra]. apply Cmod_eq_0. destruct (Rmult_integral (Cmod a) (Cmod a)); [lra|assumption|assumption].
Qed.

Section Res.
Variables (qr : mat CF -> mat CF * mat CF) (solve_triangular : mat CF -> list CF -> result (list CF)) (lstsq : mat CF -> list CF -> list CF * list CF) (allclose0 : list CF -> bool).
Hypothesis HB : backend_ok CF Cconj cle qr solve_triangular lstsq allclose0.
Theorem residues_exact z g pr weight moms : NoDup (map fst pr) -> (0 < length pr)%nat -> (length pr <= length z)%nat -> NoDup z -> (forall x, In x z -> ~ In x (map fst pr)) ->
  (forall i, (i < length z)%nat -> nth i g 0 = lsum (map (fun a => snd a / (nth i z 0 - fst a)) pr)) -> (forall i, (i < length z)%nat -> wgt weight i <> 0%R) ->
  (length moms <= length pr)%nat -> (forall i, (i < length moms)%nat -> nth i moms 0 = true_moment pr i) ->
  exists e, residues_ols qr solve_triangular lstsq allclose0 z g (map fst pr) weight moms = Ok (map snd pr, e).
Proof.
  intros HD Hk HL Hz Hoff Hg Hw HM HMom. unfold residues_ols. set (N := length z). set (k := length pr). rewrite map_length. fold k.
  assert (EX : existsb (fun x => existsb (fun p => feqb (x - p) 0) (map fst pr)) z = false).
  { apply not_true_is_false. intros E. apply existsb_exists in E. destruct E as (x & Hx & E). apply existsb_exists in E. destruct E as (p & Hp & E). unfold feqb in E. destruct (Feq_dec (x - p) 0) as [F|F]; [|discriminate].
    rewrite (fsub_eq0 CF x p) in F. subst p. exact (Hoff x Hx Hp). }
  rewrite EX. set (A := Mat N k _ : mat CF). set (rhs := map _ (seq 0 N)).
  assert (Lrhs : length rhs = N) by (unfold rhs; now rewrite map_length, seq_length).
  set (p := fun j => nth j (map fst pr) (0 : CF)). set (r := fun j => nth j (map snd pr) (0 : CF)).
  assert (Sum : forall h : CF * CF -> CF, lsum (map h pr) = nsum k (fun j => h (p j, r j))).
  { intros h. rewrite lsum_nth, map_length. apply nsum_ext. intros j Hj. rewrite (nth_map_in _ _ _ _ ((0, 0) : CF * CF)) by exact Hj. f_equal. unfold p, r. rewrite !(nth_map_in _ _ _ _ ((0, 0) : CF * CF)) by exact Hj. now destruct (nth j pr ((0, 0) : CF * CF)). }
  assert (Zp : forall i j, (i < N)%nat -> (j < k)%nat -> nth i z 0 <> p j).
  { intros i j Hi Hj E. apply (Hoff (nth i z 0)); [now apply nth_In|]. rewrite E. unfold p. apply nth_In. now rewrite map_length. }
  assert (Exact : mv A (map snd pr) = rhs).
  { apply (list_ext _ _ 0); [rewrite mv_length; symmetry; exact Lrhs|]. rewrite mv_length. cbn [A nr]. intros i Hi. rewrite mv_nth by exact Hi. cbn [A nc me]. unfold rhs. rewrite nth_map_seq by exact Hi. rewrite Hg by exact Hi. rewrite Sum. cbn [fst snd].
    rewrite <- nsum_mul_r. apply nsum_ext. intros j Hj. fold (p j) (r j). rewrite !(Fdiv_def (Fth CF)). cring. }
  assert (Uniq : forall x, length x = k -> mv A x = rhs -> x = map snd pr).
  { intros x Lx Ex. apply (list_ext _ _ 0); [now rewrite map_length|]. intros j Hj. rewrite Lx in Hj. apply fsub_eq0.
    apply (cauchy_inj CF k p (fun i => nth i z 0) (fun j => nth j x 0 - nth j (map snd pr) 0)); [| | | |exact Hj].
    - intros a b Ha Hb E. apply (proj1 (NoDup_nth (map fst pr) 0) HD); [now rewrite map_length|now rewrite map_length|exact E].
    - intros a b Ha Hb E. apply (proj1 (NoDup_nth z 0) Hz); [unfold k in *; lia|unfold k in *; lia|exact E].
    - intros a b Ha Hb. apply Zp; [unfold N, k in *; lia|exact Hb].
    - intros i Hi. assert (HiN : (i < N)%nat) by (unfold N, k in *; lia). assert (E1 : nth i (mv A x) 0 = nth i (mv A (map snd pr)) 0) by now rewrite Ex, Exact.
      rewrite !mv_nth in E1 by exact HiN. cbn [A nc me] in E1.
      apply (fmul_cancel_l CF (RtoC (wgt weight i) : CF)); [intros E; apply RtoC_inj in E; exact (Hw i HiN E)|].
      transitivity (nsum k (fun j0 => 1 / (nth i z 0 - p j0) * (RtoC (wgt weight i) : CF) * nth j0 x 0) - nsum k (fun j0 => 1 / (nth i z 0 - p j0) * (RtoC (wgt weight i) : CF) * nth j0 (map snd pr) 0)).
      + rewrite <- nsum_sub, <- nsum_mul_l. apply nsum_ext. intros j0 Hj0. rewrite !(Fdiv_def (Fth CF)). cring.
      + fold p in E1. unfold p. rewrite E1. cring. }
  assert (Zero : forall x, length x = k -> cle (vsub (mv A x) rhs) (vsub (mv A (map snd pr)) rhs) -> x = map snd pr).
  { intros x Lx Hle. apply Uniq; [exact Lx|]. rewrite Exact in Hle.
    assert (V0 : forall i, nth i (vsub rhs rhs) (RtoC 0) = RtoC 0).
    { intros i. destruct (Nat.lt_ge_cases i N) as [G|G]; [|apply nth_overflow; rewrite vsub_length; lia]. change (nth i (vsub rhs rhs) (0 : CF) = (0 : CF)). rewrite vsub_nth by lia. cring. }
    assert (U0 := cle_zero _ _ Hle V0). apply (list_ext _ _ 0); [rewrite mv_length; symmetry; exact Lrhs|]. rewrite mv_length. intros i Hi. apply fsub_eq0. rewrite <- vsub_nth; [apply U0|rewrite mv_length; exact Hi|rewrite mv_length; symmetry; exact Lrhs]. }
  destruct HB as (_ & _ & HLS & _).
  destruct (Nat.eqb_spec (length moms) 0) as [E|E].
  - destruct (HLS A rhs Lrhs) as [L1 L2]. destruct (lstsq A rhs) as [x e]. cbn [fst] in *. exists e. do 2 f_equal. apply Zero; [exact L1|]. apply L2. now rewrite map_length.
  - destruct (Nat.ltb_spec k (length moms)) as [G|_]; [unfold k in G; lia|].
    set (Cm := Mat (length moms) k _ : mat CF).
    assert (Rank : full_row_rank CF Cm).
    { intros u Hu i Hi. cbn [Cm nr nc me] in *. apply (poly_roots CF (length moms) k p u); [|exact HM|exact Hu|exact Hi].
      intros a b Ha Hb Eab. apply (proj1 (NoDup_nth (map fst pr) 0) HD); [now rewrite map_length|now rewrite map_length|exact Eab]. }
    destruct (lstsq_ec_full CF Cconj qr solve_triangular lstsq allclose0 cle conj_ok_C A rhs Cm moms HB) as (x & Ex & Lx & Ec & Hmin); [unfold Cm; cbn [nr]; lia|reflexivity|exact Lrhs|reflexivity|exact Rank|].
    rewrite Ex. cbn [bind]. eexists. assert (X : x = map snd pr); [|rewrite X; reflexivity]. apply Zero; [exact Lx|]. apply Hmin; [now rewrite map_length|].
    apply (list_ext _ _ 0); [now rewrite mv_length|]. rewrite mv_length. cbn [Cm nr]. intros i Hi. rewrite mv_nth by exact Hi. cbn [Cm nc me]. rewrite HMom by exact Hi. unfold true_moment. rewrite Sum. cbn [fst snd]. apply nsum_ext. intros j Hj. fold (p j) (r j). cring.
Qed.
End Res.
