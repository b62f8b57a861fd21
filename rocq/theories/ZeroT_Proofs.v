(** * Proofs about beta = np.inf *)
From Coq Require Import List Arith Reals Lra Lia Bool.
From Coquelicot Require Import Coquelicot.
From Verif Require Import Base FSum CBase CExp Herm_Model Herm_Spec Herm_Proofs Linalg_Model Stat_Model Stat_Proofs Pole_Model Pole_Proofs Pole_Proofs2 Pole_Time Matrix_Model Matrix_Time ZeroT_Model.
Import ListNotations.
Local Open Scope R_scope.

(** ** limits *)
Lemma exp_gt x : x < exp x.
Proof. assert (H := exp_ineq1_le x). lra. Qed.
Lemma exp_gt2 x : 0 < x -> x <= exp x - 1.
Proof. intros H. assert (E := exp_ineq1_le x). lra. Qed.
Lemma lim_bound (f : R -> R) (l c : R) : 0 < c -> (forall b, 0 < b -> Rabs (f b - l) <= / (c * b)) -> is_lim f p_infty l.
Proof.
  intros Hc H. apply is_lim_spec. intros [e He]. exists (/ (c * e)). intros b Hb. cbn [pos].
  assert (P : 0 < / (c * e)) by (apply Rinv_0_lt_compat; nra).
  apply Rle_lt_trans with (1 := H b ltac:(lra)).
  assert (E : 1 < c * b * e).
  { apply Rmult_lt_compat_l with (r := c * e) in Hb; [|nra]. rewrite Rinv_r in Hb by nra. lra. }
  assert (Q : 0 < c * b) by nra. apply Rmult_lt_reg_l with (c * b); [exact Q|]. rewrite Rinv_r by lra. lra.
Qed.
Lemma lim_scal_l (f : R -> R) (c l : R) : is_lim f p_infty l -> is_lim (fun b => c * f b) p_infty (c * l).
Proof. intros H. exact (is_lim_scal_l f c p_infty l H). Qed.
Lemma lim_scal_r (f : R -> R) (c l : R) : is_lim f p_infty l -> is_lim (fun b => f b * c) p_infty (l * c).
Proof. intros H. exact (is_lim_scal_r f c p_infty l H). Qed.
Lemma lim_exp_neg p : 0 < p -> is_lim (fun b => exp (- (b * p))) p_infty 0.
Proof.
  intros Hp. apply (lim_bound _ 0 p Hp). intros b Hb. rewrite Rminus_0_r, Rabs_right by (left; apply exp_pos).
  rewrite exp_Ropp. apply Rinv_le_contravar; [nra|]. assert (H := exp_gt (b * p)). lra.
Qed.
Lemma lim_fermi_pos p : 0 < p -> is_lim (fermi_fct p) p_infty 0.
Proof.
  intros Hp. apply (lim_bound _ 0 p Hp). intros b Hb. assert (B := fermi_bounds p b). rewrite Rminus_0_r, Rabs_right by lra.
  rewrite fermi_def. apply Rinv_le_contravar; [nra|]. assert (H := exp_gt (b * p)). lra.
Qed.
Lemma lim_fermi_neg p : p < 0 -> is_lim (fermi_fct p) p_infty 1.
Proof.
  intros Hp. apply (is_lim_ext (fun b => 1 - fermi_fct (- p) b)).
  - intros b. assert (S := fermi_symmetric p b). lra.
  - assert (E := is_lim_minus' (fun _ => 1) (fermi_fct (- p)) p_infty 1 0 (is_lim_const 1 p_infty) (lim_fermi_pos (- p) ltac:(lra))).
    rewrite Rminus_0_r in E. exact E.
Qed.
Lemma lim_fermi_0 : is_lim (fermi_fct 0) p_infty (1 / 2).
Proof.
  apply (is_lim_ext (fun _ => 1 / 2)); [|apply is_lim_const]. intros b. rewrite fermi_def, Rmult_0_r, exp_0. lra.
Qed.
Definition step (p : R) : R := if Rlt_dec p 0 then 1 else 0.
Lemma lim_fermi p : p <> 0 -> is_lim (fermi_fct p) p_infty (step p).
Proof. intros H. unfold step. destruct (Rlt_dec p 0); [now apply lim_fermi_neg|apply lim_fermi_pos; lra]. Qed.

(** ** the extended arithmetic *)
Lemma xfermi_fin eps b : xfermi_fct eps (XR b) = XR (fermi_fct eps b). Proof. reflexivity. Qed.
Lemma xinf_pos s : 0 < s -> xinf s = XPos. Proof. intros H. unfold xinf. destruct (Rlt_dec 0 s); [reflexivity|lra]. Qed.
Lemma xinf_neg s : s < 0 -> xinf s = XNeg. Proof. intros H. unfold xinf. destruct (Rlt_dec 0 s); [lra|]. destruct (Rlt_dec s 0); [reflexivity|lra]. Qed.
Lemma xinf_0 : xinf 0 = XNaN. Proof. unfold xinf. destruct (Rlt_dec 0 0); [lra|]. destruct (Rlt_dec 0 0); [lra|reflexivity]. Qed.
Lemma xfermi_inf p : p <> 0 -> xfermi_fct p XPos = XR (step p).
Proof.
  intros H. unfold xfermi_fct, step. cbn [xmul]. destruct (Rlt_dec p 0).
  - now rewrite xinf_neg by lra.
  - now rewrite xinf_pos by lra.
Qed.
Lemma xfermi_inf_0 : xfermi_fct 0 XPos = XNaN.
Proof. unfold xfermi_fct. cbn [xmul]. now rewrite xinf_0. Qed.
Lemma xbose_fin eps b v : bose_fct (NFlt eps) (NFlt b) = Ok v -> xbose_fct eps (XR b) = XR (nval v).
Proof.
  unfold bose_fct, xbose_fct. cbn [nmul nval xmul xlt xneg xexp xexpm1 xdiv cast_like]. destruct (Rlt_dec (b * eps) 700).
  - destruct (Req_EM_T _ _); [discriminate|]. intros H. injection H as <-. reflexivity.
  - intros H. injection H as <-. destruct (Req_EM_T (expm1 (- (b * eps))) 0) as [E|E]; [|reflexivity].
    exfalso. revert E. apply expm1_neq0. lra.
Qed.
Lemma xbose_inf eps : eps <> 0 -> xbose_fct eps XPos = XR (- step eps).
Proof.
  intros H. unfold xbose_fct, step. cbn [xmul]. destruct (Rlt_dec eps 0).
  - rewrite xinf_neg by lra. cbn [xlt xexpm1 xdiv]. destruct (Req_EM_T (-1) 0); [lra|]. f_equal. lra.
  - rewrite xinf_pos by lra. cbn [xlt xneg xexp xexpm1 xdiv]. destruct (Req_EM_T (-1) 0); [lra|]. f_equal. lra.
Qed.
Lemma xbose_ninf eps : eps <> 0 -> xbose_fct eps XNeg = XR (- step (- eps)).
Proof.
  intros H. unfold xbose_fct, step. cbn [xmul]. destruct (Rlt_dec (- eps) 0).
  - rewrite xinf_neg by lra. cbn [xlt xexpm1 xdiv]. destruct (Req_EM_T (-1) 0); [lra|]. f_equal. lra.
  - rewrite xinf_pos by lra. cbn [xlt xneg xexp xexpm1 xdiv]. destruct (Req_EM_T (-1) 0); [lra|]. f_equal. lra.
Qed.
Lemma xbose_inf_0 : xbose_fct 0 XPos = XNaN.
Proof. unfold xbose_fct. cbn [xmul]. now rewrite xinf_0. Qed.
Lemma xbose_ninf_0 : xbose_fct 0 XNeg = XNaN.
Proof. unfold xbose_fct. cbn [xmul]. now rewrite Ropp_0, xinf_0. Qed.
Lemma lim_bose eps : eps <> 0 -> is_lim (fun b => match bose_fct (NFlt eps) (NFlt b) with Ok v => nval v | Err _ => 0 end) p_infty (- step eps).
Proof.
  intros H.
  assert (E : forall b, 0 < b -> match bose_fct (NFlt eps) (NFlt b) with Ok v => nval v | Err _ => 0 end = / (exp (b * eps) - 1)).
  { intros b Hb. rewrite bose_float; [reflexivity|exact Logic.I|]. cbn [nval]. intros F. apply Rmult_integral in F. lra. }
  apply (is_lim_ext_loc (fun b => / (exp (b * eps) - 1))).
  { exists 0. intros b Hb. symmetry. now apply E. }
  unfold step. destruct (Rlt_dec eps 0).
  - assert (L := is_lim_minus' _ _ p_infty 0 1 (lim_exp_neg (- eps) ltac:(lra)) (is_lim_const 1 p_infty)).
    apply is_lim_inv in L; [|cbn; intros F; injection F; lra]. cbn in L. replace (/ (0 - 1)) with (- 1) in L by lra.
    revert L. apply is_lim_ext. intros b. replace (- (b * - eps)) with (b * eps) by ring. reflexivity.
  - rewrite Ropp_0. apply (lim_bound _ 0 eps); [lra|]. intros b Hb. assert (H2 := exp_gt2 (b * eps) ltac:(nra)).
    rewrite Rminus_0_r, Rabs_right.
    + apply Rinv_le_contravar; [nra|]. lra.
    + left. apply Rinv_0_lt_compat. nra.
Qed.

(** ** sums *)
Lemma lim_lsum {A} (l : list A) (h : A -> R -> R) (g : A -> R) : (forall x, In x l -> is_lim (h x) p_infty (g x)) ->
  is_lim (fun b => lsum (K := RF) (map (fun x => h x b) l)) p_infty (lsum (K := RF) (map g l)).
Proof.
  induction l as [|x l IH]; intros H; cbn [map].
  - apply is_lim_const.
  - rewrite (lsum_cons RF). apply (is_lim_ext (fun b => h x b + lsum (K := RF) (map (fun y => h y b) l))).
    + intros b. rewrite (lsum_cons RF). reflexivity.
    + apply is_lim_plus'; [apply H; now left|]. apply IH. intros y Hy. apply H. now right.
Qed.
Lemma xsum_fin {A} (l : list A) (f : A -> xr) (g : A -> R) : (forall x, In x l -> f x = XR (g x)) -> xsum (map f l) = XR (lsum (K := RF) (map g l)).
Proof.
  induction l as [|x l IH]; intros H; [reflexivity|]. cbn [map]. change (xsum (f x :: map f l)) with (xadd (f x) (xsum (map f l))).
  rewrite IH by (intros y Hy; apply H; now right). rewrite H by now left. now rewrite (lsum_cons RF).
Qed.
Lemma xadd_nan x : xadd x XNaN = XNaN. Proof. now destruct x. Qed.
Lemma xsum_nan l : In XNaN l -> xsum l = XNaN.
Proof.
  induction l as [|x l IH]; [now intros []|]. intros [->|H]; [reflexivity|]. change (xsum (x :: l)) with (xadd x (xsum l)). rewrite IH by exact H. apply xadd_nan.
Qed.

(** ** imaginary time *)
Lemma xtau_fin tau b : xtau_ok tau (XR b) = tau_ok tau b.
Proof. unfold xtau_ok, tau_ok. cbn [xle]. now destruct (Rle_dec 0 tau), (Rle_dec tau b). Qed.
Lemma xtau_inf tau : 0 <= tau -> xtau_ok tau XPos = true.
Proof. intros H. unfold xtau_ok. cbn [xle]. now destruct (Rle_dec 0 tau). Qed.
Lemma xsingle_fin tau p b : xsingle_pole_gf_tau tau p (XR b) = XR (single_pole_gf_tau tau p b).
Proof. unfold xsingle_pole_gf_tau, single_pole_gf_tau. destruct (Rle_dec 0 p); reflexivity. Qed.
Theorem xgf_tau_fin tau poles weights b : xgf_tau tau poles weights (XR b) = match gf_tau tau poles weights b with Ok g => Ok (XR g) | Err e => Err e end.
Proof.
  unfold xgf_tau, gf_tau. rewrite xtau_fin. destruct (tau_ok tau b); [|reflexivity]. apply (f_equal Ok). apply xsum_fin. intros [p w] _. cbn [fst snd].
  now rewrite xsingle_fin.
Qed.
Theorem xocc_fin poles weights b : xpole_occ poles weights (XR b) = XR (pole_occ poles weights b).
Proof. unfold xpole_occ, pole_occ. apply xsum_fin. intros [p w] _. reflexivity. Qed.
(** -exp(-tau eps) for positive poles, nothing for negative ones *)
Definition tau0 (tau p : R) : R := if Rlt_dec 0 p then - exp (- tau * p) else 0.
Lemma xsingle_inf tau p : p <> 0 -> xsingle_pole_gf_tau tau p XPos = XR (tau0 tau p).
Proof.
  intros H. unfold xsingle_pole_gf_tau, tau0, sgn. destruct (Rle_dec 0 p), (Rlt_dec 0 p); try lra.
  - rewrite xfermi_inf by lra. unfold step. destruct (Rlt_dec (- (1) * p) 0); [|lra]. cbn [xmul xexp xneg]. f_equal. ring.
  - cbn [xadd xmul]. rewrite xinf_neg by lra. destruct (Rlt_dec p 0); [|lra]. rewrite xfermi_inf by lra. cbn [xexp xneg xmul]. f_equal. ring.
Qed.
Lemma xsingle_inf_0 tau : xsingle_pole_gf_tau tau 0 XPos = XNaN.
Proof.
  unfold xsingle_pole_gf_tau. rewrite Rmult_0_r, xfermi_inf_0. destruct (Rle_dec 0 0); [|lra]. reflexivity.
Qed.
Lemma lim_single tau p : p <> 0 -> is_lim (single_pole_gf_tau tau p) p_infty (tau0 tau p).
Proof.
  intros H. apply (is_lim_ext (fun b => - (1 - fermi_fct p b) * exp (- tau * p))); [intros b; symmetry; apply single_pole_formula|].
  replace (tau0 tau p) with (- (1 - step p) * exp (- tau * p)).
  - assert (L := is_lim_minus' _ _ p_infty 1 (step p) (is_lim_const 1 p_infty) (lim_fermi p H)). apply is_lim_opp in L. cbn in L.
    exact (lim_scal_r _ _ _ L).
  - unfold tau0, step. destruct (Rlt_dec p 0), (Rlt_dec 0 p); try lra; ring.
Qed.
Lemma lim_single_0 tau : is_lim (single_pole_gf_tau tau 0) p_infty (- 1 / 2).
Proof.
  apply (is_lim_ext (fun b => - 1 / 2)); [|apply is_lim_const]. intros b. rewrite single_pole_formula, fermi_def, !Rmult_0_r, exp_0. lra.
Qed.
Theorem gf_tau_inf tau poles weights : 0 <= tau -> ~ In 0 poles ->
  let g := lsum (K := RF) (map (fun pw => snd pw * tau0 tau (fst pw)) (combine poles weights)) in
  xgf_tau tau poles weights XPos = Ok (XR g) /\ is_lim (fun b => match gf_tau tau poles weights b with Ok v => v | Err _ => 0 end) p_infty g.
Proof.
  intros Ht H0 g. assert (N : forall pw, In pw (combine poles weights) -> fst pw <> 0).
  { intros [p w] Hin E. cbn in E. subst p. apply in_combine_l in Hin. contradiction. }
  split.
  - unfold xgf_tau. rewrite xtau_inf by exact Ht. apply (f_equal Ok). unfold g. apply xsum_fin. intros [p w] Hin. cbn [fst snd].
    rewrite xsingle_inf by exact (N _ Hin). reflexivity.
  - apply (is_lim_ext_loc (fun b => lsum (K := RF) (map (fun pw => snd pw * single_pole_gf_tau tau (fst pw) b) (combine poles weights)))).
    + exists tau. intros b Hb. unfold gf_tau. rewrite tau_ok_true by lra. reflexivity.
    + unfold g. apply (lim_lsum (combine poles weights) (fun pw b => snd pw * single_pole_gf_tau tau (fst pw) b)). intros pw Hin.
      apply lim_scal_l. apply lim_single. now apply N.
Qed.
Theorem gf_tau_inf_nan tau poles weights w : 0 <= tau -> In (0, w) (combine poles weights) -> xgf_tau tau poles weights XPos = Ok XNaN.
Proof.
  intros Ht Hin. unfold xgf_tau. rewrite xtau_inf by exact Ht. apply (f_equal Ok). apply xsum_nan. apply in_map_iff. exists (0, w). split; [|exact Hin].
  cbn [fst snd]. now rewrite xsingle_inf_0.
Qed.
Theorem occ_inf poles weights : ~ In 0 poles ->
  let n := lsum (K := RF) (map (fun pw => snd pw * step (fst pw)) (combine poles weights)) in
  xpole_occ poles weights XPos = XR n /\ is_lim (pole_occ poles weights) p_infty n.
Proof.
  intros H0 n. assert (N : forall pw, In pw (combine poles weights) -> fst pw <> 0).
  { intros [p w] Hin E. cbn in E. subst p. apply in_combine_l in Hin. contradiction. }
  split.
  - unfold xpole_occ, n. apply xsum_fin. intros pw Hin. rewrite xfermi_inf by exact (N _ Hin). reflexivity.
  - unfold pole_occ, n. apply (lim_lsum (combine poles weights) (fun pw b => snd pw * fermi_fct (fst pw) b)). intros pw Hin.
    apply lim_scal_l. apply lim_fermi. now apply N.
Qed.
Theorem gf_tau_b_inf tau poles weights : 0 <= tau -> List.Forall (fun p => 0 < p) poles ->
  let g := lsum (K := RF) (map (fun pw => - snd pw * exp (- tau * fst pw)) (combine poles weights)) in
  xpole_gf_tau_b tau poles weights XPos = Ok (XR g) /\ is_lim (fun b => match pole_gf_tau_b tau poles weights b with Ok v => v | Err _ => 0 end) p_infty g.
Proof.
  intros Ht HP g. assert (N : forall pw, In pw (combine poles weights) -> 0 < fst pw).
  { intros [p w] Hin. apply in_combine_l in Hin. rewrite Forall_forall in HP. now apply HP. }
  split.
  - unfold xpole_gf_tau_b. rewrite xtau_inf by exact Ht.
    assert (E : existsb (fun p => if Rlt_dec p 0 then true else false) poles = false).
    { destruct (existsb _ _) eqn:E; [|reflexivity]. apply existsb_exists in E. destruct E as (p & Hin & E).
      rewrite Forall_forall in HP. specialize (HP p Hin). destruct (Rlt_dec p 0); [lra|discriminate]. }
    rewrite E. apply (f_equal Ok). unfold g. apply xsum_fin. intros pw Hin. assert (P := N _ Hin). change (xneg XPos) with XNeg. rewrite xbose_ninf by lra.
    unfold step. destruct (Rlt_dec (- fst pw) 0); [|lra]. cbn [xmul xexp]. f_equal. ring.
  - apply (is_lim_ext_loc (fun b => lsum (K := RF) (map (fun pw => bose_term tau b pw) (combine poles weights)))).
    + exists (tau + 1). intros b Hb. rewrite pole_gf_tau_b_formula by (try lra; exact HP). reflexivity.
    + unfold g. apply (lim_lsum (combine poles weights) (fun pw b => bose_term tau b pw)). intros pw Hin. assert (P := N _ Hin). unfold bose_term.
      assert (L := lim_bose (fst pw) ltac:(lra)). unfold step in L. destruct (Rlt_dec (fst pw) 0); [lra|]. rewrite Ropp_0 in L.
      assert (L' : is_lim (fun b => / (exp (b * fst pw) - 1)) p_infty 0).
      { revert L. apply is_lim_ext_loc. exists 0. intros b Hb. rewrite bose_float; [reflexivity|exact Logic.I|]. cbn [nval]. intros F. apply Rmult_integral in F. lra. }
      assert (M := is_lim_plus' _ _ p_infty 1 0 (is_lim_const 1 p_infty) L').
      assert (M2 := lim_scal_l _ (- snd pw) _ M).
      assert (M3 := lim_scal_r _ (exp (- tau * fst pw)) _ M2).
      replace (- snd pw * exp (- tau * fst pw)) with (- snd pw * (1 + 0) * exp (- tau * fst pw)) by ring. exact M3.
Qed.
Theorem gf_tau_b_inf_nan tau poles weights w : 0 <= tau -> (forall p, In p poles -> 0 <= p) -> In (0, w) (combine poles weights) ->
  xpole_gf_tau_b tau poles weights XPos = Ok XNaN.
Proof.
  intros Ht HP Hin. unfold xpole_gf_tau_b. rewrite xtau_inf by exact Ht.
  assert (E : existsb (fun p => if Rlt_dec p 0 then true else false) poles = false).
  { destruct (existsb _ _) eqn:E; [|reflexivity]. apply existsb_exists in E. destruct E as (p & Hp & E). specialize (HP p Hp). destruct (Rlt_dec p 0); [lra|discriminate]. }
  rewrite E. apply (f_equal Ok). apply xsum_nan. apply in_map_iff. exists (0, w). split; [|exact Hin]. cbn [fst snd]. change (xneg XPos) with XNeg. now rewrite xbose_ninf_0.
Qed.

(** ** real time *)
Definition is_clim (f : R -> C) (l : C) : Prop := is_lim (fun b => fst (f b)) p_infty (fst l) /\ is_lim (fun b => snd (f b)) p_infty (snd l).
Lemma is_clim_const c : is_clim (fun _ => c) c.
Proof. split; apply is_lim_const. Qed.
Lemma is_clim_plus f g a b : is_clim f a -> is_clim g b -> is_clim (fun x => Cplus (f x) (g x)) (Cplus a b).
Proof. intros (F1 & F2) (G1 & G2). split; cbn; apply is_lim_plus'; assumption. Qed.
Lemma is_clim_scal c f a : is_clim f a -> is_clim (fun x => Cmult c (f x)) (Cmult c a).
Proof. intros (F1 & F2). split; cbn; [apply is_lim_minus'|apply is_lim_plus']; apply lim_scal_l; assumption. Qed.
Lemma is_clim_real c (f : R -> R) (l : R) : is_lim f p_infty l -> is_clim (fun x => Cmult c (RtoC (f x))) (Cmult c (RtoC l)).
Proof. intros H. apply is_clim_scal. split; cbn; [exact H|apply is_lim_const]. Qed.
Lemma is_clim_nsum n (f : nat -> R -> C) (l : nat -> C) : (forall i, (i < n)%nat -> is_clim (f i) (l i)) -> is_clim (fun b => nsum (K := CF) n (fun i => f i b)) (nsum (K := CF) n l).
Proof.
  induction n as [|n IH]; intros H; cbn [nsum]; [apply (is_clim_const (RtoC 0))|].
  apply (is_clim_plus (fun b => nsum (K := CF) n (fun i => f i b)) (f n)); [apply IH; intros; apply H; lia|apply H; lia].
Qed.
Definition le0 (tt p : R) : C := Cmult (Cmult Ci (phase (RtoC p) tt)) (RtoC (step p)).
Definition gr0 (tt p : R) : C := Cmult (Cmult (Copp Ci) (phase (RtoC p) tt)) (RtoC (1 - step p)).
Lemma le_inf tt p : p <> 0 -> xsingle_pole_gf_le_t tt p XPos = Some (le0 tt p) /\ is_clim (single_pole_gf_le_t tt p) (le0 tt p).
Proof.
  intros H. split.
  - unfold xsingle_pole_gf_le_t. rewrite xfermi_inf by exact H. reflexivity.
  - unfold single_pole_gf_le_t, le0. apply (is_clim_real _ (fermi_fct p)). now apply lim_fermi.
Qed.
Lemma gr_inf tt p : p <> 0 -> xsingle_pole_gf_gr_t tt p XPos = Some (gr0 tt p) /\ is_clim (single_pole_gf_gr_t tt p) (gr0 tt p).
Proof.
  intros H. split.
  - unfold xsingle_pole_gf_gr_t. rewrite xfermi_inf by exact H. reflexivity.
  - unfold single_pole_gf_gr_t, gr0. apply (is_clim_real _ (fun b => 1 - fermi_fct p b)). apply (is_lim_minus' _ _ p_infty 1 (step p)); [apply is_lim_const|now apply lim_fermi].
Qed.
Lemma gr_le_nan tt : xsingle_pole_gf_gr_t tt 0 XPos = None /\ xsingle_pole_gf_le_t tt 0 XPos = None.
Proof. unfold xsingle_pole_gf_gr_t, xsingle_pole_gf_le_t. rewrite xfermi_inf_0. split; reflexivity. Qed.
Lemma gr_le_fin tt p b : xsingle_pole_gf_gr_t tt p (XR b) = Some (single_pole_gf_gr_t tt p b) /\ xsingle_pole_gf_le_t tt p (XR b) = Some (single_pole_gf_le_t tt p b).
Proof. split; reflexivity. Qed.
Lemma gr0_le0 tt p : 0 <= tt -> Cminus (gr0 tt p) (le0 tt p) = single_pole_gf_ret_t tt (RtoC p).
Proof.
  intros Ht. unfold gr0, le0, single_pole_gf_ret_t. destruct (Rle_dec 0 tt); [|lra]. rewrite RtoC_minus. ring.
Qed.

Section Siam.
Variable eigh : mat CF -> result (list R * mat CF).
Variable close0 : C -> bool.
Variable cast : C -> C.
Variables (e : C) (eb hop : list C) (ev : list R) (v : mat CF).
Let ham := hamiltonian_matrix (K := CF) Cconj cast e eb hop.
Hypothesis Hh : allclose0 (K := CF) close0 (msub ham (ctr (K := CF) Cconj ham)) = true.
Hypothesis He : eigh ham = Ok (ev, v).
Definition loc (f : R -> C) : C := nth 0 (recon_diag (K := CF) (Dec (K := CF) (rows_to 1 v) (map f ev) (cols_to 1 (ctr (K := CF) Cconj v))) (map f ev)) (RtoC 0).
Lemma siam_loc_eq f : siam_loc eigh close0 cast f e eb hop = Ok (loc f).
Proof. unfold siam_loc. fold ham. rewrite Hh, He. reflexivity. Qed.
Lemma xsiam_loc_eq (f : R -> ext CF) (g : R -> C) : (forall p, In p ev -> f p = Some (g p)) -> xsiam_loc eigh close0 cast f e eb hop = Ok (Some (loc g)).
Proof.
  intros H. unfold xsiam_loc. fold ham. rewrite Hh, He. cbn [negb bind].
  replace (forallb _ ev) with true.
  - apply (f_equal Ok). apply (f_equal (@Some C)). unfold loc. cbn [eig].
    replace (map (fun p => match f p with Some c => c | None => RtoC 0 end) ev) with (map g ev); [reflexivity|].
    apply map_ext_in. intros p Hp. now rewrite (H p Hp).
  - symmetry. apply forallb_forall. intros p Hp. now rewrite (H p Hp).
Qed.
Lemma xsiam_loc_nan (f : R -> ext CF) p : In p ev -> f p = None -> xsiam_loc eigh close0 cast f e eb hop = Ok None.
Proof.
  intros Hp E. unfold xsiam_loc. fold ham. rewrite Hh, He. cbn [negb bind].
  replace (forallb _ ev) with false; [reflexivity|]. symmetry. apply not_true_iff_false. intros F. rewrite forallb_forall in F. specialize (F p Hp). rewrite E in F. discriminate.
Qed.
Lemma loc_lim (f : R -> R -> C) (g : R -> C) : (forall p, In p ev -> is_clim (fun b => f b p) (g p)) -> is_clim (fun b => loc (f b)) (loc g).
Proof.
  intros H. unfold loc, recon_diag. cbn [rv rv_inv rows_to nr nc me]. destruct (nr v) as [|m]; cbn [Nat.min seq map nth]; [apply is_clim_const|].
  apply (is_clim_nsum (nc v) (fun j b => Cmult (Cmult (me (cols_to 1 (ctr (K := CF) Cconj v)) j 0) (me v 0 j)) (nth j (map (f b) ev) (RtoC 0)))
    (fun j => Cmult (Cmult (me (cols_to 1 (ctr (K := CF) Cconj v)) j 0) (me v 0 j)) (nth j (map g ev) (RtoC 0)))).
  intros j Hj. apply is_clim_scal. destruct (Nat.lt_ge_cases j (length ev)) as [Lj|Lj].
  - rewrite (nth_map_in _ ev j (RtoC 0) 0) by exact Lj. assert (E := H (nth j ev 0) (nth_In ev 0 Lj)). destruct E as (E1 & E2). split.
    + revert E1. apply is_lim_ext. intros b. now rewrite (nth_map_in _ ev j (RtoC 0) 0) by exact Lj.
    + revert E2. apply is_lim_ext. intros b. now rewrite (nth_map_in _ ev j (RtoC 0) 0) by exact Lj.
  - rewrite nth_overflow by (rewrite map_length; exact Lj). split; cbn.
    + apply (is_lim_ext (fun _ => 0)); [|apply is_lim_const]. intros b. now rewrite nth_overflow by (rewrite map_length; exact Lj).
    + apply (is_lim_ext (fun _ => 0)); [|apply is_lim_const]. intros b. now rewrite nth_overflow by (rewrite map_length; exact Lj).
Qed.
Lemma loc_sub (f g h : R -> C) : (forall p, Cminus (f p) (g p) = h p) -> Cminus (loc f) (loc g) = loc h.
Proof.
  intros H. unfold loc, recon_diag. cbn [rv rv_inv rows_to nr nc me]. destruct (nr v) as [|m]; cbn [Nat.min seq map nth]; [ring|].
  etransitivity; [symmetry; exact (nsum_sub CF _ _ _)|]. apply (nsum_ext CF). intros j Hj. change (@F0 CF) with (RtoC 0).
  destruct (Nat.lt_ge_cases j (length ev)) as [Lj|Lj].
  - rewrite !(nth_map_in _ ev j (RtoC 0) 0) by exact Lj. rewrite <- H.
    match goal with |- Fsub (Fmul (Fmul ?a ?b) ?x) (Fmul (Fmul ?a ?b) ?y) = _ => change (Cminus (Cmult (Cmult a b) x) (Cmult (Cmult a b) y) = Cmult (Cmult a b) (Cminus x y)) end. ring.
  - rewrite !nth_overflow by (rewrite map_length; exact Lj).
    match goal with |- Fsub ?x ?x = ?y => change (Cminus x x = y) end.
    match goal with |- _ = Fmul (Fmul ?a ?b) ?c => change (Fmul (Fmul a b) c) with (Cmult (Cmult a b) c) end. ring.
Qed.
Theorem siam_inf tt : ~ In 0 ev ->
  exists g l, xgf0_loc_gr_t eigh close0 cast tt e eb hop XPos = Ok (Some g) /\ xgf0_loc_le_t eigh close0 cast tt e eb hop XPos = Ok (Some l) /\
    (0 <= tt -> gf0_loc_ret_t eigh close0 cast tt e eb hop = Ok (Cminus g l)) /\
    is_clim (fun b => match gf0_loc_gr_t eigh close0 cast tt e eb hop b with Ok x => x | Err _ => RtoC 0 end) g /\
    is_clim (fun b => match gf0_loc_le_t eigh close0 cast tt e eb hop b with Ok x => x | Err _ => RtoC 0 end) l.
Proof.
  intros H0. assert (N : forall p, In p ev -> p <> 0) by (intros p Hp ->; contradiction).
  exists (loc (gr0 tt)), (loc (le0 tt)). split; [|split; [|split; [|split]]].
  - apply (xsiam_loc_eq (fun p => xsingle_pole_gf_gr_t tt p XPos)). intros p Hp. apply gr_inf. now apply N.
  - apply (xsiam_loc_eq (fun p => xsingle_pole_gf_le_t tt p XPos)). intros p Hp. apply le_inf. now apply N.
  - intros Ht. unfold gf0_loc_ret_t. rewrite siam_loc_eq. apply (f_equal Ok). symmetry. apply loc_sub. intros p. now apply gr0_le0.
  - assert (L := loc_lim (fun b p => single_pole_gf_gr_t tt p b) (gr0 tt) (fun p Hp => proj2 (gr_inf tt p (N p Hp)))).
    destruct L as (L1 & L2). unfold gf0_loc_gr_t. split; [revert L1|revert L2]; apply is_lim_ext; intros b; now rewrite siam_loc_eq.
  - assert (L := loc_lim (fun b p => single_pole_gf_le_t tt p b) (le0 tt) (fun p Hp => proj2 (le_inf tt p (N p Hp)))).
    destruct L as (L1 & L2). unfold gf0_loc_le_t. split; [revert L1|revert L2]; apply is_lim_ext; intros b; now rewrite siam_loc_eq.
Qed.
Theorem siam_inf_nan tt : In 0 ev ->
  xgf0_loc_gr_t eigh close0 cast tt e eb hop XPos = Ok None /\ xgf0_loc_le_t eigh close0 cast tt e eb hop XPos = Ok None.
Proof. intros H0. destruct (gr_le_nan tt) as (E1 & E2). split; apply (xsiam_loc_nan _ 0 H0); assumption. Qed.
Theorem siam_fin tt b : xgf0_loc_gr_t eigh close0 cast tt e eb hop (XR b) = match gf0_loc_gr_t eigh close0 cast tt e eb hop b with Ok g => Ok (Some g) | Err x => Err x end /\
  xgf0_loc_le_t eigh close0 cast tt e eb hop (XR b) = match gf0_loc_le_t eigh close0 cast tt e eb hop b with Ok g => Ok (Some g) | Err x => Err x end.
Proof.
  unfold gf0_loc_gr_t, gf0_loc_le_t. rewrite !siam_loc_eq. split.
  - apply (xsiam_loc_eq (fun p => xsingle_pole_gf_gr_t tt p (XR b))). intros p _. apply gr_le_fin.
  - apply (xsiam_loc_eq (fun p => xsingle_pole_gf_le_t tt p (XR b))). intros p _. apply gr_le_fin.
Qed.
End Siam.
