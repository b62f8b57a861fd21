(** * density_iw with Padé frequencies *)
From Coq Require Import List Arith ZArith Bool Reals Lia Lra Psatz Sorted.
From Coquelicot Require Import Coquelicot.
From Verif Require Import Base FSum CBase Stat_Model Stat_Proofs Linalg_Model Linalg_Proofs Mat Matrix_Proofs Pole_Model Pole_Proofs Pole_Proofs2 Pole_Time Pole_Fit Pole_Spec Pole_Bridge Density_Model Density_Proofs Density_Props
  Matsu_Main PadeFreq_Tanh PadeFreq_Model PadeFreq_Eig PadeFreq_Proofs PadeFreq_Main.
Import ListNotations.
Local Open Scope R_scope.

Definition wsum (F : R -> R) (P W : list R) : R := lsum (K := RF) (map (fun pr => snd pr * F (fst pr)) (combine P W)).
Lemma wsum_cons F p P w W : wsum F (p :: P) (w :: W) = w * F p + wsum F P W. Proof. reflexivity. Qed.
Lemma wsum_bound F b P W : (forall p, Rabs (F p) <= b p) -> Rabs (wsum F P W) <= lsum (K := RF) (map (fun pr => Rabs (snd pr) * b (fst pr)) (combine P W)).
Proof.
  intros H. revert W. induction P as [|p P IH]; intros [|w W]; try (unfold wsum; cbn; rewrite Rabs_R0; apply Rle_refl).
  rewrite wsum_cons. cbn [combine map fst snd]. change (Rabs (w * F p + wsum F P W) <= Rabs w * b p + lsum (K := RF) (map (fun pr => Rabs (snd pr) * b (fst pr)) (combine P W))).
  apply (Rle_trans _ _ _ (Rabs_triang _ _)). apply Rplus_le_compat; [|apply IH]. rewrite Rabs_mult. apply Rmult_le_compat_l; [apply Rabs_pos|apply H].
Qed.
Lemma re_flip (z : C) p r : fst (Cdiv (RtoC r) (Cminus z (RtoC p))) = - r * fst (Cinv (Cminus (RtoC p) z)).
Proof.
  destruct z as [a b]. unfold Cdiv. cbn. unfold Rdiv. replace ((a + - p) * ((a + - p) * 1) + (b + - 0) * ((b + - 0) * 1)) with ((p + - a) * ((p + - a) * 1) + (0 + - b) * ((0 + - b) * 1)) by ring. ring.
Qed.
Lemma quad_wsum izp rp beta P W : 2 / beta * nsum (K := RF) (length izp) (fun i => nth i rp 0 * fst (green_z (nth i izp (RtoC 0)) P W)) = wsum (fun p => fermi_poles izp rp beta p - 1 / 2) P W.
Proof.
  revert W. induction P as [|p P IH]; intros W; [|destruct W as [|w W]].
  1,2: cbn [green_z]; unfold wsum; cbn [combine map]; change (lsum (K := RF) []) with 0; transitivity (2 / beta * 0); [f_equal; refine (eq_trans (nsum_ext_lt _ _ (fun _ => 0) _) _); [intros; cbn; ring|apply (nsum_0 RF)]|ring].
  rewrite wsum_cons, <- IH. cbn [green_z]. unfold fermi_poles.
  transitivity (2 / beta * (nsum (K := RF) (length izp) (fun i => nth i rp 0 * (- w * fst (Cinv (Cminus (RtoC p) (nth i izp (RtoC 0)))))) + nsum (K := RF) (length izp) (fun i => nth i rp 0 * fst (green_z (nth i izp (RtoC 0)) P W)))).
  - f_equal. refine (eq_trans _ (nsum_add RF _ _ _)). apply nsum_ext_lt. intros i Hi. rewrite <- re_flip. set (a := Cdiv (RtoC w) _). set (b := green_z _ P W). clearbody a b. change (@Fadd RF) with Rplus. cbn. ring.
  - rewrite Rmult_plus_distr_l. f_equal. transitivity (- w * nsum (K := RF) (length izp) (fun i => nth i rp 0 / beta * (2 * fst (Cinv (Cminus (RtoC p) (nth i izp (RtoC 0))))))); [|ring].
    refine (eq_trans (eq_sym (nsum_mul_l RF _ _ _)) _). refine (eq_trans _ (nsum_mul_l RF _ _ _)). apply nsum_ext_lt. intros i Hi. change (@Fmul RF) with Rmult. unfold Rdiv. ring.
Qed.
Lemma occ_wsum P W beta : occupation P W beta = wsum (fun p => fermi_fct p beta) P W.
Proof. revert W. induction P as [|p P IH]; intros [|w W]; try reflexivity. rewrite wsum_cons. cbn [occupation]. rewrite IH, fermi_def. reflexivity. Qed.
Lemma wsum_sub F G P W : wsum F P W - wsum G P W = wsum (fun p => F p - G p) P W.
Proof. revert W. induction P as [|p P IH]; intros [|w W]; try (unfold wsum; cbn; ring). rewrite !wsum_cons, <- IH. ring. Qed.
Lemma wsum_half F P W : length P = length W -> wsum (fun p => F p - 1 / 2) P W = wsum F P W - lsum (K := RF) W / 2.
Proof.
  revert W. induction P as [|p P IH]; intros [|w W]; try discriminate; intros H; [unfold wsum; cbn; field|]. injection H as H. rewrite !wsum_cons, IH by exact H. change (lsum (K := RF) (w :: W)) with (w + lsum (K := RF) W). field.
Qed.
Lemma moment0_sum P W : length P = length W -> moment (K := RF) P W 0 = lsum (K := RF) W.
Proof.
  revert W. induction P as [|p P IH]; intros [|w W]; try discriminate; intros H; [reflexivity|]. injection H as H. cbn [moment]. rewrite IH by exact H. change (w * 1 + lsum (K := RF) W = w + lsum (K := RF) W). ring.
Qed.

Section D.
  Variable geig : mat CF -> mat CF -> result (list CF * mat CF).
  Variable invO : mat CF -> result (mat CF).
  Hypothesis HG : geig_ok geig.
  Hypothesis HI : inv_ok invO.
  Theorem pade_density qr tri lstsq allclose0 solve num beta izp rp (moms P W : list R) : solve_spec RF solve -> (1 <= num)%nat -> 0 < beta ->
    pade_frequencies geig invO num beta = Ok (izp, rp) -> moms <> [] -> length P = length W -> lsum (K := RF) W = nth 0 moms 0 ->
    exists poles resid n, gf_from_moments (K := RF) Rabs (fun x => x) solve moms None = Ok (poles, resid) /\
      density_iw lstsq (EC qr tri lstsq allclose0) solve izp (map (fun z => green_z z P W) izp) beta rp moms 0 = Ok n /\
      Rabs (n - occupation P W beta) <= lsum (K := RF) (map (fun pr => Rabs (snd pr) * fbound num (beta * fst pr / 2)) (combine P W)) + lsum (K := RF) (map (fun pr => Rabs (snd pr) * fbound num (beta * fst pr / 2)) (combine poles resid)).
  Proof.
    intros HS Hn Hb E Hm HL HW. destruct (gf_from_moments_spec RF Rabs (fun x => x) solve (fun x y E => E) HS moms None Hm ltac:(discriminate)) as (p & r & Eg & Lp & Lr & _ & _ & HM).
    assert (Im : forall (w : C) (q : R), In w izp -> In q p -> w <> RtoC q).
    { destruct (pade_cases geig invO HG HI num beta Hn Hb) as [(zs & rs & E1 & _ & _ & _ & Pz & _)|(x & E1 & _)]; rewrite E in E1; [|discriminate]. intros w q Hw _ Z. assert (Q : izp = map (fun z => Cmult Ci (RtoC z)) zs) by now injection E1. subst izp.
      apply in_map_iff in Hw. destruct Hw as (z & <- & Hz). rewrite Forall_forall in Pz. apply Pz in Hz. apply (f_equal snd) in Z. cbn in Z. lra. }
    destruct (C31_error qr tri lstsq allclose0 solve izp beta rp moms P W p r Eg Im) as (n & En & Hd). exists p, r, n. split; [exact Eg|]. split; [exact En|]. cbv zeta in Hd. rewrite Hd, !quad_wsum, !occ_wsum.
    assert (LW : length p = length r) by congruence. rewrite !wsum_half by assumption.
    assert (Hr : lsum (K := RF) r = nth 0 moms 0). { rewrite <- (moment0_sum p r LW). assert (Q := HM 0%nat ltac:(destruct moms; [congruence|cbn; lia])). rewrite map_id in Q. rewrite (moment_fn RF). exact Q. }
    rewrite HW, Hr. replace (wsum (fermi_poles izp rp beta) P W - nth 0 moms 0 / 2 - wsum (fun p0 => fermi_fct p0 beta) P W - (wsum (fermi_poles izp rp beta) p r - nth 0 moms 0 / 2 - wsum (fun p0 => fermi_fct p0 beta) p r)) with ((wsum (fermi_poles izp rp beta) P W - wsum (fun p0 => fermi_fct p0 beta) P W) - (wsum (fermi_poles izp rp beta) p r - wsum (fun p0 => fermi_fct p0 beta) p r)) by ring.
    rewrite !wsum_sub. assert (B : forall q, Rabs (fermi_poles izp rp beta q - fermi_fct q beta) <= fbound num (beta * q / 2)) by (intros q; now apply (pade_fermi geig invO HG HI)).
    assert (B1 := wsum_bound _ (fun q => fbound num (beta * q / 2)) P W B). assert (B2 := wsum_bound _ (fun q => fbound num (beta * q / 2)) p r B). cbv beta in B1, B2.
    apply (Rle_trans _ _ _ (Rabs_triang _ _)). rewrite Rabs_Ropp. apply Rplus_le_compat; assumption.
  Qed.
  (** the default moments: the tail is 1/z *)
  Theorem pade_density1 qr tri lstsq allclose0 solve num beta izp rp (P W : list R) : solve_spec RF solve -> (1 <= num)%nat -> 0 < beta ->
    pade_frequencies geig invO num beta = Ok (izp, rp) -> length P = length W -> lsum (K := RF) W = 1 ->
    exists n, density_iw lstsq (EC qr tri lstsq allclose0) solve izp (map (fun z => green_z z P W) izp) beta rp [1] 0 = Ok n /\
      Rabs (n - occupation P W beta) <= lsum (K := RF) (map (fun pr => Rabs (snd pr) * fbound num (beta * fst pr / 2)) (combine P W)).
  Proof.
    intros HS Hn Hb E HL HW. destruct (pade_density qr tri lstsq allclose0 solve num beta izp rp [1] P W HS Hn Hb E ltac:(discriminate) HL HW) as (p & r & n & Eg & En & B).
    exists n. split; [exact En|]. eapply Rle_trans; [exact B|]. right.
    match goal with |- _ + ?t = _ => replace t with 0; [ring|] end. symmetry.
    unfold gf_from_moments in Eg. cbn [length Nat.eqb] in Eg. rewrite pts_ok in Eg by lia. cbn [bind seq map] in Eg. destruct (solve _ _) as [r'|] in Eg; [|discriminate]. cbn [bind] in Eg.
    assert (Q : forall a b : list R * list R, Ok a = Ok b -> fst a = fst b) by (intros a b Z; now injection Z as ->). apply Q in Eg. cbn [fst] in Eg. rewrite <- Eg.
    assert (C0 : cheb 1 0 = 0). { unfold cheb. change (INR 1) with 1. change (INR 0) with 0. replace (1 / 2 * PI / 1 * (- (1) + 1 + 2 * 0)) with 0 by field. apply sin_0. }
    rewrite C0, Rmult_0_r. assert (F0 : fbound num (beta * 0 / 2) = 0). { unfold fbound. replace (beta * 0 / 2) with 0 by field. rewrite Rabs_R0, pow_i by lia. unfold Rdiv. ring. }
    destruct r as [|x r]; [reflexivity|]. cbn [combine map fst snd lsum fold_right]. rewrite F0. rewrite Rmult_0_r. change (0 + lsum (K := RF) (map (fun pr => Rabs (snd pr) * fbound num (beta * fst pr / 2)) (combine [] r)) = 0). cbn. ring.
  Qed.
End D.
