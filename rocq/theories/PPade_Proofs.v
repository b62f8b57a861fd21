(** * The pole based Padé approximation reproduces rational functions: number of poles, poles, zeros *)
From Coq Require Import List Arith ZArith Lia Lra Bool Reals Field Permutation.
From Coquelicot Require Import Complex.
From Verif Require Import Base FSum CBase LinPred_Burg Herm_Model Herm_Spec Herm_Proofs Herm_Gauss Pade_Spec PadeKind_Proofs Linalg_Model Linalg_Proofs Mat Cauchy
  NPoles_Model NPoles_Proofs Rat_Model Pole_Model PPade_Lin PPade_Rank PPade_Spec PPade_Model PPade_Basis.
Import ListNotations.
Local Open Scope fld_scope.
Section Gen.
Variable K : Fld.
Add Field KFppg : (Fth K).
Lemma fdiv_mul (x y : K) : y <> 0 -> x / y * y = x.
Proof. intros H. field. exact H. Qed.
End Gen.

(** ** counting singular values *)
Lemma desc_nonzero (s : list R) : (forall i, (i < length s)%nat -> (0 <= nth i s 0)%R) ->
  (forall i j, (i <= j)%nat -> (j < length s)%nat -> (nth j s 0 <= nth i s 0)%R) ->
  exists r, (r <= length s)%nat /\ forall i, (i < length s)%nat -> (nth i s 0%R <> 0%R <-> (i < r)%nat).
Proof.
  induction s as [|a s IH]; intros Hp Hd; [exists 0%nat; cbn; split; [lia|intros; lia]|].
  destruct IH as (r & Hr & H).
  - intros i Hi. apply (Hp (S i)). cbn; lia.
  - intros i j Hij Hj. apply (Hd (S i) (S j)); cbn; lia.
  - destruct (Req_EM_T a 0) as [->|N].
    + exists 0%nat. split; [lia|]. intros i Hi. split; [|lia]. intros X. exfalso. apply X. apply Rle_antisym; [apply (Hd 0%nat i); lia|apply Hp; exact Hi].
    + exists (S r). split; [cbn; lia|]. intros i Hi. destruct i; cbn [nth]; [split; [lia|intros _; exact N]|]. rewrite H by (cbn in Hi; lia). lia.
Qed.
Lemma filter_count {A} (d : A) (g : A -> bool) l r : (r <= length l)%nat -> (forall i, (i < length l)%nat -> g (nth i l d) = negb (i <? r)%nat) -> length (filter g l) = (length l - r)%nat.
Proof.
  revert r. induction l as [|a l IH]; intros r Hr H; [reflexivity|]. cbn [filter length].
  assert (Ha := H 0%nat ltac:(cbn; lia)). cbn [nth] in Ha. rewrite Ha. destruct r as [|r]; cbn [Nat.ltb Nat.leb negb].
  - cbn [length]. rewrite (IH 0%nat); [lia|lia|]. intros i Hi. exact (H (S i) ltac:(cbn; lia)).
  - rewrite (IH r); [lia|cbn in Hr; lia|]. intros i Hi. exact (H (S i) ltac:(cbn; lia)).
Qed.
Lemma svd_reveals M sv : svd_spec M sv -> exists r, (r <= length (fst sv))%nat /\
  (forall i, (i < length (fst sv))%nat -> (nth i (fst sv) 0%R <> 0%R <-> (i < r)%nat)) /\
  reveals CF r (nc M) (me (snd sv)) (fun w => forall i, (i < nr M)%nat -> nsum (nc M) (fun j => me M i j * w j) = 0).
Proof.
  destruct sv as [s vh]. intros (H1 & H2 & H3 & H4 & H5 & H6 & H7). cbn [fst snd]. destruct (desc_nonzero s H2 H3) as (r & Hr & Hn). exists r. split; [exact Hr|]. split; [exact Hn|].
  split; [exact H6|]. split; [lia|]. intros w. rewrite H7. split.
  - intros H i Hi. apply H; [lia|]. apply Hn; lia.
  - intros H i Hi Hx. apply H. apply Hn; assumption.
Qed.
Lemma null_dim_count svd tol M r : length (fst (svd M)) = Nat.min (nr M) (nc M) -> (0 < tol)%R -> (0 < r)%nat -> (r <= length (fst (svd M)))%nat ->
  (forall i, (i < length (fst (svd M)))%nat -> (nth i (fst (svd M)) 0%R <> 0%R <-> (i < r)%nat)) ->
  (forall i, (i < length (fst (svd M)))%nat -> (0 <= nth i (fst (svd M)) 0)%R) ->
  resolved tol M (fst (svd M)) -> svd_null_dim svd tol M = Z.of_nat (Nat.min (nr M) (nc M) - r).
Proof.
  intros HL Ht Hr0 Hr Hn Hp Hres. unfold svd_null_dim. f_equal. rewrite <- HL. apply (filter_count 0%R); [exact Hr|]. intros i Hi.
  assert (S0 : (0 < nth 0 (fst (svd M)) 0)%R).
  { assert (A := Hp 0%nat ltac:(lia)). assert (B := proj2 (Hn 0%nat ltac:(lia)) Hr0). lra. }
  assert (T : (0 < tol * nth 0 (fst (svd M)) 0 * INR (Nat.max (nr M) (nc M)))%R).
  { apply Rmult_lt_0_compat; [now apply Rmult_lt_0_compat|]. apply (lt_INR 0). lia. }
  unfold below. destruct (Nat.ltb_spec i r) as [A|A]; cbn [negb].
  - destruct (Rlt_dec _ _) as [B|B]; [|reflexivity]. exfalso. assert (C := Hres i Hi (proj2 (Hn i Hi) A)). lra.
  - destruct (Rlt_dec _ _) as [B|B]; [reflexivity|]. exfalso. apply B. destruct (Req_EM_T (nth i (fst (svd M)) 0%R) 0) as [E|E]; [rewrite E; exact T|]. apply Hn in E; [lia|exact Hi].
Qed.

(** ** scaling *)
Lemma nsum_nonneg n (f : nat -> R) : (forall i, (i < n)%nat -> (0 <= f i)%R) -> (0 <= nsum (K := RF) n f)%R.
Proof. induction n as [|n IH]; intros H; [apply Rle_refl|]. cbn. apply Rplus_le_le_0_compat; [apply IH; intros; apply H; lia|apply H; lia]. Qed.
Lemma nsum_pos n (f : nat -> R) j : (forall i, (i < n)%nat -> (0 <= f i)%R) -> (j < n)%nat -> (0 < f j)%R -> (0 < nsum (K := RF) n f)%R.
Proof.
  induction n as [|n IH]; intros H Hj Hf; [lia|]. cbn. destruct (Nat.eq_dec j n) as [->|N].
  - apply Rplus_le_lt_0_compat; [apply nsum_nonneg; intros; apply H; lia|exact Hf].
  - apply Rplus_lt_le_0_compat; [apply IH; [intros; apply H; lia|lia|exact Hf]|apply H; lia].
Qed.
Lemma rownorm_pos (A : mat CF) i j : (j < nc A)%nat -> me A i j <> 0 -> (0 < rownorm A i)%R.
Proof.
  intros Hj H. unfold rownorm. apply sqrt_lt_R0. apply (nsum_pos _ _ j); [intros; apply Rle_0_sqr|exact Hj|]. apply Rmult_lt_0_compat; now apply Cmod_gt_0.
Qed.
Lemma scaling_neq0 w A i j : (i < nr A)%nat -> (j < nc A)%nat -> me A i j <> 0 -> wgt w i <> 0%R -> nth i (scaling w A) 0 <> (0 : CF).
Proof.
  intros Hi Hj HA Hw. unfold scaling. rewrite nth_map_seq by exact Hi. intros E. apply RtoC_inj in E. assert (P := rownorm_pos A i j Hj HA).
  apply Rmult_integral in E. destruct E as [E|E]; [|contradiction]. revert E. unfold Rdiv. rewrite Rmult_1_l. apply Rinv_neq_0_compat. lra.
Qed.
Lemma vmul_nth (u v : list CF) i : length u = length v -> nth i (vmul u v) 0 = nth i u 0 * nth i v 0.
Proof.
  intros H. unfold vmul. revert v H i. induction u as [|a u IH]; intros [|b v] H i; try discriminate; [destruct i; cbn [combine map nth]; cring|].
  destruct i; [reflexivity|]. cbn [combine map nth]. apply IH. now injection H.
Qed.
Lemma vmul_length (u v : list CF) : length u = length v -> length (vmul u v) = length u.
Proof. intros H. unfold vmul. rewrite map_length, combine_length. lia. Qed.
Lemma scaling_length w A : length (scaling w A) = nr A.
Proof. unfold scaling. now rewrite map_length, seq_length. Qed.

Lemma slice_nat c k : (0 <= k)%Z -> (k <= c)%Z -> slice_cols c k = k.
Proof. intros H1 H2. unfold slice_cols. destruct (Z.ltb_spec k 0); lia. Qed.

Section Data.
Variable phi : nat -> CF -> CF.
Hypothesis Hphi : graded phi.
Variables (k n0 dn : nat) (p q b : nat -> CF) (z fct : list CF) (weight : option (list R)).
Let N := length z.
Let zi := fun i => nth i z 0 : CF.
Let fi := fun i => nth i fct 0 : CF.
Hypothesis Hdn : (dn = 0 \/ dn = 1)%nat.
Hypothesis Hk : (n0 + dn = k)%nat.
Hypothesis Hp : distinct CF k p.
Hypothesis HQ : forall x, ev CF (S k) q x = prodsub CF (map p (seq 0 k)) x.
Hypothesis Hq : q k = 1.
Hypothesis HP : forall j, (j < k)%nat -> ev CF (S n0) b (p j) <> 0.
Hypothesis Hb : b n0 <> 0.
Hypothesis Hz : distinct CF N zi.
Hypothesis Hzp : forall i j, (i < N)%nat -> (j < k)%nat -> zi i <> p j.
Hypothesis Hfl : length fct = N.
Hypothesis Hf : forall i, (i < N)%nat -> fi i * ev CF (S k) q (zi i) = ev CF (S n0) b (zi i).
Hypothesis Hf0 : forall i, (i < N)%nat -> fi i <> 0.
Hypothesis Hw : forall i, (i < N)%nat -> wgt weight i <> 0%R.
Hypothesis HN : (2 * k + 5 <= N + dn)%nat.
Let degree := (- Z.of_nat dn)%Z.

Section NP.
Variable qrr : mat CF -> mat CF * mat CF.
Variable svd : mat CF -> list R * mat CF.
Variable tol : R.
Hypothesis Hqrr : forall A, qrr_spec CF A (qrr A).
Hypothesis Hsvd : forall M, svd_spec M (svd M).
Hypothesis Htol : (0 < tol)%R.

Theorem data_rank_exact n : (0 <= n <= (Z.of_nat N - degree) / 2)%Z -> resolved tol (np_mat phi qrr z fct weight degree n) (fst (svd (np_mat phi qrr z fct weight degree n))) ->
  data_rank phi qrr svd tol z fct weight degree n = (2 * n + degree + 2 - Z.max 0 (n - Z.of_nat k + 1))%Z.
Proof.
  intros Hn Hres. set (nn := Z.to_nat n). set (n' := (S nn - dn)%nat).
  assert (Hnn : (2 * nn <= N + dn)%nat) by (unfold degree in Hn; assert (2 * ((Z.of_nat N - - Z.of_nat dn) / 2) <= Z.of_nat N - - Z.of_nat dn)%Z by (apply Z.mul_div_le; lia); lia).
  assert (Hn' : (n' + dn = S nn)%nat) by lia.
  set (vander := Mat N (S (Z.to_nat (Z.max n (n + degree) + 1))) (fun i j => phi j (nth i z 0)) : mat CF).
  assert (Ev : Z.of_nat (nc vander) = (n + 2)%Z) by (unfold vander; cbn [nc]; unfold degree; lia).
  set (numer := cols_slice (n + degree + 1) vander). set (denom := cols_slice (n + 1) vander).
  assert (Nn : nc numer = n'). { unfold numer, cols_slice, cols_to. cbn [nc]. rewrite slice_nat by (unfold degree; lia). unfold degree. lia. }
  assert (Nd : nc denom = S nn). { unfold denom, cols_slice, cols_to. cbn [nc]. rewrite slice_nat by lia. lia. }
  set (s := scaling weight (hcat denom numer)).
  assert (Hs : forall i, (i < N)%nat -> nth i s 0 <> (0 : CF)).
  { intros i Hi. apply (scaling_neq0 weight (hcat denom numer) i 0%nat); [exact Hi|cbn [hcat nc]; lia| |apply Hw; exact Hi].
    cbn [hcat me]. rewrite Nd. cbn [Nat.ltb Nat.leb]. unfold denom, cols_slice, cols_to, vander. cbn [me]. now apply graded_first. }
  set (A1 := rscale (vmul s fct) denom). set (A2 := rscale s numer).
  assert (Ls : length s = N) by (unfold s; rewrite scaling_length; reflexivity).
  assert (E1 : forall i j, (i < N)%nat -> me A1 i j = nth i s 0 * nth i fct 0 * phi j (zi i)) by (intros i j _; unfold A1, rscale; cbn [me]; rewrite vmul_nth by congruence; reflexivity).
  assert (E2 : forall i j, (i < N)%nat -> me A2 i j = nth i s 0 * phi j (zi i)) by reflexivity.
  assert (N1 : nr A1 = N /\ nc A1 = S nn) by (split; [reflexivity|exact Nd]). assert (N2 : nr A2 = N /\ nc A2 = n') by (split; [reflexivity|exact Nn]). destruct N1 as (N1a & N1b), N2 as (N2a & N2b).
  destruct (qrr_basis phi N (S nn) zi (fun i => nth i s 0 * nth i fct 0) A1 Hphi Hz ltac:(intros i Hi E; destruct (fmul_eq0 CF _ _ E) as [F|F]; [exact (Hs i Hi F)|exact (Hf0 i Hi F)]) N1a N1b E1 (qrr A1) (Hqrr A1) ltac:(lia)) as (R1 & C1 & W1 & HW1 & T1).
  destruct (qrr_basis phi N n' zi (fun i => nth i s 0) A2 Hphi Hz Hs N2a N2b E2 (qrr A2) (Hqrr A2) ltac:(lia)) as (R2 & C2 & W2 & HW2 & T2).
  assert (EM : np_mat phi qrr z fct weight degree n = hcat (fst (qrr A1)) (fst (qrr A2))) by reflexivity.
  set (M := np_mat phi qrr z fct weight degree n) in *. assert (MN : nr M = N /\ nc M = (S nn + n')%nat) by (rewrite EM; cbn [hcat nr nc]; split; [exact R1|lia]). destruct MN as (MNr & MNc).
  destruct (svd_reveals M (svd M) (Hsvd M)) as (r & Hr & Hrn & Hrev).
  assert (Er : (r + (S nn - k) = S nn + n')%nat).
  { rewrite MNc, MNr in Hrev. eapply (rational_rank CF k n0 dn N p zi q b fi Hk Hp HQ HP Hz Hzp Hf nn n' r _ W1 W2 _ Hn' ltac:(lia) HW1 HW2); [|exact Hrev].
    intros w. assert (Row : forall i, (i < N)%nat -> nsum (S nn + n') (fun j => me M i j * w j)
       = nth i s 0 * (fi i * ev CF (S nn) (fun j => nsum (S nn) (fun l => W1 j l * w l)) (zi i) + ev CF n' (fun j => nsum n' (fun l => W2 j l * w (S nn + l)%nat)) (zi i))).
    { intros i Hi. rewrite EM, nsum_split. cbn [hcat me]. rewrite C1.
      rewrite (nsum_ext CF (S nn) _ (fun j => me (fst (qrr A1)) i j * w j)) by (intros j Hj; now rewrite (proj2 (Nat.ltb_lt j (S nn)) Hj)). rewrite T1 by exact Hi.
      rewrite (nsum_ext CF n' _ (fun j => me (fst (qrr A2)) i j * w (S nn + j)%nat)) by (intros j Hj; rewrite (proj2 (Nat.ltb_ge (S nn + j) (S nn))) by lia; now replace (S nn + j - S nn)%nat with j by lia).
      rewrite (T2 (fun j => w (S nn + j)%nat)) by exact Hi. unfold fi. cring. }
    split.
    - intros H i Hi. assert (E := H i Hi). rewrite Row in E by exact Hi. destruct (fmul_eq0 CF _ _ E) as [F|F]; [contradiction (Hs i Hi)|exact F].
    - intros H i Hi. rewrite Row, H by exact Hi. cring. }
  assert (Hsv := Hsvd M). destruct (svd M) as [sv vh] eqn:Esv. destruct Hsv as (S1 & S2 & _). 
  unfold data_rank. fold M. rewrite (null_dim_count svd tol M r); rewrite ?Esv; cbn [fst] in *; try assumption.
  - rewrite MNr, MNc. unfold mat_cols. replace (Z.max n (n + degree) + 2)%Z with (n + 2)%Z by (unfold degree; lia).
    rewrite !slice_nat by (unfold degree; lia). fold N. unfold degree. rewrite S1, MNr, MNc in Hr. lia.
  - lia.
Qed.

Theorem number_poles_exact_data n0' : match n0' with None => (2 * Z.min ((Z.of_nat N - degree) / 2) 50 + degree < Z.of_nat N)%Z | Some n => (1 <= n /\ 2 * n + degree < Z.of_nat N)%Z end ->
  (forall n, (0 <= n <= (Z.of_nat N - degree) / 2)%Z -> resolved tol (np_mat phi qrr z fct weight degree n) (fst (svd (np_mat phi qrr z fct weight degree n)))) ->
  exists fuel, forall fuel', (fuel <= fuel')%nat -> number_poles_data phi qrr svd tol fuel' z fct degree weight n0' = Ok (Z.of_nat k, false).
Proof.
  intros H0 Hres. unfold number_poles_data. fold N.
  apply (number_poles_exact (data_rank phi qrr svd tol z fct weight degree) (Z.of_nat N) degree (Z.of_nat k)); [unfold degree; lia|lia| |unfold degree; lia|exact H0].
  intros n Hn. apply data_rank_exact; [exact Hn|now apply Hres].
Qed.
End NP.
(** ** poles and zeros *)
Section Roots.
Variables (qr qrr : mat CF -> mat CF * mat CF) (svd : mat CF -> list R * mat CF) (eig : mat CF -> mat CF -> list CF) (median : list CF -> CF).
Hypothesis Hqr : forall A, qr_spec CF Cconj A (qr A).
Hypothesis Hqrr : forall A, qrr_spec CF A (qrr A).
Hypothesis Hsvd : forall M, svd_spec M (svd M).
Hypothesis Heig : eig_ok eig.
Hypothesis Hmed : median fct <> 0.

Lemma conj_ok_C : conj_ok CF Cconj.
Proof. repeat split; cbn; intros; [apply Cconj_plus|apply Cconj_mult|apply Cconj_conj]. Qed.

Lemma pencil_exact m g W (zq qq : mat CF) : (0 < m)%nat -> (m < N)%nat -> g m <> 0 -> inj CF m W -> nc zq = m -> nc qq = m ->
  (forall w : nat -> CF, (forall i, (i < nr zq)%nat -> nsum m (fun j => me zq i j * w j) + nsum m (fun j => me qq i j * w (m + j)%nat) = 0)
    <-> exists t, forall i, (i < N)%nat -> zi i * ev CF m (fun j => nsum m (fun l => W j l * w l)) (zi i) + ev CF m (fun j => nsum m (fun l => W j l * w (m + l)%nat)) (zi i) = t * ev CF (S m) g (zi i)) ->
  exists lam, pencil svd eig m zq qq = Ok lam /\ length lam = m /\ forall x, prodsub CF lam x * g m = ev CF (S m) g x.
Proof.
  intros Hm HmN Hg HW Nz Nq Hker. set (M := hcat zq qq). assert (MN : nc M = (m + m)%nat) by (unfold M; cbn [hcat nc]; lia).
  destruct (svd_reveals M (svd M) (Hsvd M)) as (r & Hr & Hrn & Hrev). assert (HS := Hsvd M). rewrite MN in Hrev.
  unfold pencil. fold M. destruct (svd M) as [sv vh]. cbn [snd fst] in *. destruct HS as (_ & _ & _ & V1 & V2 & _).
  assert (NA : nr (cols_to m (rows_to m vh)) = m /\ nc (cols_to m (rows_to m vh)) = m /\ nr (cols_from m (rows_to m vh)) = m /\ nc (cols_from m (rows_to m vh)) = m) by (cbn [cols_to cols_from rows_to nr nc]; lia).
  destruct NA as (A1 & A2 & B1 & B2). rewrite A1, A2, B1, B2, Nat.eqb_refl. cbn [andb].
  eexists. split; [reflexivity|].
  eapply (pencil_roots CF m N zi g W (me vh) r (fun w => forall i, (i < nr M)%nat -> nsum (m + m) (fun j => me M i j * w j) = 0)); try assumption.
  - intros w. rewrite <- Hker. cbn [M hcat nr]. 
    assert (E : forall i, nsum (m + m) (fun j => me M i j * w j) = nsum m (fun j => me zq i j * w j) + nsum m (fun j => me qq i j * w (m + j)%nat)).
    { intros i. rewrite nsum_split. unfold M. cbn [hcat me]. rewrite Nz. f_equal; apply nsum_ext; intros j Hj.
      - now rewrite (proj2 (Nat.ltb_lt j m) Hj). - rewrite (proj2 (Nat.ltb_ge (m + j) m)) by lia. now replace (m + j - m)%nat with j by lia. }
    split; intros H i Hi; [rewrite <- E|rewrite E]; now apply H.
  - exact (Heig m _ _ A1 A2 B1 B2).
Qed.

(** rows of P @ (z*Q) and P @ Q *)
Lemma perp_rows (P Q : mat CF) m (w : nat -> CF) i : nc P = N -> nc Q = m ->
  nsum m (fun j => me (mm P (rscale z Q)) i j * w j) + nsum m (fun j => me (mm P Q) i j * w (m + j)%nat)
  = nsum N (fun l => me P i l * (zi l * nsum m (fun j => me Q l j * w j) + nsum m (fun j => me Q l j * w (m + j)%nat))).
Proof.
  intros HPn HQn. cbn [mm rscale me]. rewrite HPn.
  rewrite (nsum_ext CF N _ (fun l => nsum m (fun j => me P i l * (nth l z 0 * me Q l j) * w j) + nsum m (fun j => me P i l * me Q l j * w (m + j)%nat))).
  - rewrite nsum_add. f_equal; rewrite (nsum_swap CF N m); apply nsum_ext; intros j Hj; now rewrite nsum_mul_r.
  - intros l Hl. rewrite (nsum_ext CF m (fun j => me P i l * (nth l z 0 * me Q l j) * w j) (fun j => me P i l * zi l * (me Q l j * w j))) by (intros; unfold zi; cring).
    rewrite (nsum_ext CF m (fun j => me P i l * me Q l j * w (m + j)%nat) (fun j => me P i l * (me Q l j * w (m + j)%nat))) by (intros; cring). rewrite !nsum_mul_l. cring.
Qed.

Let f' := map (fun x => x / median fct) fct.
Lemma f'_nth i : nth i f' 0 = fi i / median fct.
Proof.
  unfold f', fi. destruct (Nat.lt_ge_cases i (length fct)) as [A|A].
  - now rewrite (nth_map_in _ _ _ _ (0 : CF)) by exact A.
  - rewrite !nth_overflow by (rewrite ?map_length; exact A). rewrite (Fdiv_def (Fth CF)). cring.
Qed.
Let b' := fun j => b j / median fct.
Lemma b'_ev x n : ev CF n b' x = ev CF n b x / median fct.
Proof. unfold b'. rewrite (Fdiv_def (Fth CF)). rewrite (ev_ext CF n _ (fun j => Finv (median fct) * b j)) by (intros; rewrite (Fdiv_def (Fth CF)); cring). rewrite ev_scal. cring. Qed.
Lemma div_neq0 (x : CF) : x <> 0 -> x / median fct <> 0.
Proof. intros H E. apply H. rewrite <- (fdiv_mul CF x (median fct) Hmed), E. cring. Qed.
Lemma Hf' i : (i < N)%nat -> nth i f' 0 * ev CF (S k) q (zi i) = ev CF (S n0) b' (zi i).
Proof. intros Hi. rewrite f'_nth, b'_ev, <- Hf by exact Hi. rewrite !(Fdiv_def (Fth CF)). cring. Qed.
Lemma Hf0' i : (i < N)%nat -> nth i f' 0 <> (0 : CF).
Proof. intros Hi. rewrite f'_nth. apply div_neq0. now apply Hf0. Qed.

Lemma ev_lift c (D E : nat -> CF) x :
  ev CF (S c) (fun j => (match j with O => 0 | S i => D i end) + (if (j <? c)%nat then E j else 0)) x = x * ev CF c D x + ev CF c E x.
Proof.
  rewrite (ev_add CF). f_equal.
  - rewrite (ev_cons CF). change (fun j => D j) with D. cring.
  - unfold ev. cbn [nsum]. rewrite Nat.ltb_irrefl. rewrite (nsum_ext CF c _ (fun j => E j * fpow x j)) by (intros j Hj; now rewrite (proj2 (Nat.ltb_lt j c) Hj)). cring.
Qed.

Theorem poles_exact : (0 < k)%nat -> exists lam, poles phi qr qrr svd eig median z fct (Some (Z.of_nat k + degree)%Z) k weight = Ok lam /\
  length lam = k /\ forall x, prodsub CF lam x = prodsub CF (map p (seq 0 k)) x.
Proof.
  intros Hk0. unfold poles. fold f'. unfold feqb. destruct (Feq_dec (median fct) 0) as [E|_]; [contradiction|].
  unfold vandermond. destruct (Z.ltb_spec (Z.max (Z.of_nat k + degree + 1) (Z.of_nat k)) 0) as [Hlt|_]; [lia|]. cbn [bind].
  fold N. set (vander := Mat N _ _ : mat CF). set (numer := mneg (cols_slice (Z.of_nat k + degree + 1) vander)). set (denom := cols_slice (Z.of_nat k) vander).
  assert (Ev : Z.of_nat (nc vander) = (Z.max (Z.of_nat k + degree + 1) (Z.of_nat k) + 1)%Z) by (unfold vander; cbn [nc]; lia).
  assert (Nn : nc numer = S n0). { unfold numer, mneg, cols_slice, cols_to. cbn [nc]. rewrite slice_nat by (unfold degree; lia). unfold degree in *. lia. }
  assert (Nd : nc denom = k). { unfold denom, cols_slice, cols_to. cbn [nc]. rewrite slice_nat by lia. lia. }
  destruct (Nat.eqb_spec (nc denom + nc numer) 0) as [E|_]; [lia|].
  set (s := scaling weight (hcat denom numer)).
  assert (Hs : forall i, (i < N)%nat -> nth i s 0 <> (0 : CF)).
  { intros i Hi. apply (scaling_neq0 weight (hcat denom numer) i 0%nat); [exact Hi|cbn [hcat nc]; lia| |apply Hw; exact Hi].
    cbn [hcat me]. rewrite Nd. rewrite (proj2 (Nat.ltb_lt 0 k) Hk0). unfold denom, cols_slice, cols_to, vander. cbn [me]. now apply graded_first. }
  set (A1 := rscale (vmul s f') denom). set (A2 := rscale s numer).
  assert (Ls : length s = N) by (unfold s; rewrite scaling_length; reflexivity). assert (Lf : length f' = N) by (unfold f'; now rewrite map_length).
  assert (E1 : forall i j, (i < N)%nat -> me A1 i j = nth i s 0 * nth i f' 0 * phi j (zi i)) by (intros i j _; unfold A1, rscale; cbn [me]; rewrite vmul_nth by congruence; reflexivity).
  assert (E2 : forall i j, (i < N)%nat -> me A2 i j = - nth i s 0 * phi j (zi i)) by (intros i j _; unfold A2, numer, mneg, rscale; cbn [me]; unfold cols_slice, cols_to, vander; cbn [me]; fold (zi i); cring).
  assert (N1a : nr A1 = N) by reflexivity. assert (N1b : nc A1 = k) by exact Nd. assert (N2a : nr A2 = N) by reflexivity. assert (N2b : nc A2 = S n0) by exact Nn.
  destruct (qrr_basis phi N k zi (fun i => nth i s 0 * nth i f' 0) A1 Hphi Hz ltac:(intros i Hi E; destruct (fmul_eq0 CF _ _ E) as [F|F]; [exact (Hs i Hi F)|exact (Hf0' i Hi F)]) N1a N1b E1 (qrr A1) (Hqrr A1) ltac:(lia)) as (R1 & C1 & W1 & HW1 & T1).
  destruct (orth_basis phi N (S n0) zi (fun i => - nth i s 0) A2 Hphi Hz ltac:(intros i Hi E; apply (Hs i Hi); transitivity (- - nth i s 0 : CF); [cring|rewrite E; cring]) N2a N2b E2 qr conj_ok_C (Hqr A2) ltac:(lia)) as (P & EP & P1 & P2 & P3).
  rewrite EP. cbn [bind]. fold A1. set (Q1 := fst (qrr A1)) in *.
  destruct (pencil_exact k q W1 (mm P (rscale z Q1)) (mm P Q1) Hk0 ltac:(lia) ltac:(rewrite Hq; apply F1_neq_0) HW1 C1 C1) as (lam & L1 & L2 & L3).
  2:{ exists lam. split; [exact L1|]. split; [exact L2|]. intros x. rewrite <- HQ, <- L3, Hq. cring. }
  intros w. set (D := fun j => nsum k (fun l => W1 j l * w l)). set (E := fun j => nsum k (fun l => W1 j l * w (k + l)%nat)).
  assert (V : forall i, (i < N)%nat -> zi i * nsum k (fun j => me Q1 i j * w j) + nsum k (fun j => me Q1 i j * w (k + j)%nat) = nth i s 0 * (nth i f' 0 * (zi i * ev CF k D (zi i) + ev CF k E (zi i)))).
  { intros i Hi. rewrite T1 by exact Hi. rewrite (T1 (fun j => w (k + j)%nat)) by exact Hi. fold D E. cring. }
  assert (HQ' : forall j, (j < k)%nat -> ev CF (S n0) b' (p j) <> 0) by (intros j Hj; rewrite b'_ev; apply div_neq0; now apply HP).
  split.
  - intros H.
    assert (H2 : forall i, (i < nr P)%nat -> nsum N (fun l => me P i l * (zi l * nsum k (fun j => me Q1 l j * w j) + nsum k (fun j => me Q1 l j * w (k + j)%nat))) = 0).
    { intros i Hi. rewrite <- perp_rows by assumption. apply H. exact Hi. }
    apply P3 in H2. destruct H2 as [u Hu].
    set (g := fun j => (match j with O => 0 | S i => D i end) + (if (j <? k)%nat then E j else 0) : CF).
    assert (Z : forall i, (i < N)%nat -> nth i f' 0 * ev CF (S k) g (zi i) + ev CF (S n0) u (zi i) = 0).
    { intros i Hi. unfold g. rewrite ev_lift. assert (X := Hu i Hi). rewrite V in X by exact Hi.
      assert (X' : nth i s 0 * (nth i f' 0 * (zi i * ev CF k D (zi i) + ev CF k E (zi i))) = nth i s 0 * - ev CF (S n0) u (zi i)) by (rewrite X; cring).
      apply fmul_cancel_l in X'; [|exact (Hs i Hi)]. rewrite X'. cring. }
    destruct (kernel_multiples CF k n0 dn N p zi q b' (fun i => nth i f' 0) Hk Hp HQ HQ' Hz Hzp Hf' k (S n0) g u ltac:(lia) ltac:(lia) Z) as (h & Hh & _).
    exists (h 0%nat). intros i Hi. rewrite <- ev_lift. change (ev CF (S k) g (zi i) = h 0%nat * ev CF (S k) q (zi i)). rewrite (ev_ext CF (S k) g _ (zi i) Hh). rewrite (ev_shiftcols CF) by lia. replace (S k - k)%nat with 1%nat by lia. unfold ev at 2. cbn [nsum fpow]. cring.
  - intros [t Ht] i Hi. rewrite perp_rows by assumption. revert i Hi. apply P3. exists (fun j => - (t * b' j)). intros i Hi. rewrite V, Ht by exact Hi.
    rewrite (ev_ext CF (S n0) (fun j => - (t * b' j)) (fun j => - t * b' j)) by (intros; cring). rewrite (ev_scal CF), <- Hf' by exact Hi. cring.
Qed.

Lemma prod_prodsub (l : list CF) x : prod (map (fun a => x - a) l) = prodsub CF l x.
Proof. induction l as [|a l IH]; [reflexivity|]. unfold prod in *. cbn [map fold_right prodsub]. rewrite IH. reflexivity. Qed.

Theorem zeros_exact pls : (0 < n0)%nat -> (forall x, prodsub CF pls x = prodsub CF (map p (seq 0 k)) x) ->
  exists lam, zeros phi qr qrr svd eig median z fct pls (Some (Z.of_nat k + degree)%Z) weight = Ok lam /\ length lam = n0 /\
  forall x, prodsub CF lam x * b n0 = ev CF (S n0) b x.
Proof.
  intros Hn0 Hpls. unfold zeros. fold f'. unfold feqb. destruct (Feq_dec (median fct) 0) as [E|_]; [contradiction|].
  unfold vandermond. destruct (Z.ltb_spec (Z.of_nat k + degree - 1) 0) as [Hlt|_]; [unfold degree in *; lia|]. cbn [bind].
  fold N. set (numer := Mat N _ _ : mat CF). replace (Z.to_nat (Z.of_nat k + degree)) with n0 by (unfold degree; lia).
  assert (Nn : nc numer = n0) by (unfold numer; cbn [nc]; unfold degree; lia).
  set (s := scaling weight numer). set (fd := vmul f' (map (fun x => prod (map (fun p0 => x - p0) pls)) z)).
  assert (Hs : forall i, (i < N)%nat -> nth i s 0 <> (0 : CF)).
  { intros i Hi. apply (scaling_neq0 weight numer i 0%nat); [exact Hi|lia| |apply Hw; exact Hi]. unfold numer. cbn [me]. now apply graded_first. }
  assert (Lf : length f' = N) by (unfold f'; now rewrite map_length).
  assert (Fd : forall i, (i < N)%nat -> nth i fd 0 = ev CF (S n0) b' (zi i)).
  { intros i Hi. unfold fd. rewrite vmul_nth by (rewrite map_length; exact Lf). rewrite (nth_map_in _ _ _ _ (0 : CF)) by exact Hi. rewrite prod_prodsub, Hpls, <- HQ. now apply Hf'. }
  assert (Fd0 : forall i, (i < N)%nat -> nth i fd 0 <> (0 : CF)).
  { intros i Hi. rewrite Fd, <- Hf' by exact Hi. intros E. destruct (fmul_eq0 CF _ _ E) as [F|F]; [exact (Hf0' i Hi F)|].
    revert F. rewrite HQ, prodsub_eq0. intros I. apply in_map_iff in I. destruct I as (j & Ej & Ij). apply in_seq in Ij. exact (Hzp i j Hi ltac:(lia) (eq_sym Ej)). }
  set (A1 := rscale s numer). set (A2 := rscale s (Mat N 1 (fun i _ => nth i fd 0))).
  assert (N1a : nr A1 = N) by reflexivity. assert (N1b : nc A1 = n0) by exact Nn. assert (N2a : nr A2 = N) by reflexivity. assert (N2b : nc A2 = 1%nat) by reflexivity.
  assert (E1 : forall i j, (i < N)%nat -> me A1 i j = nth i s 0 * phi j (zi i)) by reflexivity.
  assert (E2 : forall i j, me A2 i j = nth i s 0 * nth i fd 0) by reflexivity.
  destruct (qrr_basis phi N n0 zi (fun i => nth i s 0) A1 Hphi Hz Hs N1a N1b E1 (qrr A1) (Hqrr A1) ltac:(lia)) as (R1 & C1 & W1 & HW1 & T1).
  destruct (orth_kernel CF Cconj qr A2 conj_ok_C (Hqr A2)) as (P & EP & P1 & P2 & P3). { lia. }
  { intros u Hu j Hj. rewrite N2b in Hj. replace j with 0%nat by lia. assert (X := Hu 0%nat ltac:(rewrite N2a; lia)). rewrite N2b in X. cbn [nsum] in X. rewrite E2 in X.
    destruct (fmul_eq0 CF (nth 0 s 0 * nth 0 fd 0) (u 0%nat)) as [F|F]; [refine (eq_trans _ X); cring| |exact F]. exfalso. destruct (fmul_eq0 CF _ _ F) as [G|G]; [exact (Hs 0%nat ltac:(lia) G)|exact (Fd0 0%nat ltac:(lia) G)]. }
  rewrite N2a, N2b in *. rewrite EP. cbn [bind]. fold A1. set (Q1 := fst (qrr A1)) in *.
  assert (Hb' : b' n0 <> 0) by (unfold b'; now apply div_neq0).
  destruct (pencil_exact n0 b' W1 (mm P (rscale z Q1)) (mm P Q1) Hn0 ltac:(lia) Hb' HW1 C1 C1) as (lam & L1 & L2 & L3).
  2:{ exists lam. split; [exact L1|]. split; [exact L2|]. intros x. assert (X := L3 x). rewrite b'_ev in X. unfold b' in X.
      assert (Y : forall a : CF, a = median fct * (a / median fct)). { intros a. rewrite <- (fdiv_mul CF a (median fct) Hmed) at 1. cring. }
      rewrite (Y (ev CF (S n0) b x)), <- X. rewrite (Y (b n0)) at 1. cring. }
  intros w. set (D := fun j => nsum n0 (fun l => W1 j l * w l)). set (E := fun j => nsum n0 (fun l => W1 j l * w (n0 + l)%nat)).
  assert (V : forall i, (i < N)%nat -> zi i * nsum n0 (fun j => me Q1 i j * w j) + nsum n0 (fun j => me Q1 i j * w (n0 + j)%nat) = nth i s 0 * (zi i * ev CF n0 D (zi i) + ev CF n0 E (zi i))).
  { intros i Hi. rewrite T1 by exact Hi. rewrite (T1 (fun j => w (n0 + j)%nat)) by exact Hi. fold D E. cring. }
  split.
  - intros H.
    assert (H2 : forall i, (i < nr P)%nat -> nsum N (fun l => me P i l * (zi l * nsum n0 (fun j => me Q1 l j * w j) + nsum n0 (fun j => me Q1 l j * w (n0 + j)%nat))) = 0).
    { intros i Hi. rewrite <- perp_rows by assumption. apply H. exact Hi. }
    apply P3 in H2. destruct H2 as [u Hu]. exists (u 0%nat). intros i Hi. assert (X := Hu i Hi). rewrite V in X by exact Hi. cbn [nsum] in X. rewrite E2 in X. rewrite Fd in X by exact Hi.
    apply (fmul_cancel_l CF (nth i s 0) _ _ (Hs i Hi)). fold D E. rewrite X. cring.
  - intros [t Ht] i Hi. rewrite perp_rows by assumption. revert i Hi. apply P3. exists (fun _ => t). intros i Hi. rewrite V, Ht by exact Hi. cbn [nsum]. rewrite E2, Fd by exact Hi. cring.
Qed.
End Roots.
End Data.
