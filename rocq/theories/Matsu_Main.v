(** * Consequences for density_iw, iw2tau_dft and iw2tau *)
From Coq Require Import List Arith ZArith Reals Lia Lra Psatz Bool.
From Coquelicot Require Import Coquelicot.
From Verif Require Import Base FSum CBase CExp Stat_Model Linalg_Model Linalg_Proofs Mat Pole_Model Pole_Proofs2 Pole_Spec Pole_Bridge Density_Proofs Density_Props
  Fourier_Model Fourier_Dft Fourier_Series Fourier_Props FourierMom_Model FourierMom_Props Matsu_Lim Matsu_Ser Matsu_Sum.
Import ListNotations.
Local Open Scope R_scope.

Lemma moment0 (P W : list R) : length P = length W -> moment (K := RF) P W 0 = lsum (K := RF) W.
Proof.
  revert W. induction P as [|p P IH]; intros [|r W] H; try discriminate H; [reflexivity|]. injection H as H. cbn [moment]. rewrite IH by exact H. change (lsum (K := RF) (r :: W)) with (r + lsum (K := RF) W). cbn [fpow]. change (@Fmul RF) with Rmult. change (@Fadd RF) with Rplus. change (@F1 RF) with 1. eqR. ring.
Qed.
Lemma nth_map_seq {A} (f : nat -> A) N i d : (i < N)%nat -> nth i (map f (seq 0 N)) d = f i.
Proof. intros H. rewrite (nth_indep _ d (f 0%nat)) by (rewrite map_length, seq_length; exact H). rewrite map_nth, seq_nth by exact H. reflexivity. Qed.
Lemma nsum_ext_lt N (f g : nat -> R) : (forall n, (n < N)%nat -> f n = g n) -> nsum (K := RF) N f = nsum (K := RF) N g.
Proof. intros H. induction N as [|N IH]; [reflexivity|]. cbn [nsum]. rewrite IH by (intros n Hn; apply H; lia). rewrite (H N) by lia. reflexivity. Qed.
Lemma nth_repeat1 i N : (i < N)%nat -> nth i (repeat 1 N) 0 = 1.
Proof. intros H. revert i H. induction N as [|N IH]; intros [|i] H; cbn; try lia; [reflexivity|]. apply IH. lia. Qed.
Lemma iw_real beta n (p : R) : 0 < beta -> iw beta n <> RtoC p.
Proof.
  intros Hb E. assert (P := PI_RGT_0). assert (N := pos_INR n). assert (F : snd (iw beta n) = 0) by (rewrite E; reflexivity). unfold iw in F. cbn in F.
  assert (X : 0 < (2 * INR n + 1) * PI / beta) by (apply Rdiv_lt_0_compat; [apply Rmult_lt_0_compat|]; lra).
  match type of F with ?l = 0 => assert (Q : l = (2 * INR n + 1) * PI / beta) by (field; lra) end. lra.
Qed.
Definition iws (beta : R) (N : nat) : list C := map (iw beta) (seq 0 N).
Lemma msum_quad P W beta N : msum (fun z => green_z z P W) beta 0 N
  = 2 / beta * nsum (K := RF) (length (iws beta N)) (fun i => nth i (repeat 1 N) 0 * fst (green_z (nth i (iws beta N) 0%C) P W)).
Proof.
  unfold msum, iws. rewrite map_length, seq_length. f_equal. apply nsum_ext_lt. intros n Hn. rewrite nth_map_seq, nth_repeat1 by exact Hn. replace (- (iw beta n * RtoC 0))%C with (RtoC 0) by ring. rewrite cexp_0. cbn. ring.
Qed.
Lemma lim_add (u : nat -> R) (l : R) (c d : R) : is_lim_seq u l -> l + c = d -> is_lim_seq (fun n => u n + c) d.
Proof. intros H <-. apply is_lim_seq_plus'; [exact H|apply is_lim_seq_const]. Qed.

Theorem density_iw_lim qr tri lstsq allclose0 solve : solve_spec RF solve -> forall beta (moms P W : list R), 0 < beta -> moms <> [] -> length P = length W -> lsum (K := RF) W = nth 0 moms 0 ->
  exists d : nat -> R, (forall N, density_iw lstsq (EC qr tri lstsq allclose0) solve (iws beta N) (map (fun z => green_z z P W) (iws beta N)) beta (repeat 1 N) moms 0 = Ok (d N)) /\ is_lim_seq d (occupation P W beta).
Proof.
  intros HS beta moms P W Hb Hm HL HW. destruct (gf_from_moments_spec RF Rabs (fun x => x) solve (fun x y E => E) HS moms None Hm ltac:(discriminate)) as (p & r & E & Lp & Lr & _ & _ & M).
  assert (Hpr : length p = length r) by congruence.
  set (m := msum (fun z => green_z z P W) beta 0). set (m' := msum (fun z => green_z z p r) beta 0).
  exists (fun N => occupation P W beta + ((m N - occupation P W beta) - (m' N - occupation p r beta))). split.
  - intros N. assert (Hz : forall (w : C) (x : R), In w (iws beta N) -> In x p -> w <> RtoC x). { intros w x Hw _. unfold iws in Hw. apply in_map_iff in Hw. destruct Hw as (n & <- & _). apply iw_real, Hb. }
    destruct (C31_error qr tri lstsq allclose0 solve (iws beta N) beta (repeat 1 N) moms P W p r E Hz) as (n & En & D). rewrite En. f_equal. cbv zeta in D. unfold m, m'. rewrite !msum_quad. lra.
  - assert (L1 := matsubara_equal P W beta Hb HL). assert (L2 := matsubara_equal p r beta Hb Hpr). assert (M0 := M O ltac:(destruct moms; [contradiction|cbn; lia])). rewrite map_id, moments_spec in M0. change (@F0 RF) with 0 in M0. rewrite (moment0 p r Hpr) in M0.
    assert (L := is_lim_seq_minus' _ _ _ _ L1 L2). apply (is_lim_seq_ext (fun N => (m N - m' N) + occupation p r beta)); [intros N; ring|]. eapply lim_add; [exact L|]. assert (Q : lsum (K := RF) r = lsum (K := RF) W) by (rewrite M0, HW; reflexivity). rewrite Q. set (x := lsum (K := RF) W). change (car RF) with R in x. clearbody x. field.
Qed.

Lemma iw_mats beta n : iw beta n = matsubara_frequencies (Z.of_nat n) beta.
Proof. rewrite iw_fn. reflexivity. Qed.
Lemma dft_msum (G : C -> C) beta tau N k : beta <> 0 -> iw2tau_dft (map (fun j => G (iw beta j)) (seq 0 N)) beta = Ok tau -> (k < 2 * N + 1)%nat ->
  length tau = (2 * N + 1)%nat /\ nth k tau 0 = msum G beta (tau_pt beta (2 * N + 1) k) N.
Proof.
  intros Hb E Hk. destruct (iw2tau_dft_series _ beta tau Hb E) as [L S]. rewrite map_length, seq_length in L, S. split; [exact L|]. rewrite S by (rewrite L; exact Hk). unfold msum. f_equal. apply nsum_ext_lt. intros n Hn.
  rewrite nth_map_seq by exact Hn. rewrite <- iw_mats, L, tau_pt_fn. reflexivity.
Qed.
Lemma tau_frac beta a b M : (0 < b)%nat -> tau_pt beta (2 * (b * S M) + 1) (2 * a * S M) = beta * (INR a / INR b).
Proof.
  intros Hb. unfold tau_pt. f_equal. replace (2 * (b * S M) + 1 - 1)%nat with (2 * (b * S M))%nat by lia. rewrite !mult_INR. assert (B := lt_0_INR b Hb). assert (MM := lt_0_INR (S M) ltac:(lia)). change (INR 2) with 2. field. split; lra.
Qed.
Lemma lim_sub (u : nat -> R) (l : Rbar) b : (0 < b)%nat -> is_lim_seq u l -> is_lim_seq (fun M => u (b * S M)%nat) l.
Proof.
  intros Hb H. refine (is_lim_seq_subseq u l (fun M => (b * S M)%nat) _ H). apply eventually_subseq. intros n. nia.
Qed.
Lemma frac_in a b : (0 < a < b)%nat -> 0 < INR a / INR b < 1.
Proof.
  intros H. assert (A := lt_0_INR a ltac:(lia)). assert (B := lt_INR a b ltac:(lia)). split; [apply Rdiv_lt_0_compat; lra|apply Rlt_div_l; lra].
Qed.
Lemma hfft_ok gf beta : beta <> 0 -> gf <> [] -> exists tau, iw2tau_dft gf beta = Ok tau.
Proof.
  intros Hb Hg. unfold iw2tau_dft. destruct (Req_EM_T beta 0); [contradiction|]. unfold hfft. cbv zeta. rewrite map_length. unfold gf_iwall at 1. rewrite map_length, seq_length.
  destruct gf as [|g gf]; [contradiction|]. destruct (Nat.eqb_spec (2 * (2 * List.length (g :: gf) + 1 - 1)) 0) as [Z|Z]; [cbn [List.length] in Z; lia|]. cbn [bind]. eexists. reflexivity.
Qed.
Lemma seq_nonempty {A} (f : nat -> A) N : (0 < N)%nat -> map f (seq 0 N) <> [].
Proof. intros H E. apply (f_equal (@List.length A)) in E. rewrite map_length, seq_length in E. cbn in E. lia. Qed.

(** inside of the interval the truncated series converges to the function; at its ends to the mean of the limits *)
Theorem iw2tau_dft_lim (P W : list R) beta a b : 0 < beta -> (0 < a < b)%nat ->
  exists T : nat -> R, (forall M, exists tau, iw2tau_dft (map (fun j => green_z (iw beta j) P W) (seq 0 (b * S M))) beta = Ok tau /\ nth (2 * a * S M) tau 0 = T M) /\
    is_lim_seq T (green_tau (beta * (INR a / INR b)) P W beta).
Proof.
  intros Hb Hab. exists (fun M => msum (fun z => green_z z P W) beta (beta * (INR a / INR b)) (b * S M)). split.
  - intros M. destruct (hfft_ok (map (fun j => green_z (iw beta j) P W) (seq 0 (b * S M))) beta) as (tau & E); [lra|apply seq_nonempty; nia|]. exists tau. split; [exact E|].
    destruct (dft_msum (fun z => green_z z P W) beta tau (b * S M) (2 * a * S M) ltac:(lra) E ltac:(nia)) as [_ ->]. rewrite tau_frac by lia. reflexivity.
  - apply (lim_sub (msum (fun z => green_z z P W) beta (beta * (INR a / INR b)))); [lia|]. assert (F := frac_in a b Hab). apply matsubara_inside; [exact Hb|nra].
Qed.
Theorem iw2tau_dft_ends (P W : list R) beta : 0 < beta -> List.length P = List.length W ->
  exists T0 T1 : nat -> R, (forall M, exists tau, iw2tau_dft (map (fun j => green_z (iw beta j) P W) (seq 0 (S M))) beta = Ok tau /\ nth 0 tau 0 = T0 M /\ nth (2 * S M) tau 0 = T1 M) /\
    is_lim_seq T0 ((green_tau 0 P W beta - green_tau beta P W beta) / 2) /\ is_lim_seq T1 ((green_tau beta P W beta - green_tau 0 P W beta) / 2).
Proof.
  intros Hb HL.
  assert (J : (green_tau 0 P W beta - green_tau beta P W beta) / 2 = occupation P W beta - lsum (K := RF) W / 2).
  { clear - HL Hb. revert W HL. induction P as [|p P IH]; intros [|r W] HL; try discriminate HL; cbn [green_tau occupation].
    - cbn. field.
    - injection HL as HL. specialize (IH W HL). change (lsum (K := RF) (r :: W)) with (r + lsum (K := RF) W). rewrite Rmult_0_l, Ropp_0, exp_0, exp_Ropp. assert (E := exp_pos (beta * p)).
      replace (- r * 1 / (1 + / exp (beta * p))) with (r / (exp (beta * p) + 1) - r) by (field; lra). replace (- r * / exp (beta * p) / (1 + / exp (beta * p))) with (- (r / (exp (beta * p) + 1))) by (field; lra). set (l := lsum (K := RF) W) in *. change (car RF) with R in l. lra. }
  exists (fun M => msum (fun z => green_z z P W) beta 0 (S M)), (fun M => - msum (fun z => green_z z P W) beta 0 (S M)). split; [|split].
  - intros M. destruct (hfft_ok (map (fun j => green_z (iw beta j) P W) (seq 0 (S M))) beta) as (tau & E); [lra|apply seq_nonempty; lia|]. exists tau. split; [exact E|].
    destruct (dft_msum (fun z => green_z z P W) beta tau (S M) 0 ltac:(lra) E ltac:(lia)) as [_ ->]. destruct (dft_msum (fun z => green_z z P W) beta tau (S M) (2 * S M) ltac:(lra) E ltac:(lia)) as [_ ->].
    assert (A := tau_frac beta 0 1 M ltac:(lia)). assert (B := tau_frac beta 1 1 M ltac:(lia)). replace (2 * (1 * S M) + 1)%nat with (2 * S M + 1)%nat in A, B by lia. replace (2 * 0 * S M)%nat with O in A by lia. replace (2 * 1 * S M)%nat with (2 * S M)%nat in B by lia.
    rewrite A, B. replace (beta * (INR 0 / INR 1)) with 0 by (cbn; field). replace (beta * (INR 1 / INR 1)) with beta by (cbn; field). split; [reflexivity|]. apply msum_at_beta. lra.
  - rewrite J. apply (is_lim_seq_incr_1 (msum (fun z => green_z z P W) beta 0)). apply matsubara_equal; assumption.
  - replace ((green_tau beta P W beta - green_tau 0 P W beta) / 2) with (- (occupation P W beta - lsum (K := RF) W / 2)) by (rewrite <- J; field).
    apply (is_lim_seq_opp (fun M => msum (fun z => green_z z P W) beta 0 (S M)) (Finite (occupation P W beta - lsum (K := RF) W / 2))). apply (is_lim_seq_incr_1 (msum (fun z => green_z z P W) beta 0)). apply matsubara_equal; assumption.
Qed.

Lemma green_tau_0 (P W : list R) beta : List.length P = List.length W -> green_tau 0 P W beta = occupation P W beta - lsum (K := RF) W.
Proof.
  revert W. induction P as [|p P IH]; intros [|r W] HL; try discriminate HL; cbn [green_tau occupation]; [cbn; ring|]. injection HL as HL. rewrite (IH W HL). change (lsum (K := RF) (r :: W)) with (r + lsum (K := RF) W).
  rewrite Rmult_0_l, Ropp_0, exp_0, exp_Ropp. assert (E := exp_pos (beta * p)). set (l := lsum (K := RF) W). change (car RF) with R in l. clearbody l. field. lra.
Qed.
Lemma green_tau_beta (P W : list R) beta : List.length P = List.length W -> green_tau beta P W beta = - occupation P W beta.
Proof.
  revert W. induction P as [|p P IH]; intros [|r W] HL; try discriminate HL; cbn [green_tau occupation]; [ring|]. injection HL as HL. rewrite (IH W HL). rewrite exp_Ropp. assert (E := exp_pos (beta * p)). field. lra.
Qed.
Lemma lim_scal (u : nat -> R) (l c : R) : is_lim_seq u l -> is_lim_seq (fun n => c * u n) (c * l).
Proof. intros H. exact (is_lim_seq_scal_l u c l H). Qed.
(** with the first moment subtracted the transform converges on the whole closed interval *)
Theorem iw2tau_lim lstsq lstsq_ec solve : solve_spec RF solve -> forall (P W moms : list R) beta a b, 0 < beta -> moms <> [] -> List.length P = List.length W -> lsum (K := RF) W = nth 0 moms 0 -> (a <= b)%nat -> (0 < b)%nat ->
  exists T : nat -> R, (forall M, exists tau, iw2tau lstsq lstsq_ec solve iw2tau_dft (map (fun j => green_z (iw beta j) P W) (seq 0 (b * S M))) beta moms 0 = Ok tau /\ nth (2 * a * S M) tau 0 = T M) /\
    is_lim_seq T (green_tau (beta * (INR a / INR b)) P W beta).
Proof.
  intros HS P W moms beta a b Hb Hm HL HW Hab Hb0. destruct (C45_iw2tau_adds_back lstsq lstsq_ec solve moms beta HS Hm Hb) as (p & r & Lp & Lr & _ & HM & HR).
  assert (Lpr : List.length p = List.length r) by congruence. assert (M0 := HM O ltac:(destruct moms; [contradiction|cbn; lia])). rewrite (moment0 p r Lpr) in M0. assert (Q : lsum (K := RF) r = lsum (K := RF) W) by (rewrite M0, HW; reflexivity).
  set (H := fun z => (RtoC (-1) * green_z z p r + green_z z P W)%C). set (tau := beta * (INR a / INR b)).
  exists (fun M => msum H beta tau (b * S M) + green_tau tau p r beta). split.
  - intros M. set (N := (b * S M)%nat). assert (HN : (0 < N)%nat) by (unfold N; nia). specialize (HR iw2tau_dft (map (fun j => H (iw beta j)) (seq 0 N))). rewrite map_length, seq_length in HR.
    replace (map (fun j => green_z (iw beta j) P W) (seq 0 N)) with (map (fun j => (green_z (iw beta j) p r + nth j (map (fun j => H (iw beta j)) (seq 0 N)) (RtoC 0))%C) (seq 0 N)).
    2:{ apply map_ext_in. intros j Hj. apply in_seq in Hj. rewrite nth_map_seq by lia. unfold H. apply C_ext; cbn; ring. }
    rewrite HR. destruct (hfft_ok (map (fun j => H (iw beta j)) (seq 0 N)) beta) as (t & E); [lra|apply seq_nonempty; exact HN|]. rewrite E. cbn [bind]. eexists. split; [reflexivity|].
    destruct (dft_msum H beta t N (2 * a * S M) ltac:(lra) E ltac:(unfold N; nia)) as [Lt Et]. rewrite Lt, nth_map_seq by (unfold N; nia). rewrite Et. unfold N. rewrite tau_frac by exact Hb0. reflexivity.
  - apply (lim_sub (fun N => msum H beta tau N + green_tau tau p r beta)); [exact Hb0|].
    apply (is_lim_seq_ext (fun N => (-1 * msum (fun z => green_z z p r) beta tau N + msum (fun z => green_z z P W) beta tau N) + green_tau tau p r beta)). { intros N. unfold H. rewrite msum_lin. reflexivity. }
    assert (B0 := lt_0_INR b Hb0). assert (A : a = O \/ a = b \/ (0 < a < b)%nat) by lia. destruct A as [A|[A|A]].
    + assert (T : tau = 0) by (unfold tau; rewrite A; cbn; field; lra). rewrite T. eapply lim_add; [apply is_lim_seq_plus'; [apply lim_scal, matsubara_equal; assumption|apply matsubara_equal; assumption]|].
      rewrite !green_tau_0 by assumption. rewrite Q. cbn. set (l := lsum (K := RF) W). change (car RF) with R in l. clearbody l. field.
    + assert (T : tau = beta) by (unfold tau; rewrite A; field; lra). rewrite T.
      apply (is_lim_seq_ext (fun N => (1 * msum (fun z => green_z z p r) beta 0 N + -1 * msum (fun z => green_z z P W) beta 0 N) + green_tau beta p r beta)). { intros N. rewrite !msum_at_beta by lra. ring. }
      eapply lim_add; [apply is_lim_seq_plus'; [apply lim_scal, matsubara_equal; assumption|apply lim_scal, matsubara_equal; assumption]|].
      rewrite !green_tau_beta by assumption. rewrite Q. cbn. set (l := lsum (K := RF) W). change (car RF) with R in l. clearbody l. field.
    + assert (F := frac_in a b A). assert (T : 0 < tau < beta) by (unfold tau; nra).
      eapply lim_add; [apply is_lim_seq_plus'; [apply lim_scal, matsubara_inside; assumption|apply matsubara_inside; assumption]|]. cbn. ring.
Qed.
