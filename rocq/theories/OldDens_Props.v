(** * Properties of the deprecated density functions: C68 *)
From Coq Require Import List Arith ZArith Reals Lia Lra Psatz Bool String.
From Coquelicot Require Import Coquelicot.
From Verif Require Import Base FSum CBase CExp Stat_Model Stat_Proofs Linalg_Model Linalg_Proofs Matrix_Model Matrix_Proofs MatAlg Mat Pole_Spec FourierMom_Model Fourier_Quad Matsu_Ser Matsu_Sum Matsu_Main OldDens_Model OldDens_Proofs.
Import ListNotations.
Local Open Scope R_scope.

(** the number of particles in the limit of many frequencies; half the missing weight is added if the weights do not sum to 1 *)
Theorem C68_limit : forall (P W : list R) pot beta r, 0 < beta -> List.length P = List.length W ->
  exists d : nat -> R,
    (forall N, (0 < N)%nat -> exists o, density (map (fun n => green_z (iw beta n) P W) (seq 0 N)) pot beta r = Ok o /\ dens_x o = d N) /\
    is_lim_seq d (occupation P W beta + (1 - lsum (K := RF) W) / 2).
Proof.
  intros P W pot beta r Hb HL. eexists. split; [|apply (density_converges P W pot beta Hb HL)]. intros N HN. apply density_x; [lra|exact HN].
Qed.
Print Assumptions C68_limit.
(** the tail itself: exact for every number of frequencies, the error estimate is 0 *)
Theorem C68_exact : forall pot beta N, 0 < beta -> (0 < N)%nat ->
  density (map (fun n => green_z (iw beta n) [- pot] [1]) (seq 0 N)) pot beta RTrue = Ok (Dens (/ (exp (- (beta * pot)) + 1)) (Some 0) false).
Proof.
  intros pot beta N Hb HN.
  assert (D : forall n, fst (green_z (iw beta n) [- pot] [1]) - fst (1 / (RtoC pot + iw beta n))%C = 0) by (intros n; rewrite <- cinv_green by exact Hb; unfold cinv_re; apply Rminus_diag_eq; reflexivity).
  unfold density. destruct (Req_EM_T beta 0) as [Z|_]; [lra|]. cbv zeta. rewrite map_length, seq_length, density_tail, fermi_def. replace (beta * - pot) with (- (beta * pot)) by ring.
  unfold density_from. cbv zeta. rewrite combine_map, map_map. cbn [fst snd]. rewrite map_length, seq_length, lsum_seq. rewrite grid_wn by lra. rewrite (density_error_eq _ beta N true HN). cbn [bind].
  rewrite nsum_zero by exact D. rewrite nsum_zero by (intros i; rewrite D; ring). f_equal. unfold Rdiv. rewrite !Rmult_0_l, ?Rmult_0_r, ?Rmult_0_l, ?Rplus_0_l. reflexivity.
Qed.
Print Assumptions C68_exact.
(** total=True: the trace with one potential for each term *)
Theorem C68_total : forall (P W pots : list R) beta r, 0 < beta -> List.length P = List.length W ->
  exists d : nat -> R,
    (forall N, (0 < N)%nat -> exists o, density_total (map (fun n => green_z (iw beta n) P W) (seq 0 N)) pots beta r = Ok o /\ dens_x o = d N) /\
    is_lim_seq d (occupation P W beta + (INR (List.length pots) - lsum (K := RF) W) / 2).
Proof.
  intros P W pots beta r Hb HL. eexists. split; [intros N HN; exact (density_total_x (fun n => green_z (iw beta n) P W) pots beta r N Hb HN)|]. cbv beta.
  rewrite <- (lsum_ones pots). apply density_lim; [exact Hb|exact HL|rewrite !map_length; reflexivity].
Qed.
Print Assumptions C68_total.
(** matrix=True with real eigenvectors: the diagonal elements of a matrix valued Green's function of weight 1 *)
Theorem C68_matrix : forall eighO close0 (A : mat CF) e v (P W : nat -> list R) beta, nr A = nc A -> (0 < nr A)%nat -> 0 < beta ->
  allclose0 close0 (msub A (ctr (K := CF) Cconj A)) = true -> eighO A = Ok (e, v) -> eigh_spec CF Cconj A (e, v) ->
  (forall i, List.length (P i) = List.length (W i) /\ lsum (K := RF) (W i) = 1) ->
  exists d : nat -> nat -> R,
    (forall N, density_matrix eighO close0 (map (fun i => map (fun n => green_z (iw beta n) (P i) (W i)) (seq 0 N)) (seq 0 (nr A))) A beta false = Ok (map (d N) (seq 0 (nr A)))) /\
    forall i, (i < nr A)%nat -> is_lim_seq (fun N => d N i) (occupation (P i) (W i) beta).
Proof.
  intros eighO close0 A e v P W beta HS Hn Hb HC HO EV HPW. eexists. split.
  - intros N. refine (density_matrix_x eighO close0 A HS _ (fun i k => green_z (iw beta k) (P i) (W i)) beta N e v Hb Hn HC HO). intros ev Eev. rewrite HO in Eev. injection Eev as <-. exact EV.
  - intros i Hi. cbv beta. destruct (HPW i) as [L1 L2]. assert (L3 := w_sum A e v i EV Hi).
    assert (D := density_lim (P i) (W i) (p_of A e) (w_of A v i) beta Hb L1 ltac:(unfold p_of, w_of; rewrite !map_length; reflexivity)).
    match type of D with is_lim_seq _ ?l => replace (Finite (occupation (P i) (W i) beta)) with l end; [exact D|]. apply f_equal. unfold w_of in *. rewrite L3. refine (eq_trans (f_equal (fun x : R => occupation (P i) (W i) beta + (1 - x) / 2) L2) _). field.
Qed.
Print Assumptions C68_matrix.
(** the documented Hermitian matrices do not work if the eigenvectors are complex *)
Definition ham_i : mat CF := Mat (K := CF) 2 2 (fun i j => match i, j with O, S O => (0, -1) | S O, O => (0, 1) | _, _ => RtoC 0 end).
Definition vec_i : mat CF := Mat (K := CF) 2 2 (fun i j => match i, j with O, _ => RtoC (/ sqrt 2) | _, O => (0, - / sqrt 2) | _, _ => (0, / sqrt 2) end).
Lemma ham_i_eigh : eigh_spec CF Cconj ham_i ([RtoC (-1); RtoC 1], vec_i).
Proof.
  assert (S0 := sqrt_lt_R0 2 ltac:(lra)). assert (S2 : / sqrt 2 * / sqrt 2 = / 2) by (rewrite <- Rinv_mult, sqrt_sqrt; lra). set (s := / sqrt 2) in *.
  split; [split; [split; reflexivity|split; [reflexivity|]]|split].
  - intros [|[|i]] [|[|j]] Hi Hj; try (cbn in Hi, Hj; lia); cbn [nr ham_i nsum]; apply C_ext; cbn; fold s; ring.
  - intros x [<-|[<-|[]]]; apply C_ext; cbn; ring.
  - intros [|[|i]] [|[|j]] Hi Hj; try (cbn in Hi, Hj; lia); cbn [nr ham_i nsum]; apply C_ext; cbn; fold s; nra.
Qed.
Theorem C68_matrix_refuted : exists eighO close0 (A : mat CF) ev (gf : list (list C)) beta, nr A = nc A /\ 0 < beta /\
  (forall i j, (i < nr A)%nat -> (j < nr A)%nat -> me A i j = Cconj (me A j i)) /\ eighO A = Ok ev /\ eigh_spec CF Cconj A ev /\
  density_matrix eighO close0 gf A beta true = Err TypeError.
Proof.
  exists (fun _ => Ok ([RtoC (-1); RtoC 1], vec_i)), (fun _ => true), ham_i, ([RtoC (-1); RtoC 1], vec_i), (map (fun i => map (fun n => green_z (iw 1 n) [0] [1]) (seq 0 1)) (seq 0 2)), 1.
  split; [reflexivity|]. split; [lra|]. split. { intros [|[|i]] [|[|j]] Hi Hj; try (cbn in Hi, Hj; lia); apply C_ext; cbn; ring. }
  split; [reflexivity|]. split; [exact ham_i_eigh|].
  refine (density_matrix_complex _ _ ham_i _ (fun _ n => green_z (iw 1 n) [0] [1]) 1 1 [RtoC (-1); RtoC 1] vec_i _ _ _ _); [intros ev E; injection E as <-; exact ham_i_eigh|lra|cbn; lia| |reflexivity].
  unfold allclose0. reflexivity.
Qed.
Print Assumptions C68_matrix_refuted.

(** density_error(noisy=False) bounds the truncation error whatever the function: from the frequency N on omega^2 Delta must not
    exceed the largest value among the last 90% of the data *)
Theorem C68_error : forall (gf : nat -> C) pot beta N (X : R) (d : nat -> R) e, 0 < beta -> (0 < N)%nat ->
  let w n := (2 * INR n + 1) * PI / beta in
  let delta n := fst (gf n) - fst (1 / (RtoC pot + iw beta n))%C in
  (forall M, (0 < M)%nat -> exists o, density (map gf (seq 0 M)) pot beta (RTol 0) = Ok o /\ dens_x o = d M) -> is_lim_seq d X ->
  (forall n, (N <= n)%nat -> exists m, (N / 10 <= m < N)%nat /\ Rabs (delta n) * w n ^ 2 <= Rabs (delta m) * w m ^ 2) ->
  density_error (map delta (seq 0 N)) (map w (seq 0 N)) false = Ok e -> Rabs (X - d N) <= e.
Proof.
  intros gf pot beta N X d e Hb HN w delta Hd L H E.
  assert (Q : forall M, (0 < M)%nat -> d M = 2 * nsum (K := RF) M (delta_of gf pot beta) / beta + / (exp (- (beta * pot)) + 1)).
  { intros M HM. destruct (Hd M HM) as (o & E1 & <-). destruct (density_x gf pot beta (RTol 0) M ltac:(lra) HM) as (o' & E2 & E3). rewrite E1 in E2. injection E2 as <-. exact E3. }
  rewrite (Q N HN). apply (error_bound gf pot beta N X e Hb HN); [|exact H|exact E].
  refine (is_lim_seq_ext_loc _ _ _ _ L). exists 1%nat. intros M HM. apply Q. lia.
Qed.
Print Assumptions C68_error.
(** density_error2 with omega^3 is a bound as well, too large by the factor pi^2 *)
Theorem C68_error2 : forall (gf : nat -> C) pot beta N (X : R) (d : nat -> R) e, 0 < beta -> (0 < N)%nat ->
  let w n := (2 * INR n + 1) * PI / beta in
  let delta n := fst (gf n) - fst (1 / (RtoC pot + iw beta n))%C in
  (forall M, (0 < M)%nat -> exists o, density (map gf (seq 0 M)) pot beta (RTol 0) = Ok o /\ dens_x o = d M) -> is_lim_seq d X ->
  (forall n, (N <= n)%nat -> exists m, (N / 10 <= m < N)%nat /\ Rabs (delta n) * w n ^ 3 <= Rabs (delta m) * w m ^ 3) ->
  density_error2 (map delta (seq 0 N)) (map w (seq 0 N)) = Ok e -> Rabs (X - d N) <= e / PI ^ 2.
Proof.
  intros gf pot beta N X d e Hb HN w delta Hd L H E.
  assert (Q : forall M, (0 < M)%nat -> d M = 2 * nsum (K := RF) M (delta_of gf pot beta) / beta + / (exp (- (beta * pot)) + 1)).
  { intros M HM. destruct (Hd M HM) as (o & E1 & <-). destruct (density_x gf pot beta (RTol 0) M ltac:(lra) HM) as (o' & E2 & E3). rewrite E1 in E2. injection E2 as <-. exact E3. }
  rewrite (Q N HN). apply (error2_bound gf pot beta N X e Hb HN); [|exact H|exact E].
  refine (is_lim_seq_ext_loc _ _ _ _ L). exists 1%nat. intros M HM. apply Q. lia.
Qed.
Print Assumptions C68_error2.
(** check_convergence gives exactly the data of these assumptions *)
Theorem C68_check_convergence : forall (gf : nat -> C) pot beta order N, 0 < beta ->
  check_convergence (map gf (seq 0 N)) pot beta order
  = Ok (map (fun n => ((2 * INR n + 1) * PI / beta) ^ order * (fst (gf n) - fst (1 / (RtoC pot + iw beta n))%C)) (seq 0 N)).
Proof. exact check_convergence_eq. Qed.
Print Assumptions C68_check_convergence.
(** ... but raises for matrices unless there are as many frequencies as orbitals *)
Theorem C68_check_convergence_matrix_refuted : exists eighO close0 (A : mat CF) ev (gf : list (list C)) beta, nr A = nc A /\ 0 < beta /\
  (forall i j, (i < nr A)%nat -> (j < nr A)%nat -> me A i j = Cconj (me A j i)) /\ eighO A = Ok ev /\ eigh_spec CF Cconj A ev /\
  List.length gf = nr A /\ List.Forall (fun l => List.length l = 7%nat) gf /\
  forall order, check_convergence_matrix eighO close0 gf A beta order = Err ValueError.
Proof.
  exists (fun _ => Ok ([RtoC (-1); RtoC 1], vec_i)), (fun _ => true), ham_i, ([RtoC (-1); RtoC 1], vec_i), (map (fun i => map (fun n => green_z (iw 1 n) [0] [1]) (seq 0 7)) (seq 0 2)), 1.
  split; [reflexivity|]. split; [lra|]. split. { intros [|[|i]] [|[|j]] Hi Hj; try (cbn in Hi, Hj; lia); apply C_ext; cbn; ring. }
  split; [reflexivity|]. split; [exact ham_i_eigh|]. split; [reflexivity|]. split; [repeat constructor|]. intros order.
  refine (check_convergence_matrix_err _ _ ham_i eq_refl _ (fun _ n => green_z (iw 1 n) [0] [1]) 1 7 order [RtoC (-1); RtoC 1] vec_i _ _ _ _ _); [intros ev E; injection E as <-; exact ham_i_eigh|lra|cbn; lia|cbn; lia| |reflexivity].
  reflexivity.
Qed.
Print Assumptions C68_check_convergence_matrix_refuted.

(** the estimate used by density is a signed mean: it can be negative although the result is wrong, and then no tolerance is
    ever exceeded *)
Theorem C68_noisy_refuted : exists (P W : list R) pot beta, 0 < beta /\ List.length P = List.length W /\ lsum (K := RF) W = 1 /\
  forall N, (0 < N)%nat -> exists x err tol, let gf := map (fun n => green_z (iw beta n) P W) (seq 0 N) in
    density gf pot beta RTrue = Ok (Dens x (Some err) false) /\ err < 0 /\ 0 < tol /\ tol < Rabs (x - occupation P W beta) /\
    density gf pot beta (RTol tol) = Ok (Dens x None false).
Proof.
  exists [0; 2 * -1], [1/2; 1/2], (- -1), 1. split; [lra|]. split; [reflexivity|]. split; [cbn; field|]. intros N HN.
  set (G := fun n => green_z (iw 1 n) [0; 2 * -1] [1/2; 1/2]). set (c := / (exp (- (1 * - -1)) + 1)).
  set (x := fun M => 2 * nsum (K := RF) M (delta_of G (- -1) 1) / 1 + c).
  assert (D : forall n, delta_of G (- -1) 1 n < 0). { intros n. unfold G. rewrite (delta_example (-1) n) by (right; reflexivity). unfold dlt. assert (W := wn_pos 1 n ltac:(lra)). set (w := wn 1 n) in *. assert (0 < w ^ 2) by nra. assert (0 < 3 / ((w ^ 2 + 1) * (w ^ 2 + 4))) by (apply Rdiv_lt_0_compat; [lra|apply Rmult_lt_0_compat; lra]). lra. }
  assert (L := density_converges [0; 2 * -1] [1/2; 1/2] (- -1) 1 ltac:(lra) eq_refl). fold G c in L. change (is_lim_seq x (occupation [0; 2 * -1] [1/2; 1/2] 1 + (1 - lsum (K := RF) [1/2; 1/2]) / 2)) in L.
  assert (HS : (occupation [0; 2 * -1] [1/2; 1/2] 1 + (1 - lsum (K := RF) [1/2; 1/2]) / 2) = occupation [0; 2 * -1] [1/2; 1/2] 1) by (change (lsum (K := RF) [1/2; 1/2]) with (1/2 + (1/2 + 0)); field). rewrite HS in L.
  assert (XS : forall M, x (S M) = x M + 2 * delta_of G (- -1) 1 M). { intros M. unfold x. change (nsum (K := RF) (S M) (delta_of G (- -1) 1)) with (nsum (K := RF) M (delta_of G (- -1) 1) + delta_of G (- -1) 1 M). set (a := nsum (K := RF) M (delta_of G (- -1) 1)). change (car RF) with R in a. clearbody a. field. }
  assert (B := is_lim_seq_decr_compare x _ L (fun M => ltac:(rewrite XS; specialize (D M); lra)) (S N)). rewrite XS in B. specialize (D N) as DN. set (n := occupation [0; 2 * -1] [1/2; 1/2] 1) in *.
  assert (PE : exists err, density_error (map (delta_of G (- -1) 1) (seq 0 N)) (map (wn 1) (seq 0 N)) true = Ok err /\ err < 0).
  { eexists. split; [apply density_error_eq, HN|]. assert (K : (N / 10 < N)%nat) by (apply Nat.div_lt; lia). assert (W := wn_pos 1 (N - 1) ltac:(lra)). assert (P := PI_RGT_0). set (k := (N / 10)%nat) in *. clearbody k.
    assert (J : 0 < 1 / PI / wn 1 (N - 1)) by (unfold Rdiv; rewrite Rmult_1_l; apply Rmult_lt_0_compat; apply Rinv_0_lt_compat; lra).
    assert (I : nsum (K := RF) (N - k) (fun i => delta_of G (- -1) 1 (k + i)%nat * wn 1 (k + i) ^ 2) < 0).
    { assert (I : forall m, nsum (K := RF) (S m) (fun i => delta_of G (- -1) 1 (k + i)%nat * wn 1 (k + i) ^ 2) < 0); [|replace (N - k)%nat with (S (N - k - 1)) by lia; apply I].
      assert (T : forall i, delta_of G (- -1) 1 (k + i)%nat * wn 1 (k + i) ^ 2 < 0). { intros i. specialize (D (k + i)%nat). assert (V := wn_pos 1 (k + i) ltac:(lra)). assert (0 < wn 1 (k + i) ^ 2) by (apply pow_lt, V). nra. }
      intros m. induction m as [|m IH]; [cbn [nsum]; specialize (T 0%nat); change (@Fadd RF) with Rplus; change (@F0 RF) with 0; lra|].
      change (nsum (K := RF) (S m) (fun i => delta_of G (- -1) 1 (k + i)%nat * wn 1 (k + i) ^ 2) + delta_of G (- -1) 1 (k + S m)%nat * wn 1 (k + S m) ^ 2 < 0). specialize (T (S m)). lra. }
    set (a := nsum (K := RF) (N - k) (fun i => delta_of G (- -1) 1 (k + i)%nat * wn 1 (k + i) ^ 2)) in *. change (car RF) with R in a. clearbody a. assert (INK := lt_0_INR (N - k) ltac:(lia)).
    assert (A : a / INR (N - k) < 0) by (apply Rmult_lt_reg_r with (INR (N - k)); [exact INK|unfold Rdiv; rewrite Rmult_assoc, Rinv_l; lra]). nra. }
  destruct PE as (err & PE & Hneg).
  exists (x N), err, ((x N - n) / 2). cbv zeta.
  assert (F : forall r, density (map G (seq 0 N)) (- -1) 1 r = match r with RTrue => Ok (Dens (x N) (Some err) false) | RTol tol => if Req_EM_T tol 0 then Ok (Dens (x N) None false) else Ok (Dens (x N) None (if Rlt_dec tol err then true else false)) end).
  { intros r. unfold density. destruct (Req_EM_T 1 0) as [Z|_]; [lra|]. cbv zeta. rewrite map_length, seq_length, density_tail, fermi_def. replace (1 * - - -1) with (- (1 * - -1)) by ring. fold c.
    unfold density_from. cbv zeta. rewrite combine_map, map_map. cbn [fst snd]. rewrite map_length, seq_length, lsum_seq. rewrite grid_wn by lra. change (fun x0 : nat => fst (G x0) - fst (1 / (RtoC (- -1) + iw 1 x0))%C) with (delta_of G (- -1) 1). rewrite PE. destruct r; reflexivity. }
  assert (PS : n < x N) by lra. split; [exact (F RTrue)|]. split; [exact Hneg|]. split; [lra|]. split; [rewrite Rabs_pos_eq; lra|].
  rewrite (F (RTol _)). destruct (Req_EM_T ((x N - n) / 2) 0) as [Z|_]; [lra|]. destruct (Rlt_dec ((x N - n) / 2) err); [lra|reflexivity].
Qed.
Print Assumptions C68_noisy_refuted.

(** the hypotheses of the bound: two poles at 0 and 2, the tail in between; every number of frequencies *)
Example C68_error_example : forall N, (0 < N)%nat -> exists x e,
  let gf n := green_z (iw 1 n) [0; 2 * 1] [1/2; 1/2] in
  (exists o, density (map gf (seq 0 N)) (-1) 1 (RTol 0) = Ok o /\ dens_x o = x) /\
  density_error (map (fun n => fst (gf n) - fst (1 / (RtoC (-1) + iw 1 n))%C) (seq 0 N)) (map (fun n => (2 * INR n + 1) * PI / 1) (seq 0 N)) false = Ok e /\
  Rabs (occupation [0; 2 * 1] [1/2; 1/2] 1 - x) <= e.
Proof.
  intros N HN. destruct (C68_limit [0; 2 * 1] [1/2; 1/2] (-1) 1 (RTol 0) ltac:(lra) eq_refl) as (d & Hd & L). exists (d N). eexists. cbv zeta. split; [apply Hd, HN|]. split; [apply (density_error_eq (delta_of (fun n => green_z (iw 1 n) [0; 2 * 1] [1/2; 1/2]) (-1) 1) 1 N false HN)|].
  apply (C68_error (fun n => green_z (iw 1 n) [0; 2 * 1] [1/2; 1/2]) (-1) 1 N (occupation [0; 2 * 1] [1/2; 1/2] 1) d _ ltac:(lra) HN Hd).
  - match type of L with is_lim_seq _ ?l => match goal with |- is_lim_seq _ ?l' => replace l' with l; [exact L|] end end. apply f_equal. change (lsum (K := RF) [1/2; 1/2]) with (1/2 + (1/2 + 0)). field.
  - intros n Hn. exists (N - 1)%nat. split; [assert (K : (N / 10 < N)%nat) by (apply Nat.div_lt; lia); lia|].
    change (Rabs (delta_of (fun n => green_z (iw 1 n) [0; 2 * 1] [1/2; 1/2]) (-1) 1 n) * wn 1 n ^ 2 <= Rabs (delta_of (fun n => green_z (iw 1 n) [0; 2 * 1] [1/2; 1/2]) (-1) 1 (N - 1)) * wn 1 (N - 1) ^ 2).
    replace (-1) with (- (1)) by ring. rewrite !(delta_example 1) by (left; reflexivity). rewrite !Rmult_1_l. unfold dlt.
    assert (W2 : 2 <= wn 1 (N - 1)) by (unfold wn; assert (P := PI2_1); assert (I := pos_INR (N - 1)); nra).
    assert (WW : wn 1 (N - 1) <= wn 1 n) by (unfold wn; assert (P := PI_RGT_0); assert (I := le_INR (N - 1) n ltac:(lia)); nra).
    set (a := wn 1 (N - 1)) in *. set (b := wn 1 n) in *. clearbody a b. assert (A2 : 4 <= a ^ 2) by nra. assert (B2 : a ^ 2 <= b ^ 2) by nra. set (p := a ^ 2) in *. set (q := b ^ 2) in *. clearbody p q.
    rewrite !Rabs_pos_eq by (apply Rlt_le, Rdiv_lt_0_compat; [lra|apply Rmult_lt_0_compat; lra]).
    apply (Rmult_le_reg_r ((p + 1) * (p + 4) * ((q + 1) * (q + 4)))); [repeat apply Rmult_lt_0_compat; lra|].
    replace (3 / ((q + 1) * (q + 4)) * q * ((p + 1) * (p + 4) * ((q + 1) * (q + 4)))) with (3 * q * ((p + 1) * (p + 4))) by (field; split; lra).
    replace (3 / ((p + 1) * (p + 4)) * p * ((p + 1) * (p + 4) * ((q + 1) * (q + 4)))) with (3 * p * ((q + 1) * (q + 4))) by (field; split; lra).
    assert (0 <= (q - p) * (p * q - 4)) by (apply Rmult_le_pos; nra). nra.
  - apply (density_error_eq (delta_of (fun n => green_z (iw 1 n) [0; 2 * 1] [1/2; 1/2]) (-1) 1) 1 N false HN).
Qed.

Definition ham_x : mat CF := Mat (K := CF) 2 2 (fun i j => if (i =? j)%nat then RtoC 0 else RtoC 1).
Definition vec_x : mat CF := Mat (K := CF) 2 2 (fun i j => match i, j with S _, O => RtoC (- / sqrt 2) | _, _ => RtoC (/ sqrt 2) end).
Lemma ham_x_eigh : eigh_spec CF Cconj ham_x ([RtoC (-1); RtoC 1], vec_x).
Proof.
  assert (S0 := sqrt_lt_R0 2 ltac:(lra)). assert (S2 : / sqrt 2 * / sqrt 2 = / 2) by (rewrite <- Rinv_mult, sqrt_sqrt; lra). set (s := / sqrt 2) in *.
  split; [split; [split; reflexivity|split; [reflexivity|]]|split].
  - intros [|[|i]] [|[|j]] Hi Hj; try (cbn in Hi, Hj; lia); cbn [nr ham_x nsum]; apply C_ext; cbn; fold s; ring.
  - intros x [<-|[<-|[]]]; apply C_ext; cbn; ring.
  - intros [|[|i]] [|[|j]] Hi Hj; try (cbn in Hi, Hj; lia); cbn [nr ham_x nsum]; apply C_ext; cbn; fold s; nra.
Qed.
(** a dimer with the potential -H, H = [[0, -1], [-1, 0]]; the diagonal elements have the poles -1 and 1 *)
Example C68_matrix_example : exists d : nat -> nat -> R,
  (forall N, density_matrix (fun _ => Ok ([RtoC (-1); RtoC 1], vec_x)) (fun _ => true)
     (map (fun _ => map (fun n => green_z (iw 1 n) [1; -1] [1/2; 1/2]) (seq 0 N)) (seq 0 2)) ham_x 1 false = Ok (map (d N) (seq 0 2))) /\
  forall i, (i < 2)%nat -> is_lim_seq (fun N => d N i) (occupation [1; -1] [1/2; 1/2] 1).
Proof.
  apply (C68_matrix (fun _ => Ok ([RtoC (-1); RtoC 1], vec_x)) (fun _ => true) ham_x [RtoC (-1); RtoC 1] vec_x (fun _ => [1; -1]) (fun _ => [1/2; 1/2]) 1); try reflexivity; [cbn; lia|lra|exact ham_x_eigh|].
  intros _. split; [reflexivity|cbn; field].
Qed.
