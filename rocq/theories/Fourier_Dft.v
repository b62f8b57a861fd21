(** * Discrete Fourier transforms: orthogonality and the round trips *)
From Coq Require Import List Arith ZArith Reals Lia Lra Bool String Field.
From Coquelicot Require Import Coquelicot.
From Verif Require Import Base FSum CBase CExp Herm_Proofs LinPred_Burg Matrix_Time Stat_Model Linalg_Model Pole_Model Fourier_Model.
Import ListNotations.
Local Open Scope C_scope.

Ltac rr := match goal with |- @eq _ ?a ?b => change (@eq R a b) end; ring.
Section Zeta.
Variable n : nat.
Hypothesis Hn : (0 < n)%nat.
Let INRn : (INR n <> 0)%R. Proof. apply not_0_INR. lia. Qed.

Lemma zeta_add a b : zeta n (a + b) = zeta n a * zeta n b.
Proof.
  unfold zeta. rewrite <- cexp_add. f_equal. rewrite plus_IZR. rewrite <- Cmult_plus_distr_l. f_equal. rewrite <- RtoC_plus. f_equal. field. exact INRn.
Qed.
Lemma zeta_0 : zeta n 0 = 1.
Proof. unfold zeta. replace (2 * PI * 0 / INR n)%R with 0%R by (field; exact INRn). rewrite Cmult_0_r. apply cexp_0. Qed.
Lemma zeta_period k : zeta n (Z.of_nat n * k) = 1.
Proof.
  unfold zeta. rewrite mult_IZR, <- INR_IZR_INZ. replace (2 * PI * (INR n * IZR k) / INR n)%R with (2 * IZR k * PI)%R by (field; exact INRn).
  unfold cexp, Ci. apply C_ext; cbn [fst snd Cmult RtoC].
  - replace (0 * (2 * IZR k * PI) - 1 * 0)%R with 0%R by ring. replace (0 * 0 + 1 * (2 * IZR k * PI))%R with (2 * IZR k * PI)%R by ring.
    rewrite exp_0, cos_2Zpi. ring.
  - replace (0 * (2 * IZR k * PI) - 1 * 0)%R with 0%R by ring. replace (0 * 0 + 1 * (2 * IZR k * PI))%R with (IZR (2 * k) * PI)%R by (rewrite mult_IZR; ring).
    rewrite sin_Zpi. ring.
Qed.
Lemma zeta_mod k : zeta n k = zeta n (k mod Z.of_nat n).
Proof.
  rewrite (Z.div_mod k (Z.of_nat n)) at 1 by lia. rewrite zeta_add, zeta_period. ring.
Qed.
Lemma zeta_fst k : fst (zeta n k) = cos (2 * PI * IZR k / INR n).
Proof. unfold zeta, cexp, Ci. cbn [fst snd Cmult RtoC]. replace (0 * (2 * PI * IZR k / INR n) - 1 * 0)%R with 0%R by ring. rewrite exp_0. rewrite Rmult_1_l. f_equal. ring. Qed.
Lemma zeta_snd k : snd (zeta n k) = sin (2 * PI * IZR k / INR n).
Proof. unfold zeta, cexp, Ci. cbn [fst snd Cmult RtoC]. replace (0 * (2 * PI * IZR k / INR n) - 1 * 0)%R with 0%R by ring. rewrite exp_0. rewrite Rmult_1_l. f_equal. ring. Qed.
Lemma zeta_neq1 k : (k mod Z.of_nat n <> 0)%Z -> zeta n k <> 1.
Proof.
  intros Hk E. rewrite zeta_mod in E. assert (B := Z.mod_pos_bound k (Z.of_nat n) ltac:(lia)). set (r := (k mod Z.of_nat n)%Z) in *.
  assert (Hr : (0 < IZR r < INR n)%R). { rewrite INR_IZR_INZ. split; apply IZR_lt; lia. }
  assert (P := PI_RGT_0).
  assert (Th : (0 < 2 * PI * IZR r / INR n < 2 * PI)%R).
  { split; [apply Rdiv_lt_0_compat; [nra|lra]|]. apply Rmult_lt_reg_r with (INR n); [lra|]. unfold Rdiv. rewrite Rmult_assoc, Rinv_l by exact INRn. nra. }
  assert (Es := f_equal snd E). rewrite zeta_snd in Es. cbn in Es. assert (Ec := f_equal fst E). rewrite zeta_fst in Ec. cbn in Ec.
  destruct (sin_eq_O_2PI_0 (2 * PI * IZR r / INR n)) as [H|[H|H]]; try lra.
  rewrite H, cos_PI in Ec. lra.
Qed.
Lemma zeta_neq0 k : zeta n k <> 0.
Proof. apply cexp_neq_0. Qed.
Lemma zeta_opp k : zeta n (- k) = Cconj (zeta n k).
Proof. unfold zeta. rewrite Cconj_cexp. f_equal. rewrite opp_IZR. apply C_ext; cbn; field; exact INRn. Qed.
Lemma zeta_pow k j : zeta n (k * Z.of_nat j) = fpow (K := CF) (zeta n k) j.
Proof.
  induction j as [|j IH]; [rewrite Z.mul_0_r; apply zeta_0|].
  rewrite fpow_S. replace (k * Z.of_nat (S j))%Z with (k + k * Z.of_nat j)%Z by lia. rewrite zeta_add, IH. reflexivity.
Qed.

(** the sum of all powers of a root of unity *)
Lemma zeta_orth m : nsum (K := CF) n (fun k => zeta n (m * Z.of_nat k)) = if (m mod Z.of_nat n =? 0)%Z then RtoC (INR n) else RtoC 0.
Proof.
  destruct (Z.eqb_spec (m mod Z.of_nat n) 0) as [E|N].
  - rewrite (nsum_ext CF n _ (fun _ => RtoC 1)).
    2:{ intros k Hk. rewrite (Z.div_mod m (Z.of_nat n)) by lia. rewrite E, Z.add_0_r. rewrite <- Z.mul_assoc. apply zeta_period. }
    clear. induction n as [|k IH]; [reflexivity|]. cbn [nsum]. rewrite S_INR, RtoC_plus, <- IH. reflexivity.
  - assert (G := geom_sum CF (zeta n m) n). rewrite (nsum_ext CF n _ (fpow (K := CF) (zeta n m))) by (intros; apply zeta_pow).
    rewrite <- zeta_pow in G. rewrite Z.mul_comm, zeta_period in G. cbn [Fsub Fmul F1 CF] in G.
    apply (fmul_cancel_l CF (1 - zeta n m)%C).
    + intros E. apply (zeta_neq1 m N). symmetry. exact (proj1 (fsub_eq0 CF _ _) E).
    + refine (eq_trans G _). cring.
Qed.
End Zeta.

Lemma nsum_even_odd {K : Fld} N (f : nat -> K) : nsum (2 * N) f = Fadd (nsum N (fun j => f (2 * j)%nat)) (nsum N (fun j => f (2 * j + 1)%nat)).
Proof.
  induction N as [|N IH]; [cbn; apply (eq_sym (F_l (Fth K) _)) || (cbn; symmetry; apply (Radd_0_l (F_R (Fth K))))|].
  replace (2 * S N)%nat with (S (S (2 * N))) by lia. cbn [nsum]. rewrite IH.
  replace (S (2 * N)) with (2 * N + 1)%nat by lia. clear IH.
  pose (R := F_R (Fth K)). rewrite <- !(Radd_assoc R). f_equal. rewrite !(Radd_assoc R). f_equal. apply (Radd_comm R).
Qed.

Lemma odds_len {A} (d : A) l : List.length (odds d l) = (List.length l / 2)%nat.
Proof. unfold odds. now rewrite map_length, seq_length. Qed.
Lemma gf_iwall_len gf : List.length (gf_iwall gf) = (2 * List.length gf + 1)%nat.
Proof. unfold gf_iwall. now rewrite map_length, seq_length. Qed.
Lemma gf_iwall_even gf j : nth (2 * j) (gf_iwall gf) (RtoC 0) = RtoC 0.
Proof.
  destruct (lt_dec (2 * j) (2 * List.length gf + 1)) as [H|H].
  - unfold gf_iwall. rewrite nth_map_seq by exact H. rewrite Nat.odd_mul. reflexivity.
  - apply nth_overflow. rewrite gf_iwall_len. lia.
Qed.
Lemma gf_iwall_odd gf j : (j < List.length gf)%nat -> nth (2 * j + 1) (gf_iwall gf) (RtoC 0) = nth j gf (RtoC 0).
Proof.
  intros H. unfold gf_iwall. rewrite nth_map_seq by lia. replace (2 * j + 1)%nat with (S (2 * j)) at 1 by lia. rewrite Nat.odd_succ, Nat.even_mul. cbn [Nat.even orb].
  f_equal. rewrite Nat.mul_comm, Nat.add_comm, Nat.div_add by lia. reflexivity.
Qed.
Lemma nth_scal (c : C) l i : nth i (map (Cmult c) l) (RtoC 0) = c * nth i l (RtoC 0).
Proof. change (RtoC 0) with (RtoC 0) at 1. rewrite <- (Cmult_0_r c) at 1. apply map_nth. Qed.

(** value of iw2tau_dft at grid point k, for every grid point *)
Definition iw2tau_at (gf : list C) (beta : R) (k : Z) : R :=
  (2 / beta * nsum (K := RF) (List.length gf) (fun j => fst (nth j gf (RtoC 0) * zeta (4 * List.length gf) (- (Z.of_nat (2 * j + 1) * k)))%C))%R.
Lemma iw2tau_dft_ok gf beta : gf <> [] -> beta <> 0%R ->
  iw2tau_dft gf beta = Ok (map (fun k => iw2tau_at gf beta (Z.of_nat k)) (seq 0 (2 * List.length gf + 1))).
Proof.
  intros Hgf Hb. unfold iw2tau_dft. destruct (Req_EM_T beta 0); [contradiction|]. set (N := List.length gf).
  assert (HN : (0 < N)%nat). { unfold N. destruct gf; [contradiction|cbn; lia]. }
  unfold hfft. rewrite map_length, gf_iwall_len. fold N. replace (2 * (2 * N + 1 - 1))%nat with (4 * N)%nat by lia.
  destruct (Nat.eqb_spec (4 * N) 0) as [|_]; [lia|]. cbn [bind]. f_equal.
  assert (Hs : seq 0 (4 * N) = seq 0 (2 * N + 1) ++ seq (2 * N + 1) (2 * N - 1)). { replace (4 * N)%nat with ((2 * N + 1) + (2 * N - 1))%nat by lia. rewrite seq_app. reflexivity. }
  rewrite Hs, map_app, firstn_app. rewrite map_length, seq_length, Nat.sub_diag. cbn [firstn]. rewrite app_nil_r.
  rewrite firstn_all2 by (rewrite map_length, seq_length; lia). apply map_ext_in. intros k Hk. apply in_seq in Hk.
  replace (4 * N / 2)%nat with (2 * N)%nat by (replace (4 * N)%nat with (2 * N * 2)%nat by lia; now rewrite Nat.div_mul).
  rewrite !nth_scal. rewrite (gf_iwall_even gf N). change (nth 0 (gf_iwall gf) (RtoC 0)) with (nth (2 * 0) (gf_iwall gf) (RtoC 0)). rewrite (gf_iwall_even gf 0). rewrite Cmult_0_r, Cmult_0_l. cbn [fst RtoC].
  set (f := fun m => _). assert (E : nsum (K := RF) (2 * N - 1) f = nsum (K := RF) (2 * N) f).
  { symmetry. apply (nsum_extend RF); [lia|]. intros i Hi. assert (i = 2 * N - 1)%nat by lia. subst i. unfold f.
    replace (S (2 * N - 1)) with (2 * N)%nat by lia. rewrite nth_scal, gf_iwall_even, Cmult_0_r, Cmult_0_l. cbn; rr. }
  rewrite E, nsum_even_odd. rewrite (nsum_0' RF N (fun j => f (2 * j + 1)%nat)).
  2:{ intros j Hj. unfold f. replace (S (2 * j + 1)) with (2 * (j + 1))%nat by lia. rewrite nth_scal, gf_iwall_even, Cmult_0_r, Cmult_0_l. cbn; rr. }
  unfold iw2tau_at. fold N. assert (T := nsum_mul_l RF N (2 / beta)%R). cbn [Fmul RF] in T. rewrite <- T. cbn [Fadd RF F0].
  rewrite Rplus_0_l, !Rplus_0_r. apply (nsum_ext RF). intros j Hj. unfold f. replace (S (2 * j)) with (2 * j + 1)%nat by lia. rewrite nth_scal, gf_iwall_odd by exact Hj.
  rewrite <- Cmult_assoc. cbn [fst snd Cmult RtoC Fmul RF]. match goal with |- @eq _ ?a ?b => change (@eq R a b) end. field. exact Hb.
Qed.

Lemma iw2tau_at_C gf beta k : beta <> 0%R -> RtoC (iw2tau_at gf beta k) = / RtoC beta * nsum (K := CF) (List.length gf)
    (fun j => nth j gf (RtoC 0) * zeta (4 * List.length gf) (- (Z.of_nat (2 * j + 1) * k))
              + Cconj (nth j gf (RtoC 0)) * zeta (4 * List.length gf) (Z.of_nat (2 * j + 1) * k)).
Proof.
  intros Hb. assert (HbC : RtoC beta <> 0) by (intros E; apply Hb; now apply RtoC_inj).
  unfold iw2tau_at. rewrite RtoC_mult, RtoC_nsum, RtoC_div by exact Hb.
  destruct gf as [|g0 gf']; [cbn; field; exact HbC|]. set (gf := g0 :: gf') in *. assert (HN : (0 < 4 * List.length gf)%nat) by (cbn; lia).
  unfold Cdiv. rewrite (Cmult_comm (RtoC 2)), <- Cmult_assoc. f_equal. assert (T := nsum_mul_l CF (List.length gf) (RtoC 2)). cbn [Fmul CF] in T. rewrite <- T.
  apply (nsum_ext CF). intros j Hj. set (w := nth j gf (RtoC 0)). rewrite (zeta_opp _ HN). set (u := zeta _ _).
  apply C_ext; cbn; ring.
Qed.
Lemma iw2tau_at_anti gf beta k : gf <> [] -> iw2tau_at gf beta (k + Z.of_nat (2 * List.length gf)) = (- iw2tau_at gf beta k)%R.
Proof.
  intros Hgf. set (N := List.length gf). assert (HN : (0 < 4 * N)%nat). { unfold N. destruct gf; [contradiction|cbn; lia]. }
  unfold iw2tau_at. fold N. rewrite Ropp_mult_distr_r. f_equal. assert (T := nsum_opp RF N). cbn [Fopp RF] in T. rewrite <- T. apply (nsum_ext RF). intros j Hj.
  replace (- (Z.of_nat (2 * j + 1) * (k + Z.of_nat (2 * N))))%Z with (- (Z.of_nat (2 * j + 1) * k) + (Z.of_nat (4 * N) * (- Z.of_nat j) + - Z.of_nat (2 * N)))%Z by lia.
  rewrite !(zeta_add _ HN), (zeta_period _ HN). assert (E : zeta (4 * N) (- Z.of_nat (2 * N)) = RtoC (-1)).
  { rewrite (zeta_opp _ HN). apply C_ext; cbn [Cconj fst snd RtoC].
    - rewrite (zeta_fst _). replace (2 * PI * IZR (Z.of_nat (2 * N)) / INR (4 * N))%R with PI; [apply cos_PI|].
      rewrite <- INR_IZR_INZ, !mult_INR. cbn [INR]. field. apply not_0_INR. lia.
    - rewrite (zeta_snd _). replace (2 * PI * IZR (Z.of_nat (2 * N)) / INR (4 * N))%R with PI; [rewrite sin_PI; ring|].
      rewrite <- INR_IZR_INZ, !mult_INR. cbn [INR]. field. apply not_0_INR. lia. }
  rewrite E. cbn. ring.
Qed.

Lemma half2 m : (2 * m / 2 = m)%nat.
Proof. rewrite Nat.mul_comm. now apply Nat.div_mul. Qed.
Lemma removelast_len {A} (l : list A) : List.length (removelast l) = (List.length l - 1)%nat.
Proof. destruct l as [|a l]; [reflexivity|]. rewrite (app_removelast_last a (l := a :: l)) at 2 by discriminate. rewrite app_length. cbn. lia. Qed.
Lemma nth_removelast {A} (l : list A) i d : (i < List.length l - 1)%nat -> nth i (removelast l) d = nth i l d.
Proof.
  intros H. destruct l as [|a l]; [cbn in H; lia|]. rewrite (app_removelast_last a (l := a :: l)) at 2 by discriminate.
  rewrite app_nth1; [reflexivity|]. rewrite removelast_len. exact H.
Qed.
Lemma full_len g : List.length (full_range g) = (2 * List.length g - 1)%nat.
Proof. unfold full_range. rewrite app_length, map_length, removelast_len. lia. Qed.
Lemma full_lo g i : (i < List.length g - 1)%nat -> nth i (full_range g) 0%R = (- nth i g 0)%R.
Proof.
  intros H. unfold full_range. rewrite app_nth1 by (rewrite map_length, removelast_len; exact H). rewrite <- (Ropp_0) at 1. rewrite map_nth. now rewrite nth_removelast.
Qed.
Lemma full_hi g i : nth (List.length g - 1 + i) (full_range g) 0%R = nth i g 0%R.
Proof. unfold full_range. rewrite app_nth2 by (rewrite map_length, removelast_len; lia). rewrite map_length, removelast_len. f_equal. lia. Qed.

(** [tau2iw_dft] of a list with 2(M-1) intervals, as a sum *)
Lemma tau2iw_dft_ok g beta : (2 <= List.length g)%nat ->
  tau2iw_dft g beta = Ok (map (fun l => - RtoC beta * (nsum (K := CF) (2 * (List.length g - 1)) (fun k => RtoC (nth k (full_range g) 0%R) * zeta (2 * (List.length g - 1)) (Z.of_nat (2 * l + 1) * Z.of_nat k)) / RtoC (INR (2 * (List.length g - 1)))))
    (seq 0 (List.length g / 2))).
Proof.
  intros Hg. unfold tau2iw_dft, ihfft. rewrite removelast_len, full_len. set (n := (2 * (List.length g - 1))%nat).
  replace (2 * List.length g - 1 - 1)%nat with n by lia. destruct (Nat.eqb_spec n 0) as [|_]; [lia|]. cbn [bind]. f_equal.
  unfold odds. rewrite map_length, seq_length, map_map.
  replace ((n / 2 + 1) / 2)%nat with (List.length g / 2)%nat.
  2:{ f_equal. unfold n. rewrite half2. lia. }
  apply map_ext_in. intros l Hl. apply in_seq in Hl. assert (2 * l + 1 < List.length g)%nat. { assert (D := Nat.div_mod (List.length g) 2 ltac:(lia)). lia. }
  rewrite nth_map_seq.
  2:{ unfold n. rewrite half2. lia. }
  rewrite RtoC_opp. f_equal. f_equal. apply (nsum_ext CF). intros k Hk. rewrite nth_removelast; [reflexivity|]. rewrite full_len. lia.
Qed.

Theorem dft_roundtrip gf beta tau : beta <> 0%R -> iw2tau_dft gf beta = Ok tau -> tau2iw_dft tau beta = Ok gf.
Proof.
  intros Hb H. assert (HbC : RtoC beta <> 0) by (intros E; apply Hb; now apply RtoC_inj).
  destruct (list_eq_dec Ceq_dec gf []) as [->|Hgf].
  { unfold iw2tau_dft in H. destruct (Req_EM_T beta 0); [contradiction|]. discriminate H. }
  rewrite (iw2tau_dft_ok gf beta Hgf Hb) in H. injection H as <-. set (N := List.length gf). assert (HN : (0 < N)%nat). { unfold N. destruct gf; [contradiction|cbn; lia]. }
  set (tau := map _ _). assert (Lt : List.length tau = (2 * N + 1)%nat) by (unfold tau; now rewrite map_length, seq_length).
  rewrite tau2iw_dft_ok by lia. rewrite Lt. replace (2 * (2 * N + 1 - 1))%nat with (4 * N)%nat by lia. f_equal.
  replace ((2 * N + 1) / 2)%nat with N by (rewrite Nat.mul_comm, Nat.div_add_l by lia; cbn; lia).
  apply (list_ext _ _ (RtoC 0)); [now rewrite map_length, seq_length|]. intros l Hl. rewrite map_length, seq_length in Hl. rewrite nth_map_seq by exact Hl.
  assert (H4 : (0 < 4 * N)%nat) by lia. assert (HNC : RtoC (INR (4 * N)) <> 0). { intros E. apply RtoC_inj in E. revert E. apply not_0_INR. lia. }
  assert (F : forall k, (k < 4 * N)%nat -> nth k (full_range tau) 0%R = (- iw2tau_at gf beta (Z.of_nat k))%R).
  { intros k Hk. destruct (lt_dec k (2 * N)) as [Hlt|Hge].
    - rewrite full_lo by lia. f_equal. unfold tau. now rewrite nth_map_seq by (fold N; lia).
    - replace k with (List.length tau - 1 + (k - 2 * N))%nat at 1 by lia. rewrite full_hi. unfold tau. rewrite nth_map_seq by (fold N; lia).
      replace (Z.of_nat k) with (Z.of_nat (k - 2 * N) + Z.of_nat (2 * N))%Z by lia. unfold N. rewrite iw2tau_at_anti by exact Hgf. ring. }
  set (S := nsum _ _). assert (ES : S = - / RtoC beta * (RtoC (INR (4 * N)) * nth l gf (RtoC 0))).
  { unfold S. rewrite (nsum_ext CF (4 * N) _ (fun k => - / RtoC beta * nsum (K := CF) N (fun j => nth j gf (RtoC 0) * zeta (4 * N) (2 * (Z.of_nat l - Z.of_nat j) * Z.of_nat k) + Cconj (nth j gf (RtoC 0)) * zeta (4 * N) (2 * (Z.of_nat l + Z.of_nat j + 1) * Z.of_nat k)))).
    2:{ intros k Hk. rewrite F by exact Hk. rewrite RtoC_opp, iw2tau_at_C by exact Hb. fold N. cbn [Fmul CF].
        match goal with |- - (?x * ?y) * ?w = _ => transitivity (- x * (y * w)); [cring|] end. f_equal. assert (T := nsum_mul_r CF N (zeta (4 * N) (Z.of_nat (2 * l + 1) * Z.of_nat k))). cbn [Fmul CF] in T. rewrite <- T.
        apply (nsum_ext CF). intros j Hj. cbn [Fmul CF]. rewrite Cmult_plus_distr_r, <- !Cmult_assoc, <- !(zeta_add _ H4). f_equal; f_equal; f_equal; lia. }
    assert (T := nsum_mul_l CF (4 * N) (- / RtoC beta)). cbn [Fmul CF] in T. rewrite T. f_equal. rewrite (nsum_swap CF).
    rewrite (nsum_single CF N l).
    - assert (T2 := nsum_add CF (4 * N)). cbn [Fadd CF] in T2. rewrite T2. assert (T3 := nsum_mul_l CF (4 * N)). cbn [Fmul CF] in T3. rewrite !T3.
      rewrite !(zeta_orth _ H4). rewrite Z.sub_diag, Z.mul_0_r. rewrite Z.mod_0_l by lia. cbn [Z.eqb].
      rewrite Z.mod_small by lia. destruct (Z.eqb_spec (2 * (Z.of_nat l + Z.of_nat l + 1)) 0) as [|_]; [lia|]. cring.
    - exact Hl.
    - intros j Hj Hne. assert (T2 := nsum_add CF (4 * N)). cbn [Fadd CF] in T2. rewrite T2. assert (T3 := nsum_mul_l CF (4 * N)). cbn [Fmul CF] in T3. rewrite !T3.
      rewrite !(zeta_orth _ H4). rewrite (Z.mod_small (2 * (Z.of_nat l + Z.of_nat j + 1))) by lia.
      destruct (Z.eqb_spec (2 * (Z.of_nat l + Z.of_nat j + 1)) 0) as [|_]; [lia|].
      destruct (Z.eqb_spec ((2 * (Z.of_nat l - Z.of_nat j)) mod Z.of_nat (4 * N)) 0) as [E|_]; [exfalso|cring].
      apply Z.mod_divide in E; [|lia]. destruct E as [q Hq]. assert (q = 0)%Z by nia. nia. }
  rewrite ES. cbn [Fmul CF]. match goal with |- @eq _ ?a ?b => change (@eq C a b) end. field. split; assumption.
Qed.

Lemma zeta_halve n m : (0 < n)%nat -> zeta (2 * n) (2 * m) = zeta n m.
Proof. intros H. unfold zeta. f_equal. f_equal. f_equal. rewrite mult_IZR, mult_INR. cbn [INR]. field. apply not_0_INR. lia. Qed.
Lemma zeta_minus1 n : (0 < n)%nat -> zeta (2 * n) (Z.of_nat n) = RtoC (-1).
Proof.
  intros H. assert (E : (2 * PI * IZR (Z.of_nat n) / INR (2 * n))%R = PI). { rewrite <- INR_IZR_INZ, mult_INR. cbn [INR]. field. apply not_0_INR. lia. }
  apply C_ext; [rewrite zeta_fst|rewrite zeta_snd]; rewrite E; cbn; [apply cos_PI|apply sin_PI].
Qed.

(** the Dirichlet-type kernel over the odd harmonics *)
Definition odd_kernel (N : nat) (d : Z) : C :=
  nsum (K := CF) N (fun j => zeta (4 * N) (Z.of_nat (2 * j + 1) * d) + zeta (4 * N) (- (Z.of_nat (2 * j + 1) * d))).
Lemma odd_kernel_val N d : (0 < N)%nat ->
  odd_kernel N d = if (d mod Z.of_nat (2 * N) =? 0)%Z then RtoC (INR (2 * N)) * zeta (4 * N) d else RtoC 0.
Proof.
  intros HN. assert (H4 : (0 < 4 * N)%nat) by lia. assert (H2 : (0 < 2 * N)%nat) by lia.
  assert (E : odd_kernel N d = nsum (K := CF) (N + N) (fun j => zeta (4 * N) (Z.of_nat (2 * j + 1) * d))).
  { unfold odd_kernel. assert (T := nsum_add CF N). cbn [Fadd CF] in T. rewrite T. rewrite (nsum_split CF). cbn [Fadd CF]. f_equal.
    rewrite (nsum_rev CF N (fun j => zeta _ (- _))). apply (nsum_ext CF). intros j Hj.
    replace (Z.of_nat (2 * (N + j) + 1) * d)%Z with (- (Z.of_nat (2 * (N - 1 - j) + 1) * d) + Z.of_nat (4 * N) * d)%Z by (replace (Z.of_nat (2 * (N + j) + 1)) with (- Z.of_nat (2 * (N - 1 - j) + 1) + Z.of_nat (4 * N))%Z by lia; ring). rewrite (zeta_add _ H4), (zeta_period _ H4). cring. }
  rewrite E. replace (N + N)%nat with (2 * N)%nat by lia. rewrite (nsum_ext CF (2 * N) _ (fun j => zeta (4 * N) d * zeta (2 * N) (d * Z.of_nat j))).
  2:{ intros j Hj. replace (Z.of_nat (2 * j + 1) * d)%Z with (d + 2 * (d * Z.of_nat j))%Z by lia. rewrite (zeta_add _ H4). f_equal. replace (4 * N)%nat with (2 * (2 * N))%nat by lia. apply zeta_halve. exact H2. }
  assert (T := nsum_mul_l CF (2 * N) (zeta (4 * N) d)). cbn [Fmul CF] in T. rewrite T, (zeta_orth _ H2). destruct (_ =? 0)%Z; cring.
Qed.
Lemma odd_kernel_shift N d : (0 < N)%nat -> odd_kernel N (d + Z.of_nat (2 * N)) = - odd_kernel N d.
Proof.
  intros HN. rewrite !odd_kernel_val by exact HN. replace (d + Z.of_nat (2 * N))%Z with (d + 1 * Z.of_nat (2 * N))%Z by lia. rewrite Z.mod_add by lia.
  rewrite (zeta_add (4 * N)) by lia. rewrite Z.mul_1_l. replace (4 * N)%nat with (2 * (2 * N))%nat by lia. rewrite zeta_minus1 by lia. replace (RtoC (-1)) with (- RtoC 1) by (rewrite <- RtoC_opp; f_equal; ring). destruct (_ =? 0)%Z; ring.
Qed.

Theorem dft_roundtrip_tau g beta N : beta <> 0%R -> (0 < N)%nat -> List.length g = (2 * N + 1)%nat ->
  exists gf, tau2iw_dft g beta = Ok gf /\ List.length gf = N /\ iw2tau_dft gf beta = Ok (removelast g ++ [(- nth 0 g 0)%R]).
Proof.
  intros Hb HN Lg. assert (HbC : RtoC beta <> 0) by (intros E; apply Hb; now apply RtoC_inj).
  rewrite tau2iw_dft_ok by lia. rewrite Lg. replace (2 * (2 * N + 1 - 1))%nat with (4 * N)%nat by lia. assert (H4 : (0 < 4 * N)%nat) by lia.
  replace ((2 * N + 1) / 2)%nat with N by (rewrite Nat.mul_comm, Nat.div_add_l by lia; cbn; lia).
  assert (HNC : RtoC (INR (4 * N)) <> 0). { intros E. apply RtoC_inj in E. revert E. apply not_0_INR. lia. }
  set (gf := map _ _). assert (Lgf : List.length gf = N) by (unfold gf; now rewrite map_length, seq_length). exists gf. split; [reflexivity|split; [exact Lgf|]].
  rewrite iw2tau_dft_ok; [|intros E; rewrite E in Lgf; cbn in Lgf; lia|exact Hb]. rewrite Lgf. f_equal.
  assert (LH : forall k, (k < 2 * N + 1)%nat -> RtoC (iw2tau_at gf beta (Z.of_nat k)) = - / RtoC (INR (4 * N)) * nsum (K := CF) (4 * N) (fun q => RtoC (nth q (full_range g) 0%R) * odd_kernel N (Z.of_nat q - Z.of_nat k))).
  { intros k Hk. rewrite iw2tau_at_C by exact Hb. rewrite Lgf.
    rewrite (nsum_ext CF N _ (fun j => (- RtoC beta / RtoC (INR (4 * N))) * nsum (K := CF) (4 * N) (fun q => RtoC (nth q (full_range g) 0%R) * (zeta (4 * N) (Z.of_nat (2 * j + 1) * (Z.of_nat q - Z.of_nat k)) + zeta (4 * N) (- (Z.of_nat (2 * j + 1) * (Z.of_nat q - Z.of_nat k))))))).
    2:{ intros j Hj. unfold gf. change (@F0 CF) with (RtoC 0). rewrite nth_map_seq by exact Hj. set (S := nsum (K := CF) _ _) at 1. fold S.
        assert (CS : Cconj (- RtoC beta * (S / RtoC (INR (4 * N)))) = - RtoC beta / RtoC (INR (4 * N)) * Cconj S).
        { rewrite Cconj_mult. unfold Cdiv. rewrite Cconj_mult. rewrite <- RtoC_inv by (apply not_0_INR; lia). rewrite Cconj_R. rewrite <- RtoC_opp, Cconj_R. cring. }
        rewrite CS. unfold S at 2. rewrite nsum_conj. match goal with |- @eq _ ?a ?b => change (@eq C a b) end.
        assert (TR := nsum_mul_r CF (4 * N)). cbn [Fmul CF] in TR. assert (TA := nsum_add CF (4 * N)). cbn [Fadd CF] in TA.
        match goal with |- - ?b * (?s / ?d) * ?u + - ?b / ?d * ?cs * ?v = _ => transitivity (- b / d * (s * u + cs * v)); [unfold Cdiv; ring|] end.
        f_equal. unfold S. rewrite <- !TR, <- TA. apply (nsum_ext CF). intros q Hq. match goal with |- @eq _ ?a ?b => change (@eq C a b) end.
        cbn [Fmul CF]. rewrite Cconj_mult, Cconj_R. rewrite <- (zeta_opp _ H4). rewrite <- !Cmult_assoc, <- !(zeta_add _ H4). rewrite <- Cmult_plus_distr_l. f_equal. f_equal; f_equal; lia. }
    assert (TL := nsum_mul_l CF N (- RtoC beta / RtoC (INR (4 * N)))). cbn [Fmul CF] in TL. rewrite TL. rewrite (nsum_swap CF).
    rewrite (nsum_ext CF (4 * N) _ (fun q => RtoC (nth q (full_range g) 0%R) * odd_kernel N (Z.of_nat q - Z.of_nat k))).
    2:{ intros q Hq. assert (TL2 := nsum_mul_l CF N (RtoC (nth q (full_range g) 0%R))). cbn [Fmul CF] in TL2. rewrite TL2. reflexivity. }
    cbn [Fmul CF]. match goal with |- @eq _ ?a ?b => change (@eq C a b) end. field. split; assumption. }
  assert (RH : forall k, RtoC 0 - / RtoC (INR (4 * N)) * nsum (K := CF) (4 * N) (fun q => RtoC (nth q (full_range g) 0%R) * odd_kernel N (Z.of_nat q - Z.of_nat k))
               = / RtoC (INR (2 * N)) * nsum (K := CF) (2 * N) (fun q => RtoC (nth q g 0%R) * odd_kernel N (Z.of_nat q - Z.of_nat k))).
  { intros k. replace (4 * N)%nat with (2 * N + 2 * N)%nat at 2 by lia. rewrite (nsum_split CF).
    rewrite (nsum_ext CF (2 * N) (fun q => RtoC (nth q (full_range g) 0%R) * _) (fun q => - RtoC 1 * (RtoC (nth q g 0%R) * odd_kernel N (Z.of_nat q - Z.of_nat k)))).
    2:{ intros q Hq. rewrite full_lo by lia. rewrite RtoC_opp. cring. }
    rewrite (nsum_ext CF (2 * N) (fun i => RtoC (nth (2 * N + i) (full_range g) 0%R) * _) (fun q => - RtoC 1 * (RtoC (nth q g 0%R) * odd_kernel N (Z.of_nat q - Z.of_nat k)))).
    2:{ intros q Hq. replace (2 * N + q)%nat with (List.length g - 1 + q)%nat at 1 by lia. rewrite full_hi.
        replace (Z.of_nat (2 * N + q) - Z.of_nat k)%Z with (Z.of_nat q - Z.of_nat k + Z.of_nat (2 * N))%Z by lia. rewrite odd_kernel_shift by exact HN. cring. }
    assert (TL := nsum_mul_l CF (2 * N) (- RtoC 1)). cbn [Fmul CF] in TL. rewrite !TL. cbn [Fadd CF]. set (S := nsum _ _). match goal with |- @eq _ ?a ?b => change (@eq C a b) end.
    replace (INR (4 * N)) with (INR (2 * N) + INR (2 * N))%R by (rewrite !mult_INR; cbn; ring). rewrite RtoC_plus. field.
    split; [|rewrite <- RtoC_plus]; intros E; apply RtoC_inj in E; assert (0 < INR (2 * N))%R by (apply lt_0_INR; lia); lra. }
  assert (H2C : RtoC (INR (2 * N)) <> 0). { intros E. apply RtoC_inj in E. revert E. apply not_0_INR. lia. }
  apply (list_ext _ _ 0%R); [rewrite map_length, seq_length, app_length, removelast_len; cbn; lia|]. intros k Hk. rewrite map_length, seq_length in Hk. rewrite nth_map_seq by exact Hk.
  apply RtoC_inj. rewrite LH by exact Hk. match goal with |- - ?x * ?y = _ => transitivity (RtoC 0 - x * y); [ring|] end. rewrite RH.
  destruct (Nat.eq_dec k (2 * N)) as [->|Hne].
  - rewrite app_nth2 by (rewrite removelast_len; lia). rewrite removelast_len, Lg. replace (2 * N - (2 * N + 1 - 1))%nat with 0%nat by lia. cbn [nth].
    rewrite (nsum_single CF (2 * N) 0).
    + rewrite odd_kernel_val by exact HN. replace (Z.of_nat 0 - Z.of_nat (2 * N))%Z with (- Z.of_nat (2 * N))%Z by lia.
      replace ((- Z.of_nat (2 * N)) mod Z.of_nat (2 * N))%Z with 0%Z. 2:{ symmetry. replace (- Z.of_nat (2 * N))%Z with ((-1) * Z.of_nat (2 * N))%Z by lia. apply Z.mod_mul. lia. }
      cbn [Z.eqb]. rewrite zeta_opp by lia. replace (4 * N)%nat with (2 * (2 * N))%nat by lia. rewrite zeta_minus1 by lia. rewrite Cconj_R.
      replace (- nth 0 g 0)%R with ((-1) * nth 0 g 0)%R by ring. rewrite RtoC_mult. field. exact H2C.
    + lia.
    + intros q Hq Hq0. rewrite odd_kernel_val by exact HN. destruct (Z.eqb_spec ((Z.of_nat q - Z.of_nat (2 * N)) mod Z.of_nat (2 * N)) 0) as [E|_]; [exfalso|cring].
      apply Z.mod_divide in E; [|lia]. destruct E as [p Hp]. assert (p = 0 \/ p <= -1 \/ 1 <= p)%Z as [->|[L|L]] by lia; nia.
  - rewrite app_nth1 by (rewrite removelast_len; lia). rewrite nth_removelast by lia. rewrite (nsum_single CF (2 * N) k).
    + rewrite odd_kernel_val by exact HN. rewrite Z.sub_diag, Z.mod_0_l by lia. cbn [Z.eqb]. rewrite zeta_0 by lia. field. exact H2C.
    + lia.
    + intros q Hq Hqk. rewrite odd_kernel_val by exact HN. destruct (Z.eqb_spec ((Z.of_nat q - Z.of_nat k) mod Z.of_nat (2 * N)) 0) as [E|_]; [exfalso|cring].
      apply Z.mod_divide in E; [|lia]. destruct E as [p Hp]. assert (p = 0 \/ p <= -1 \/ 1 <= p)%Z as [->|[L|L]] by lia; nia.
Qed.
