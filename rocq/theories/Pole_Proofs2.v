(** * Proofs about the pole basis: Chebyshev poles, moments, time dependence *)
From Coq Require Import List Arith ZArith Reals Lia Lra Bool Field Psatz.
From Coquelicot Require Import Coquelicot.
From Verif Require Import Base FSum CBase CExp Stat_Model Stat_Proofs Herm_Proofs LinPred_Burg Linalg_Model Linalg_Proofs Mat Pole_Model Pole_Proofs.
Import ListNotations.
Local Open Scope R_scope.

(** ** Chebyshev points *)
Lemma cheb_arg n i : (i < n)%nat -> - (PI / 2) < 1 / 2 * PI / INR n * (- INR n + 1 + 2 * INR i) < PI / 2.
Proof.
  intros H. assert (Hn : 0 < INR n) by (apply lt_0_INR; lia). assert (HP := PI_RGT_0).
  assert (Hi : 0 <= INR i) by apply pos_INR. assert (Hin : INR i + 1 <= INR n) by (rewrite <- S_INR; apply le_INR; lia).
  replace (1 / 2 * PI / INR n * (- INR n + 1 + 2 * INR i)) with (PI / 2 * ((- INR n + 1 + 2 * INR i) / INR n)) by (field; lra).
  assert (H1 : -1 < (- INR n + 1 + 2 * INR i) / INR n).
  { apply (Rmult_lt_reg_r (INR n)); [exact Hn|]. unfold Rdiv. rewrite Rmult_assoc, Rinv_l by lra. lra. }
  assert (H2 : (- INR n + 1 + 2 * INR i) / INR n < 1).
  { apply (Rmult_lt_reg_r (INR n)); [exact Hn|]. unfold Rdiv. rewrite Rmult_assoc, Rinv_l by lra. lra. }
  set (q := (- INR n + 1 + 2 * INR i) / INR n) in *. split; nra.
Qed.
Lemma cheb_incr n i j : (i < j)%nat -> (j < n)%nat -> cheb n i < cheb n j.
Proof.
  intros Hij Hj. assert (A := cheb_arg n i ltac:(lia)). assert (B := cheb_arg n j Hj). unfold cheb.
  apply sin_increasing_1; try lra. apply Rmult_lt_compat_l.
  - assert (Hn : 0 < INR n) by (apply lt_0_INR; lia). assert (HP := PI_RGT_0).
    apply Rdiv_lt_0_compat; lra.
  - assert (INR i < INR j) by (apply lt_INR; lia). lra.
Qed.
Lemma cheb_inj n i j : (i < n)%nat -> (j < n)%nat -> cheb n i = cheb n j -> i = j.
Proof.
  intros Hi Hj E. destruct (Nat.lt_trichotomy i j) as [H|[H|H]]; [|exact H|].
  - assert (X := cheb_incr n i j H Hj). lra.
  - assert (X := cheb_incr n j i H Hi). lra.
Qed.
Lemma cheb_bound n i : Rabs (cheb n i) <= 1.
Proof. unfold cheb. apply Rabs_le. apply SIN_bound. Qed.
Lemma cheb_last_pos n : (2 <= n)%nat -> 0 < cheb n (n - 1).
Proof.
  intros H. assert (A := cheb_arg n (n - 1) ltac:(lia)). assert (HP := PI_RGT_0). unfold cheb. apply sin_gt_0; [|lra].
  assert (Hn : 2 <= INR n) by (replace 2 with (INR 2) by reflexivity; apply le_INR; lia).
  rewrite minus_INR by lia. cbn [INR].
  apply Rmult_lt_0_compat; [|lra]. apply Rdiv_lt_0_compat; lra.
Qed.
Lemma cheb_symm n i : (i < n)%nat -> cheb n (n - 1 - i) = - cheb n i.
Proof.
  intros H. unfold cheb. rewrite <- sin_neg. f_equal. rewrite !minus_INR by lia. cbn [INR].
  assert (Hn : 0 < INR n) by (apply lt_0_INR; lia). field. lra.
Qed.

Lemma pymax_incr (f : nat -> R) m : (forall i j, (i < j)%nat -> (j <= m)%nat -> f i < f j) -> pymax (map f (seq 0 (S m))) = f m.
Proof.
  induction m as [|m IH]; intros H; [reflexivity|].
  rewrite seq_S, map_app. unfold pymax in *. cbn [seq map app hd tl] in *. rewrite fold_left_app. cbn [fold_left map].
  rewrite IH by (intros; apply H; lia). apply Rmax_right. apply Rlt_le, H; lia.
Qed.
Lemma cheb_max n : (1 <= n)%nat -> pymax (map (cheb n) (seq 0 n)) = cheb n (n - 1).
Proof.
  intros H. destruct n as [|m]; [lia|]. rewrite pymax_incr; [f_equal; lia|]. intros; apply cheb_incr; lia.
Qed.

Lemma pts_ok n : (1 <= n)%nat -> chebyshev_points n = Ok (map (cheb n) (seq 0 n)).
Proof. intros H. unfold chebyshev_points. now rewrite (proj2 (Nat.eqb_neq n 0)) by lia. Qed.

(** effective width *)
Lemma width_nonzero width m a n : (1 <= n)%nat -> (2 <= m -> 2 <= n)%nat -> width <> Some 0 ->
  pick_width width m a (map (cheb n) (seq 0 n)) <> 0.
Proof.
  intros Hn Hm Hw. unfold pick_width. destruct width as [w|]; [congruence|].
  destruct (Nat.leb_spec m 1); [lra|]. destruct (Rle_dec (1 / 10) a); [|lra].
  rewrite cheb_max by exact Hn. assert (P := cheb_last_pos n ltac:(lia)).
  assert (0 < a / cheb n (n - 1)) by (apply Rdiv_lt_0_compat; lra). lra.
Qed.

Definition poles_of (w : R) (n : nat) : list R := map (Rmult w) (map (cheb n) (seq 0 n)).
Lemma poles_of_length w n : length (poles_of w n) = n.
Proof. unfold poles_of. now rewrite !map_length, seq_length. Qed.
Lemma poles_of_nth w n j : (j < n)%nat -> nth j (poles_of w n) 0 = w * cheb n j.
Proof. intros H. unfold poles_of. rewrite map_map. now rewrite nth_map_seq. Qed.
Lemma poles_of_distinct w n : w <> 0 -> distinct RF n (fun j => nth j (poles_of w n) 0).
Proof.
  intros Hw i j Hi Hj E. cbv beta in E. rewrite !poles_of_nth in E by assumption.
  apply (cheb_inj n i j Hi Hj). exact (Rmult_eq_reg_l w _ _ E Hw).
Qed.
Lemma poles_of_NoDup w n : w <> 0 -> NoDup (poles_of w n).
Proof.
  intros Hw. apply (NoDup_nth (poles_of w n) 0). rewrite poles_of_length. apply poles_of_distinct; exact Hw.
Qed.
Lemma poles_of_bound w n p : In p (poles_of w n) -> Rabs p <= Rabs w.
Proof.
  intros H. unfold poles_of in H. rewrite map_map in H. apply in_map_iff in H. destruct H as (i & <- & _).
  rewrite Rabs_mult. assert (B := cheb_bound n i). assert (A := Rabs_pos w). nra.
Qed.

(** ** gf_from_moments *)
Section Mom.
Variable K : Fld.
Add Field KFpole2 : (Fth K).
Variable absK : K -> R.
Variable ofR : R -> K.
Variable solve : mat K -> list K -> result (list K).
Hypothesis ofR_inj : forall x y, ofR x = ofR y -> x = y.
Hypothesis HS : solve_spec K solve.

Lemma lsum_combine (p r : list K) (f : K -> K -> K) n : length p = n -> length r = n ->
  lsum (map (fun pw => f (fst pw) (snd pw)) (combine p r)) = nsum n (fun j => f (nth j p F0) (nth j r F0)).
Proof.
  intros Hp Hr. rewrite lsum_nth. rewrite map_length, combine_length, Hp, Hr, Nat.min_id.
  apply nsum_ext. intros j Hj. rewrite (nth_map_in _ _ _ _ (F0, F0)) by (rewrite combine_length; lia).
  rewrite combine_nth by lia. reflexivity.
Qed.

Theorem gf_from_moments_spec (moms : list K) width : moms <> [] -> width <> Some 0 ->
  exists poles resid, gf_from_moments absK ofR solve moms width = Ok (poles, resid) /\
    length poles = length moms /\ length resid = length moms /\ NoDup poles /\
    (forall w, width = Some w -> forall p, In p poles -> Rabs p <= Rabs w) /\
    forall k, (k < length moms)%nat -> moments (map ofR poles) resid (S k) = nth k moms F0.
Proof.
  intros Hm Hw. set (n := length moms). assert (Hn : (1 <= n)%nat) by (unfold n; destruct moms; [congruence|cbn; lia]).
  unfold gf_from_moments. fold n. rewrite (proj2 (Nat.eqb_neq n 0)) by lia. rewrite pts_ok by exact Hn. cbn [bind].
  set (w := pick_width width n (absK (nth 1 moms F0)) (map (cheb n) (seq 0 n))).
  assert (Hw0 : w <> 0) by (apply width_nonzero; auto).
  fold (poles_of w n). set (A := Mat n n (fun i j => fpow (ofR (nth j (poles_of w n) 0)) i)).
  assert (HR : regular K A).
  { split; [reflexivity|]. cbn [A nr me]. apply (vander_inj K n (fun j => ofR (nth j (poles_of w n) 0))).
    intros i j Hi Hj E. apply (poles_of_distinct w n Hw0 i j Hi Hj). apply ofR_inj, E. }
  destruct (proj1 (HS A moms eq_refl eq_refl) HR) as (resid & E & Hl & HA). rewrite E. cbn [bind].
  exists (poles_of w n), resid. split; [reflexivity|]. split; [apply poles_of_length|]. split; [exact Hl|].
  split; [apply poles_of_NoDup; exact Hw0|]. split.
  { intros w' Ew p Hp. assert (Ew2 : w = w') by (unfold w; rewrite Ew; reflexivity). rewrite <- Ew2. now apply poles_of_bound with n. }
  intros k Hk. unfold moments. rewrite (lsum_combine _ _ (fun p r => Fmul r (fpow p (S k - 1))) n) by (try exact Hl; rewrite map_length; apply poles_of_length).
  rewrite <- HA at 1. rewrite mv_nth by (cbn [A nr]; lia). cbn [A nc me]. apply nsum_ext. intros j Hj.
  replace (S k - 1)%nat with k by lia. rewrite (nth_map_in ofR _ _ _ 0) by (rewrite poles_of_length; lia).
  ring.
Qed.

Theorem gf_from_moments_empty width : gf_from_moments absK ofR solve [] width = Ok ([], []).
Proof. reflexivity. Qed.

(** width=None: the largest pole is |m_1| unless that is small *)
Theorem gf_from_moments_None (moms : list K) poles resid : (2 <= length moms)%nat -> 1 / 10 <= absK (nth 1 moms F0) ->
  gf_from_moments absK ofR solve moms None = Ok (poles, resid) ->
  In (absK (nth 1 moms F0)) poles /\ forall p, In p poles -> Rabs p <= absK (nth 1 moms F0).
Proof.
  intros Hn Ha. set (n := length moms) in *. set (a := absK (nth 1 moms F0)) in *.
  unfold gf_from_moments. fold n. rewrite (proj2 (Nat.eqb_neq n 0)) by lia. rewrite pts_ok by lia. cbn [bind].
  unfold pick_width. fold a. rewrite (proj2 (Nat.leb_gt n 1)) by lia. destruct (Rle_dec (1 / 10) a); [|contradiction].
  rewrite cheb_max by lia. assert (P := cheb_last_pos n Hn).
  destruct (solve _ _) as [x|e]; cbn [bind]; [|discriminate]. intros E. assert (Ep : poles = poles_of (a / cheb n (n - 1)) n) by (unfold poles_of; congruence).
  clear E. subst poles. split.
  - unfold poles_of. rewrite map_map. apply in_map_iff. exists (n - 1)%nat. split; [field; lra|apply in_seq; lia].
  - intros p Hp. unfold poles_of in Hp. rewrite map_map in Hp. apply in_map_iff in Hp. destruct Hp as (i & <- & Hi). apply in_seq in Hi.
    rewrite Rabs_mult. rewrite (Rabs_pos_eq (a / cheb n (n - 1))) by (apply Rlt_le, Rdiv_lt_0_compat; lra).
    assert (B : Rabs (cheb n i) <= cheb n (n - 1)).
    { apply Rabs_le. split.
      - rewrite <- (Ropp_involutive (cheb n i)). apply Ropp_le_contravar. rewrite <- cheb_symm by lia.
        destruct (Nat.eq_dec i 0) as [->|]; [replace (n - 1 - 0)%nat with (n - 1)%nat by lia; lra|]. apply Rlt_le, cheb_incr; lia.
      - destruct (Nat.eq_dec i (n - 1)) as [->|]; [lra|]. apply Rlt_le, cheb_incr; lia. }
    replace a with (a / cheb n (n - 1) * cheb n (n - 1)) at 2 by (field; lra).
    apply Rmult_le_compat_l; [apply Rlt_le, Rdiv_lt_0_compat; lra|exact B].
Qed.

Theorem gf_from_moments_width0 (moms : list K) : (2 <= length moms)%nat ->
  gf_from_moments absK ofR solve moms (Some 0) = Err LinAlgError.
Proof.
  intros Hn. set (n := length moms) in *.
  unfold gf_from_moments. fold n. rewrite (proj2 (Nat.eqb_neq n 0)) by lia. rewrite pts_ok by lia. cbn [bind pick_width].
  fold (poles_of 0 n). set (A := Mat n n (fun i j => fpow (ofR (nth j (poles_of 0 n) 0)) i)).
  rewrite (proj2 (HS A moms eq_refl eq_refl)); [reflexivity|].
  intros (_ & HI). cbn [A nr me] in HI.
  set (u := fun j => match j with O => F1 | S O => Fopp F1 | _ => F0 end : K).
  apply (F1_neq_0 K). apply (HI u) with (j := 0%nat); [|lia].
  intros i Hi. rewrite (nsum_ext K n _ (fun j => Fmul (fpow (ofR 0) i) (u j))).
  2:{ intros j Hj. rewrite poles_of_nth by exact Hj. now rewrite Rmult_0_l. }
  rewrite nsum_mul_l. rewrite (nsum_extend K 2 n); [|lia|intros j Hj; destruct j as [|[|]]; [lia|lia|reflexivity]].
  cbn [nsum u]. ring.
Qed.
Theorem gf_from_moments_single (m : K) w : exists r, gf_from_moments absK ofR solve [m] (Some w) = Ok ([0], [r]) /\ r = m.
Proof.
  unfold gf_from_moments. cbn [length Nat.eqb]. rewrite pts_ok by lia. cbn [bind pick_width seq map].
  assert (Hc : w * cheb 1 0 = 0).
  { unfold cheb. cbn [INR]. replace (1 / 2 * PI / 1 * (- (1) + 1 + 2 * 0)) with 0 by field. rewrite sin_0. ring. }
  rewrite Hc. cbn [nth].
  set (A := Mat 1 1 _).
  assert (HR : regular K A).
  { split; [reflexivity|]. cbn [A nr me]. intros u H j Hj. assert (E := H 0%nat ltac:(lia)). cbn in E.
    replace j with 0%nat by lia. rewrite <- E. ring. }
  destruct (proj1 (HS A [m] eq_refl eq_refl) HR) as (x & E & Hl & HA). rewrite E. cbn [bind].
  destruct x as [|r [|]]; try discriminate. exists r. split; [reflexivity|].
  cbn in HA. injection HA as HA. rewrite <- HA. ring.
Qed.
End Mom.
