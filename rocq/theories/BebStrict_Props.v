(** * C82 continued: gf_loc_z of gftool/beb.py is strictly retarded for a density of states *)
From Coq Require Import List Arith Lia Bool Reals Lra.
From Coquelicot Require Import Coquelicot.
From Verif Require Import Base FSum CBase Herm_Proofs Linalg_Model Linalg_Proofs Mat Matrix_Model Matrix_Proofs MatAlg Cpa_Model Cpa_Proofs Beb_Model Beb_Core Beb_Proofs Beb_Props BebCausal_Proofs BebCausal_Props BebMedium_Proofs Fourier_Filon LatInt_Spec CpaCausal_Proofs BebDens_Proofs BebDens_Props.
Import ListNotations.
Local Open Scope R_scope.

Lemma mod_csum m (f : nat -> C) (b : R) : (forall i, (i < m)%nat -> Cmod (f i) <= b) -> Cmod (csum m f) <= INR m * b.
Proof.
  induction m as [|m IH]; intros Hf; [cbn; change (Cmod (RtoC 0) <= 0 * b); rewrite Cmod_0; lra|]. rewrite S_INR. cbn [nsum].
  apply Rle_trans with (1 := Cmod_triangle (csum m f) (f m)). assert (A := IH (fun i Hi => Hf i (Nat.lt_lt_succ_r _ _ Hi))). assert (B := Hf m (Nat.lt_succ_diag_r m)). lra.
Qed.
Lemma row_bound n (f : nat -> R) : exists B, 0 < B /\ forall j, (j < n)%nat -> f j <= B.
Proof.
  induction n as [|n (B & B0 & H)]; [exists 1; split; [lra|lia]|]. exists (Rmax B (f n)). split; [apply Rlt_le_trans with (1 := B0), Rmax_l|].
  intros j Hj. destruct (Nat.eq_dec j n) as [->|]; [apply Rmax_r|]. apply Rle_trans with (2 := Rmax_l B (f n)). apply H. lia.
Qed.
(** the damping of the resolvents is bounded from below on the band *)
Lemma res_uniform n (z : C) (Sg T : nat -> nat -> C) D : 0 < snd z -> (forall v, snd (qform n Sg v) <= 0) -> (forall i j, (i < n)%nat -> (j < n)%nat -> T j i = Cconj (T i j)) ->
  forall v k, (k < n)%nat -> v k <> RtoC 0 -> exists delta, 0 < delta /\ forall e B, - D < e < D -> minv CF n (Mk z Sg T e) B -> snd (qform n B v) <= - delta.
Proof.
  intros Hz HS HT v k Hk Nk. destruct (row_bound n (fun j => Cmod z + Cmod (Sg k j) + D * Cmod (T k j))) as (K & K0 & HK).
  assert (V0 := proj1 (Cmod_gt_0 (v k)) Nk). assert (N0 : 0 < INR n) by (apply lt_0_INR; lia). set (c := Cmod (v k) / (INR n * K)).
  assert (NK : 0 < INR n * K) by (apply Rmult_lt_0_compat; assumption). assert (C0 : 0 < c) by (apply Rdiv_lt_0_compat; assumption).
  exists (snd z * (c * c)). split; [apply Rmult_lt_0_compat; [exact Hz|nra]|]. intros e B He MB.
  assert (Q := q_res n z Sg T e HS HT (mv n B v)). rewrite <- (qform_mv n _ B v MB) in Q. cbn [Cconj snd] in Q.
  assert (S : c * c <= sq n (mv n B v)); [|assert (snd z * (c * c) <= snd z * sq n (mv n B v)) by (apply Rmult_le_compat_l; lra); lra].
  assert (S0 := rsum_nonneg n (mv n B v)). set (s := sqrt (sq n (mv n B v))). assert (SS : s * s = sq n (mv n B v)) by (apply sqrt_sqrt; exact S0). assert (s0 : 0 <= s) by apply sqrt_pos.
  assert (U : forall j, (j < n)%nat -> Cmod (mv n B v j) <= s).
  { intros j Hj. apply sqrt_le_1_alt. assert (P := rsum_pos n (fun i => fst (mv n B v i) * fst (mv n B v i) + snd (mv n B v i) * snd (mv n B v i)) (fun i _ => ltac:(nra)) j Hj). cbv beta in P. unfold sq. cbn. lra. }
  assert (X : Cmod (v k) <= INR n * (K * s)).
  { rewrite <- (mv_inv n _ B v k MB Hk). unfold mv at 1. apply mod_csum. intros j Hj. rewrite Cmod_mult. apply Rmult_le_compat; try apply Cmod_ge_0; [|now apply U].
    apply Rle_trans with (2 := HK j Hj). unfold Mk, Cminus. apply Rle_trans with (1 := Cmod_triangle _ _). rewrite Cmod_opp, Cmod_mult, Cmod_R. apply Rplus_le_compat.
    - apply Rle_trans with (1 := Cmod_triangle _ _). rewrite Cmod_opp. apply Rplus_le_compat_r. destruct (k =? j)%nat; [lra|rewrite Cmod_0; apply Cmod_ge_0].
    - apply Rmult_le_compat_r; [apply Cmod_ge_0|]. apply Rabs_le. lra. }
  assert (Y : c <= s). { unfold c. apply (Rmult_le_reg_r (INR n * K)); [exact NK|]. replace (Cmod (v k) / (INR n * K) * (INR n * K)) with (Cmod (v k)) by (field; lra). lra. }
  rewrite <- SS. nra.
Qed.

Lemma loc_dims eigO invO eighO close0 sqrt significant ht (T : mat CF) : beb_env CF Cconj eigO invO eighO sqrt significant T ->
  forall (z : C) (self G : mat CF), nr self = nr T -> nc self = nr T -> gf_loc_z (K := CF) Cconj eigO invO eighO close0 sqrt significant ht z self T false = Ok (RFull G) -> nr G = nr T.
Proof.
  intros [E1 E2 E3 E4 E5 E6 E7 E8] z self G S1 S2 H. unfold gf_loc_z in H. destruct (gf_loc_full _ _ _ _ _ _ _ _ _ _ _) as [G'|] eqn:EG; [|discriminate]. cbn [bind] in H. injection H as ->. rename EG into H.
  unfold gf_loc_full in H. destruct (specdec _ _ _ _ T) as [hd|] eqn:SD; [|discriminate]. cbn [bind] in H.
  apply (specdec_spec CF Cconj eighO close0 sqrt significant E1 E2 T E5 E6 E7 E8) in SD. destruct SD as (A1 & A2 & _).
  destruct (invO (z_minus (K := CF) z self)) as [zi|] eqn:ZI; [|discriminate]. cbn [bind] in H. destruct (decompose_mat _ _ _) as [dec|]; [|discriminate]. cbn [bind] in H.
  destruct (existsb _ _); [discriminate|]. destruct (mapM _ _) as [h|]; [|discriminate]. cbn [bind] in H.
  assert (Zq : nr (z_minus (K := CF) z self) = nc (z_minus (K := CF) z self)) by (cbn; congruence). destruct (E3 _ _ Zq ZI) as ((Z1 & _) & _). cbn [z_minus nr] in Z1.
  destruct (is_truncated hd); cbn [negb] in H; injection H as <-; cbn; congruence.
Qed.

(** the spectral matrix is positive definite *)
Theorem C82_density_definite : forall eigO invO eighO close0 sqrt significant ht (T : mat CF),
  beb_env CF Cconj eigO invO eighO sqrt significant T -> hermitian (nr T) (me T) ->
  forall (z : C) (self : mat CF) d D, 0 <= D -> nr self = nr T -> nc self = nr T -> 0 < snd z -> damping (nr T) (me self) -> density_ht ht d D ->
  forall G, gf_loc_z (K := CF) Cconj eigO invO eighO close0 sqrt significant ht z self T false = Ok (RFull G) ->
  forall v, (exists k, (k < nr T)%nat /\ v k <> RtoC 0) -> snd (quad (nr T) (me G) v) < 0.
Proof.
  intros eigO invO eighO close0 sqrt significant ht T E HT z self d D HD S1 S2 Hz HS HH G HG v (k & Hk & Nk).
  destruct (C82_lattice_integral eigO invO eighO close0 sqrt significant ht T E HT z self d D S1 S2 Hz HS HH G HG) as (Rs & MR & I). destruct HH as [D0 D1 _].
  destruct (res_uniform (nr T) z (me self) (me T) D Hz HS HT v k Hk Nk) as (delta & P & U).
  assert (Q := int_qform (nr T) d (- D) D Rs (me G) v I).
  assert (X := lin_dens 0 (-1) (- delta) (- D) D d (fun e => qform (nr T) (Rs e) v) (qform (nr T) (me G) v) ltac:(lra) D0 D1 Q).
  change (snd (qform (nr T) (me G) v) < 0). cut (0 <= 0 * fst (qform (nr T) (me G) v) + -1 * snd (qform (nr T) (me G) v) + - delta); [lra|]. apply X. intros e He. assert (Y := U e (Rs e) He (MR e)). lra.
Qed.
Print Assumptions C82_density_definite.
(** diag=True: every component has a positive spectral function *)
Theorem C82_density_components : forall eigO invO eighO close0 sqrt significant ht (T : mat CF),
  beb_env CF Cconj eigO invO eighO sqrt significant T -> hermitian (nr T) (me T) ->
  forall (z : C) (self : mat CF) d D, 0 <= D -> nr self = nr T -> nc self = nr T -> 0 < snd z -> damping (nr T) (me self) -> density_ht ht d D ->
  forall l, gf_loc_z (K := CF) Cconj eigO invO eighO close0 sqrt significant ht z self T true = Ok (RDiag l) ->
  length l = nr T /\ forall g, In g l -> snd g < 0.
Proof.
  intros eigO invO eighO close0 sqrt significant ht T E HT z self d D HD S1 S2 Hz HS HH l H.
  rewrite (C39_diag CF Cconj eigO invO eighO close0 sqrt significant ht T z self (env_sq _ _ _ _ _ _ _ _ E) S1 S2) in H.
  destruct (gf_loc_z (K := CF) Cconj eigO invO eighO close0 sqrt significant ht z self T false) as [[l0|G|x]|] eqn:EG; try discriminate.
  - exfalso. unfold gf_loc_z in EG. destruct (gf_loc_full _ _ _ _ _ _ _ _ _ _ _); discriminate.
  - injection H as <-. assert (N1 := loc_dims eigO invO eighO close0 sqrt significant ht T E z self G S1 S2 EG).
    split; [now rewrite map_length, seq_length|]. intros g Hg. apply in_map_iff in Hg. destruct Hg as (i & <- & Hi). apply in_seq in Hi.
    assert (Hi' : (i < nr T)%nat) by lia.
    assert (NZ : exists k, (k < nr T)%nat /\ (fun j => kron (K := CF) i j : C) k <> RtoC 0).
    { exists i. split; [exact Hi'|]. cbv beta. unfold kron. rewrite Nat.eqb_refl. intros ZZ. apply (f_equal (@fst Rdefinitions.R Rdefinitions.R)) in ZZ. cbn in ZZ. lra. }
    assert (X := C82_density_definite eigO invO eighO close0 sqrt significant ht T E HT z self d D HD S1 S2 Hz HS HH G EG (fun j => kron (K := CF) i j) NZ).
    change (snd (qform (nr T) (me G) (fun j => kron (K := CF) i j)) < 0) in X. rewrite (qform_unit (nr T) _ i Hi') in X. exact X.
Qed.
Print Assumptions C82_density_components.
Example C82_definite_example : exists G, gf_loc_z (K := CF) Cconj c2_eig c2_inv c2_eigh (fun _ => true) c2_sqrt c2_sig box_ht (0, 1) c2_self c2_T false = Ok (RFull G) /\
  snd (quad 2 (me G) (fun _ => RtoC 1)) < 0.
Proof.
  destruct C82_density_example as (G & Z & _). exists G. split; [exact Z|]. destruct box_density as (d & _ & HD).
  refine (C82_density_definite c2_eig c2_inv c2_eigh (fun _ => true) c2_sqrt c2_sig box_ht c2_T c2_env c2_herm (0, 1) c2_self d 1 ltac:(lra) eq_refl eq_refl ltac:(cbn; lra) c2_damping HD G Z _ _).
  exists 0%nat. split; [cbn; lia|]. intros Q. apply (f_equal fst) in Q. cbn in Q. lra.
Qed.
