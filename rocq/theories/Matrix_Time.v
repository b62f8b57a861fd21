(** * Proofs about the time dependent functions of gftool/siam.py *)
From Coq Require Import String Ascii List Arith ZArith Bool Reals Lia Lra Field.
From Coquelicot Require Import Coquelicot.
From Verif Require Import Base FSum CBase CExp LinPred_Burg Herm_Proofs Linalg_Model Linalg_Proofs Mat Pole_Model Pole_Time Matrix_Model Matrix_Proofs.
Import ListNotations.
Local Open Scope R_scope.

Lemma RtoC_nsum n (f : nat -> R) : RtoC (nsum (K := RF) n f) = nsum (K := CF) n (fun j => RtoC (f j)).
Proof. induction n as [|n IH]; [reflexivity|]. cbn [nsum]. rewrite <- IH. exact (RtoC_plus _ _). Qed.
Lemma CJ_ok : conj_ok CF Cconj.
Proof. repeat split; cbn; intros; [apply Cconj_plus|apply Cconj_mult|apply Cconj_conj]. Qed.

Section T.
Variable eigh : mat CF -> result (list R * mat CF).
Variable close0 : C -> bool.
Variable cast : C -> C.
Variables (e : C) (eb hop : list C).
Hypothesis HL : length eb = length hop.
Hypothesis He : Cconj e = e.
Hypothesis Heb : forall x, In x eb -> Cconj x = x.
Hypothesis C0 : cast e = e.
Hypothesis C1 : forall x, In x eb -> cast x = x.
Hypothesis HC : close0 (RtoC 0) = true.
Notation H := (hamiltonian_matrix (K := CF) Cconj cast e eb hop).
Variables (ev : list R) (v : mat CF).
Hypothesis HE : eigh H = Ok (ev, v).
Hypothesis HS : eigh_spec CF Cconj H (map RtoC ev, v).

Lemma herm_check : allclose0 (K := CF) close0 (msub H (ctr (K := CF) Cconj H)) = true.
Proof.
  unfold allclose0. apply forallb_forall. intros i Hi. apply forallb_forall. intros j Hj. apply in_seq in Hi, Hj. cbn [msub nr nc] in Hi, Hj.
  cbn [msub me]. cbn [hamiltonian_matrix nr nc] in Hi, Hj. assert (E := ham_hermitian CF Cconj cast e eb hop HL C0 C1 CJ_ok He Heb i j ltac:(lia) ltac:(lia)).
  rewrite E. set (x := me H i j). replace (Fsub x x) with (RtoC 0); [exact HC|]. symmetry. apply (fsub_eq0 CF x x). reflexivity.
Qed.
Definition siam_weights : list R := map (fun j => Cmod (me v 0 j) * Cmod (me v 0 j)) (seq 0 (S (length hop))).

Lemma Cconj_mult_mod (x : C) : Cmult (Cconj x) x = RtoC (Cmod x * Cmod x).
Proof.
  assert (E : Cmod x * Cmod x = fst x * fst x + snd x * snd x) by (assert (X := Cmod_sqr x); cbn in X; lra).
  apply C_ext; cbn; lra.
Qed.
Lemma ev_length : length ev = S (length hop).
Proof. destruct HS as ((_ & L & _) & _). rewrite map_length in L. exact L. Qed.

Theorem siam_loc_sum (f : R -> C) : siam_loc eigh close0 cast f e eb hop
  = Ok (lsum (K := CF) (map (fun pw => Cmult (RtoC (snd pw)) (f (fst pw))) (combine ev siam_weights))).
Proof.
  unfold siam_loc. rewrite herm_check, HE. cbn [negb bind eig]. apply (f_equal Ok).
  destruct HS as (((V1 & V2) & L & _) & _). rewrite map_length in L. cbn [hamiltonian_matrix nr] in V1, V2, L. change (car CF) with C in *.
  unfold recon_diag. cbn [rv rv_inv rows_to nr nc me]. rewrite V1, V2. cbn [Nat.min seq map nth].
  rewrite (lsum_nth CF), map_length, combine_length. unfold siam_weights at 1. rewrite map_length, seq_length, L, Nat.min_id.
  apply (nsum_ext CF). intros j Hj. cbn [cols_to ctr me].
  rewrite (nth_map_in _ _ _ _ (0, 0)) by (unfold siam_weights; rewrite combine_length, map_length, seq_length; lia).
  rewrite combine_nth by (unfold siam_weights; rewrite map_length, seq_length; lia). cbn [fst snd].
  refine (eq_trans (f_equal (Fmul (f := CF) _) (nth_map_in f ev j (RtoC 0) 0 ltac:(lia))) _).
  unfold siam_weights. rewrite nth_map_seq by exact Hj. rewrite <- Cconj_mult_mod. reflexivity.
Qed.

Theorem siam_weights_nonneg : forall w, In w siam_weights -> 0 <= w.
Proof. intros w Hw. apply in_map_iff in Hw. destruct Hw as (j & <- & _). assert (X := Cmod_ge_0 (me v 0 j)). nra. Qed.
Theorem siam_weights_sum : lsum (K := RF) siam_weights = 1.
Proof.
  destruct (decompose_her_spec CF Cconj (fun _ => Ok (map RtoC ev, v)) close0 H false eq_refl) with (d := Dec (K := CF) v (map RtoC ev) (ctr (K := CF) Cconj v))
    as (_ & _ & _ & M & _).
  - intros x Hx. injection Hx as <-. exact HS.
  - reflexivity.
  - assert (E := M 0%nat 0%nat ltac:(cbn; lia) ltac:(cbn; lia)). cbn [rv rv_inv ctr me hamiltonian_matrix nr] in E. unfold kron in E. cbn [Nat.eqb] in E.
    apply RtoC_inj. refine (eq_trans _ E). rewrite (lsum_nth RF). unfold siam_weights at 1. rewrite map_length, seq_length.
    rewrite RtoC_nsum. apply (nsum_ext CF). intros j Hj. unfold siam_weights. change (@F0 RF) with 0. rewrite nth_map_seq by exact Hj. rewrite <- Cconj_mult_mod. apply Cmult_comm.
Qed.
(** ... and they are the spectral weights of the frequency function *)
Theorem siam_spectral z : ~ In z eb -> ~ In z (map RtoC ev) ->
  gf0_loc_z (K := CF) z e eb (map (fun x => Cmult x (Cconj x)) hop)
  = Ok (lsum (K := CF) (map (fun pw => Cdiv (RtoC (snd pw)) (Cminus z (RtoC (fst pw)))) (combine ev siam_weights))).
Proof.
  intros Hz1 Hz2. set (d := Dec (K := CF) v (map RtoC ev) (ctr (K := CF) Cconj v)).
  destruct (decompose_her_spec CF Cconj (fun _ => Ok (map RtoC ev, v)) close0 H false eq_refl) with (d := d)
    as (Q1 & Q2 & Q3 & M & RE & _).
  - intros x Hx. injection Hx as <-. exact HS.
  - reflexivity.
  - assert (RS := recon_resolvent CF d (S (length hop)) H z Q1 Q2 Q3 M RE Hz2).
    refine (eq_trans (siam_resolvent CF Cconj cast z e eb hop HL C0 C1 _ Hz1 RS) _). apply (f_equal Ok).
    cbn [recon_full me d rv rv_inv eig]. destruct Q1 as (_ & V2). cbn [rv d hamiltonian_matrix nr] in V2. rewrite V2.
    assert (L := ev_length).
    rewrite (lsum_nth CF), map_length, combine_length. unfold siam_weights at 1. rewrite map_length, seq_length, L, Nat.min_id.
    apply (nsum_ext CF). intros j Hj. cbn [ctr me].
    rewrite map_map. 
    match goal with |- Fmul (Fmul ?a _) ?c = _ => refine (eq_trans (f_equal (fun t => Fmul (f := CF) (Fmul (f := CF) a t) c) (nth_map_in (fun y => Fdiv (f := CF) F1 (Fsub (f := CF) z (RtoC y))) ev j (RtoC 0) 0 ltac:(lia))) _) end.
    rewrite (nth_map_in _ _ _ _ (0, 0)) by (unfold siam_weights; rewrite combine_length, map_length, seq_length; lia).
    rewrite combine_nth by (unfold siam_weights; rewrite map_length, seq_length; lia). cbn [fst snd].
    unfold siam_weights. rewrite nth_map_seq by exact Hj. rewrite <- Cconj_mult_mod.
    match goal with |- Fmul (Fmul ?a (Fdiv F1 ?b)) ?c = _ => change (Cmult (Cmult a (Cdiv (RtoC 1) b)) c = Cdiv (Cmult c a) b) end.
    assert (Hne : Cminus z (RtoC (nth j ev 0)) <> RtoC 0).
    { intros E. apply (proj1 (fsub_eq0 CF _ _)) in E. apply Hz2. rewrite E. apply in_map, nth_In. lia. }
    change (Fsub (f := CF) z (RtoC (nth j ev 0))) with (Cminus z (RtoC (nth j ev 0))). field. exact Hne.
Qed.
End T.

(** greater minus lesser = retarded, retarded vanishes at negative times *)
Theorem siam_gr_le_ret eigh close0 cast e eb hop beta tt : 0 <= tt ->
  forall g l, gf0_loc_gr_t eigh close0 cast tt e eb hop beta = Ok g -> gf0_loc_le_t eigh close0 cast tt e eb hop beta = Ok l ->
  gf0_loc_ret_t eigh close0 cast tt e eb hop = Ok (Cminus g l).
Proof.
  intros Ht g l. unfold gf0_loc_gr_t, gf0_loc_le_t, gf0_loc_ret_t, siam_loc. destruct (negb _); [discriminate|].
  destruct (eigh _) as [[ev v]|]; [|discriminate]. cbn [bind eig]. intros Hg Hl. injection Hg as <-. injection Hl as <-. apply (f_equal Ok).
  unfold recon_diag. cbn [rv rv_inv rows_to nr nc me]. destruct (nr v) as [|m]; cbn [Nat.min seq map nth]; [ring|].
  symmetry. etransitivity; [symmetry; exact (nsum_sub CF _ _ _)|]. apply (nsum_ext CF). intros j Hj. cbn [cols_to ctr me].
  change (@F0 CF) with (RtoC 0).
  set (a := Cconj _). set (b := me v 0 j).
  destruct (Nat.lt_ge_cases j (length ev)) as [Lj|Lj].
  - rewrite !(nth_map_in _ ev j (RtoC 0) 0) by exact Lj. rewrite <- (single_gr_le_ret tt (nth j ev 0) beta Ht).
    match goal with |- Fsub (Fmul (Fmul ?a ?b) ?x) (Fmul (Fmul ?a ?b) ?y) = _ => change (Cminus (Cmult (Cmult a b) x) (Cmult (Cmult a b) y) = Cmult (Cmult a b) (Cminus x y)) end. ring.
  - rewrite !nth_overflow by (rewrite map_length; exact Lj).
    match goal with |- Fsub ?x ?x = _ => change (Cminus x x = Cmult (Cmult a b) (RtoC 0)) end. ring.
Qed.
Theorem siam_ret_neg eigh close0 cast e eb hop tt g : tt < 0 -> gf0_loc_ret_t eigh close0 cast tt e eb hop = Ok g -> g = RtoC 0.
Proof.
  intros Ht. unfold gf0_loc_ret_t, siam_loc. destruct (negb _); [discriminate|].
  destruct (eigh _) as [[ev v]|]; [|discriminate]. cbn [bind eig]. intros Hg. injection Hg as <-.
  unfold recon_diag. cbn [rv rv_inv rows_to nr nc me]. destruct (nr v) as [|m]; cbn [Nat.min seq map nth]; [reflexivity|].
  apply (nsum_0' CF). intros j Hj. change (@F0 CF) with (RtoC 0).
  assert (E : nth j (map (fun p => single_pole_gf_ret_t tt (RtoC p)) ev) (RtoC 0) = RtoC 0).
  { destruct (Nat.lt_ge_cases j (length ev)) as [Lj|Lj].
    - rewrite (nth_map_in _ ev j (RtoC 0) 0) by exact Lj. unfold single_pole_gf_ret_t. destruct (Rle_dec 0 tt); [lra|reflexivity].
    - apply nth_overflow. rewrite map_length. exact Lj. }
  refine (eq_trans (f_equal (Fmul (f := CF) _) E) _). apply Cmult_0_r.
Qed.
