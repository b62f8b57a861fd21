(** * The local Green's function of gftool/beb.py for a density of states *)
From Coq Require Import List Arith Lia Bool Reals Lra.
From Coquelicot Require Import Coquelicot.
From Verif Require Import Base FSum CBase Linalg_Model Linalg_Proofs Mat Matrix_Model Matrix_Proofs MatAlg Cpa_Model Cpa_Proofs Beb_Model Beb_Core Beb_Proofs Beb_Props FourierMom_Proofs Fourier_Filon LatInt_Spec LatInt_Proofs CpaCausal_Proofs BebCausal_Proofs BebMedium_Proofs.
Import ListNotations.
Local Open Scope R_scope.

Definition aff (M : nat) (c : C) (a : nat -> C) (h : nat -> C) : C := (c + csum M (fun k => (a k * h k)%C))%C.

Lemma alg1 (a x h b : C) : (a * ((x * h - RtoC 1) * x) * b = a * (x * x) * b * h - a * x * b)%C. Proof. ring. Qed.
Lemma alg2 (a x y : C) : (a + (x - y) = a - y + x)%C. Proof. ring. Qed.
Lemma alg3 (x : C) : (x = RtoC 0 + x)%C. Proof. ring. Qed.
Lemma alg4 (a h b : C) : (a * h * b = a * b * h)%C. Proof. ring. Qed.
Lemma alg4' (p q g : C) : (p * q * g = p * g * q)%C. Proof. ring. Qed.
Lemma alg6 (a y : C) : (a / y = a * (RtoC 1 / y))%C. Proof. unfold Cdiv. ring. Qed.

(** gf_loc_z is affine in the values of the Hilbert transform *)
Lemma nth_pairs (xs hs : list C) k : length hs = length xs ->
  nth k (map (fun p => Fmul (f := CF) (Fsub (f := CF) (Fmul (f := CF) (fst p) (snd p)) (F1 (f := CF))) (fst p)) (combine xs hs)) (F0 (f := CF)) = ((nth k xs (RtoC 0) * nth k hs (RtoC 0) - RtoC 1) * nth k xs (RtoC 0))%C.
Proof.
  revert hs k. induction xs as [|x xs IH]; intros [|h hs] k L; try discriminate; [destruct k; apply injective_projections; cbn; ring|].
  destruct k as [|k]; [reflexivity|]. cbn in L. exact (IH hs k ltac:(lia)).
Qed.
Lemma gf_affine conj eigO invO eighO close0 sqrt significant ht z self T G : gf_loc_full (K := CF) conj eigO invO eighO close0 sqrt significant ht z self T = Ok G ->
  exists hd zi dec M (c : nat -> nat -> C) (a : nat -> nat -> nat -> C),
    specdec (K := CF) conj eighO close0 significant T = Ok hd /\ invO (z_minus (K := CF) z self) = Ok zi /\
    decompose_mat (K := CF) eigO invO (mm (mm (part_suh (K := CF) sqrt hd) zi) (part_us (K := CF) sqrt hd)) = Ok dec /\
    existsb (fun x => feqb (K := CF) x (F0 (f := CF))) (eig dec) = false /\
    (exists hs, mapM ht (map (fun x => Fdiv (f := CF) (F1 (f := CF)) x) (eig dec)) = Ok hs) /\
    forall ht' hs, mapM ht' (map (fun x => Fdiv (f := CF) (F1 (f := CF)) x) (eig dec)) = Ok hs ->
    exists G', gf_loc_full (K := CF) conj eigO invO eighO close0 sqrt significant ht' z self T = Ok G' /\
      forall i j, me G' i j = aff M (c i j) (a i j) (fun k => nth k hs (RtoC 0)).
Proof.
  intros H. unfold gf_loc_full in *.
  destruct (specdec _ _ _ _ T) as [hd|] eqn:SD; [|discriminate]. cbn [bind] in H |- *.
  destruct (invO (z_minus z self)) as [zi|] eqn:ZI; [|discriminate]. cbn [bind] in H |- *.
  destruct (decompose_mat _ _ _) as [dec|] eqn:DE; [|discriminate]. cbn [bind] in H |- *.
  destruct (existsb _ _) eqn:EX; [discriminate|]. destruct (mapM _ _) as [h|] eqn:MH; [|discriminate]. cbn [bind] in H |- *.
  set (xs := map (fun x => Fdiv (f := CF) (F1 (f := CF)) x) (eig dec)) in *.
  exists hd, zi, dec. destruct (is_truncated hd) eqn:TR; cbn [negb] in *.
  - set (d2 := Dec (mm (mm zi (part_us sqrt hd)) (rv dec)) (eig dec) (mm (mm (rv_inv dec) (part_suh sqrt hd)) zi)) in *.
    exists (nc (rv d2)), (fun i j => (me zi i j - csum (nc (rv d2)) (fun k => (me (rv d2) i k * nth k xs (RtoC 0) * me (rv_inv d2) k j)%C))%C),
      (fun i j k => (me (rv d2) i k * (nth k xs (RtoC 0) * nth k xs (RtoC 0)) * me (rv_inv d2) k j)%C).
    split; [reflexivity|]. split; [reflexivity|]. split; [exact DE|]. split; [exact EX|]. split; [exists h; exact MH|].
    intros ht' hs Hh. fold xs in Hh. rewrite Hh. cbn [bind]. fold d2. eexists. split; [reflexivity|]. intros i j. unfold aff.
    transitivity (me zi i j + csum (nc (rv d2)) (fun k => Fsub (f := CF) (me (rv d2) i k * (nth k xs (RtoC 0) * nth k xs (RtoC 0)) * me (rv_inv d2) k j * nth k hs (RtoC 0))%C (me (rv d2) i k * nth k xs (RtoC 0) * me (rv_inv d2) k j)%C))%C.
    + cbn [mplus me]. unfold recon_full. cbn [me]. change (Fadd (f := CF)) with Cplus. f_equal. apply (nsum_ext CF). intros k _.
      refine (eq_trans (f_equal (fun q : C => (me (rv d2) i k * q * me (rv_inv d2) k j)%C) (nth_pairs xs hs k (mapM_length _ _ _ Hh))) (alg1 _ _ _ _)).
    + rewrite (nsum_sub CF). exact (alg2 _ _ _).
  - set (d2 := Dec _ _ _) in *. exists (nc (rv d2)), (fun _ _ => RtoC 0), (fun i j k => (me (rv d2) i k * me (rv_inv d2) k j)%C).
    split; [reflexivity|]. split; [reflexivity|]. split; [exact DE|]. split; [exact EX|]. split; [exists h; exact MH|].
    intros ht' hs Hh. fold xs in Hh. rewrite Hh. cbn [bind]. eexists. split; [reflexivity|]. intros i j. unfold aff.
    transitivity (csum (nc (rv d2)) (fun k => (me (rv d2) i k * me (rv_inv d2) k j * nth k hs (RtoC 0))%C)); [|exact (alg3 _)].
    unfold recon_full. cbn [me]. apply (nsum_ext CF). intros k _. exact (alg4 _ _ _).
Qed.

(** quadratic forms of affine matrices *)
Lemma qform_aff n M c a h v : qform n (fun i j => aff M (c i j) (a i j) h) v = aff M (qform n c v) (fun k => qform n (fun i j => a i j k) v) h.
Proof.
  unfold aff. transitivity (qform n c v + qform n (fun i j => csum M (fun k => (h k * a i j k)%C)) v)%C.
  - unfold qform. refine (eq_trans _ (nsum_add CF n _ _)). apply (nsum_ext CF). intros i _. refine (eq_trans _ (nsum_add CF n _ _)). apply (nsum_ext CF). intros j _. change (Fadd (f := CF)) with Cplus.
    rewrite (nsum_ext CF M (fun k => (a i j k * h k)%C : CF) (fun k => (h k * a i j k)%C : CF)) by (intros; ringC). ringC.
  - f_equal. unfold qform. transitivity (csum n (fun i => csum M (fun k => (csum n (fun j => (Cconj (v i) * a i j k * v j)%C) * h k)%C))).
    + apply (nsum_ext CF). intros i _. transitivity (csum n (fun j => csum M (fun k => (Cconj (v i) * a i j k * v j * h k)%C))).
      * apply (nsum_ext CF). intros j _. transitivity (csum M (fun k => Fmul (f := CF) (Fmul (f := CF) (Cconj (v i)) (h k * a i j k)%C) (v j))).
        -- rewrite (nsum_mul_r CF M (v j)), (nsum_mul_l CF M (Cconj (v i))). reflexivity.
        -- apply (nsum_ext CF). intros k _. change (Fmul (f := CF)) with Cmult. ringC.
      * refine (eq_trans (nsum_swap CF n M _) _). apply (nsum_ext CF). intros k _. exact (nsum_mul_r CF n (h k) _).
    + refine (eq_trans (nsum_swap CF n M _) _). apply (nsum_ext CF). intros k _. exact (nsum_mul_r CF n (h k) _).
Qed.
(** the integral of an affine function against a normalised density *)
Lemma int_aff (d : R -> R) u v M c a (h : nat -> R -> C) H : is_RInt d u v 1 -> (forall k, (k < M)%nat -> is_CInt (fun t => RtoC (d t) * h k t)%C u v (H k)) ->
  is_CInt (fun t => RtoC (d t) * aff M c a (fun k => h k t))%C u v (aff M c a H).
Proof.
  intros D1 HK. unfold aff. induction M as [|M IH].
  - apply (is_CInt_eq _ _ _ (c * RtoC 1)%C); [|cbn; apply injective_projections; cbn; ring]. apply (is_CInt_ext (fun t => c * RtoC (d t))%C); [intros; cbn; apply injective_projections; cbn; ring|]. apply is_CInt_scal, is_CInt_R, D1.
  - assert (I := is_CInt_plus _ _ _ _ _ _ (IH (fun k Hk => HK k (Nat.lt_lt_succ_r _ _ Hk))) (is_CInt_scal (a M) _ _ _ _ (HK M (Nat.lt_succ_diag_r M)))).
    refine (is_CInt_eq _ _ _ _ _ (is_CInt_ext _ _ _ _ _ _ I) _).
    + intros t _. cbn [nsum]. change (Fadd (f := CF)) with Cplus. ringC.
    + cbn [nsum]. change (Fadd (f := CF)) with Cplus. ringC.
Qed.

Lemma mapM_total (f : C -> C) xs : mapM (fun x => Ok (f x)) xs = Ok (map f xs).
Proof. induction xs as [|x xs IH]; [reflexivity|]. cbn [mapM map]. rewrite IH. reflexivity. Qed.
Lemma mapM_at (ht : C -> result C) xs hs k : mapM ht xs = Ok hs -> (k < length xs)%nat -> ht (nth k xs (RtoC 0)) = Ok (nth k hs (RtoC 0)).
Proof.
  revert hs k. induction xs as [|x xs IH]; intros hs k H Hk; [cbn in Hk; lia|]. cbn [mapM] in H. destruct (ht x) as [h|] eqn:E; [|discriminate]. cbn [bind] in H.
  destruct (mapM ht xs) as [l|] eqn:F; [|discriminate]. injection H as <-. destruct k as [|k]; [exact E|]. cbn in Hk. exact (IH l k eq_refl ltac:(lia)).
Qed.

(** the lattice integral *)
Lemma dens_integral eigO invO eighO close0 sqrt significant ht (T : mat CF) : beb_env CF Cconj eigO invO eighO sqrt significant T ->
  (forall i j, (i < nr T)%nat -> (j < nr T)%nat -> me T j i = Cconj (me T i j)) ->
  forall (z : C) (self : mat CF) d D, nr self = nr T -> nc self = nr T -> 0 < snd z -> (forall v, snd (qform (nr T) (me self) v) <= 0) ->
  is_RInt d (- D) D 1 -> (forall x h, snd x <> 0 -> ht x = Ok h -> is_hilbert d D x h) ->
  forall G, gf_loc_full (K := CF) Cconj eigO invO eighO close0 sqrt significant ht z self T = Ok G ->
  exists Rs : R -> nat -> nat -> C, (forall e, minv CF (nr T) (Mk z (me self) (me T) e) (Rs e)) /\
    forall i j, is_CInt (fun e => RtoC (d e) * Rs e i j)%C (- D) D (me G i j).
Proof.
  intros E HT z self d D S1 S2 Hz HS D1 HH G HG.
  destruct (gf_affine _ _ _ _ _ _ _ _ _ _ _ _ HG) as (hd & zi & dec & M & c & a & SD & ZI & DE & EX & (hs & MH) & AF).
  set (xs := map (fun x => Fdiv (f := CF) (F1 (f := CF)) x) (eig dec)) in *.
  set (g := fun (e : R) (x : C) => (RtoC 1 / (x - RtoC e))%C).
  assert (RE : forall e, exists B, minv CF (nr T) (Mk z (me self) (me T) e) B) by (intros e; exact (inj_minv CF (nr T) _ (Mk_inj (nr T) z (me self) (me T) e Hz HS HT))).
  assert (ONE : forall e x, Ok (g e x) = Ok (nsum (K := CF) 1 (fun _ => Fdiv (f := CF) (RtoC 1) (Fsub (f := CF) x (RtoC e))))).
  { intros e x. cbn [nsum]. unfold g. apply (f_equal (@Ok C)). change (@eq C (RtoC 1 / (x - RtoC e))%C (RtoC 0 + RtoC 1 / (x - RtoC e))%C). ring. }
  assert (N1 : nsum (K := CF) 1 (fun _ => RtoC 1 : CF) = F1 (f := CF)) by (cbn [nsum]; change (@eq C (RtoC 0 + RtoC 1)%C (RtoC 1)); ring).
  exists (fun e i j => aff M (c i j) (a i j) (fun k => nth k (map (g e) xs) (RtoC 0))). split.
  - intros e. destruct (RE e) as (B & MB). destruct (AF (fun x => Ok (g e x)) (map (g e) xs) (mapM_total (g e) xs)) as (Ge & EG & V).
    destruct (C39_lattice_sum_partial CF Cconj eigO invO eighO close0 sqrt significant (fun x => Ok (g e x)) T E z self 1 (fun _ => RtoC 1) (fun _ => RtoC e) (fun _ => B) S1 S2 N1 (fun x _ => ONE e x) (fun _ _ => MB) Ge) as (_ & _ & VB).
    { unfold gf_loc_z. rewrite EG. reflexivity. }
    intros i j Hi Hj. rewrite <- (MB i j Hi Hj). apply (nsum_ext CF). intros l Hl. refine (f_equal (Fmul (f := CF) (Mk z (me self) (me T) e i l)) _).
    refine (eq_trans (eq_sym (V l j)) _). refine (eq_trans (VB l j Hl Hj) _). cbn [nsum]. change (@eq C (RtoC 0 + RtoC 1 * B l j)%C (B l j)). ring.
  - destruct (AF ht hs MH) as (G' & EG & V). rewrite HG in EG. injection EG as <-. intros i j. rewrite (V i j). apply int_aff; [exact D1|]. intros k _.
    destruct (Nat.lt_ge_cases k (length xs)) as [Lk|Lk].
    + assert (NR : snd (nth k xs (RtoC 0)) <> 0).
      { intros X. set (e := fst (nth k xs (RtoC 0))). destruct (RE e) as (B & MB). destruct E as [E1 E2 E3 E4 E5 E6 E7 E8].
        assert (HO := specdec_spec CF Cconj eighO close0 sqrt significant E1 E2 T E5 E6 E7 E8 hd SD).
        assert (MZ : forall l, (l < 1)%nat -> minv CF (nr T) (fun i j => Fsub (f := CF) (zsub CF z self i j) (Fmul (f := CF) (RtoC e) (me T i j))) B).
        { intros _ _ p q Hp Hq. rewrite <- (MB p q Hp Hq). apply (nsum_ext CF). intros l Hl. f_equal. rewrite (zsub_if CF). reflexivity. }
        assert (DD := setup CF Cconj eigO invO sqrt (fun x => Ok (g e x)) E3 E4 T E5 z self S1 S2 1 (fun _ => RtoC 1) (fun _ => RtoC e) (fun x _ => ONE e x) (fun _ => B) MZ hd zi dec (map (g e) xs) HO ZI DE EX (mapM_total (g e) xs)).
        destruct DD as [_ (_ & _ & _ & _ & L5) _ _ NE _ _ AV _]. unfold xs in Lk. rewrite map_length in Lk.
        specialize (AV 0%nat ltac:(lia) k ltac:(lia)). specialize (NE k ltac:(lia)). apply AV.
        assert (XK : nth k xs (RtoC 0) = (RtoC 1 / nth k (eig dec) (RtoC 0))%C).
        { unfold xs. rewrite (nth_indep _ (RtoC 0) (Fdiv (f := CF) (F1 (f := CF)) (RtoC 0))) by (rewrite map_length; exact Lk). exact (map_nth (fun x => Fdiv (f := CF) (F1 (f := CF)) x) (eig dec) (RtoC 0) k). }
        assert (RX : RtoC e = nth k xs (RtoC 0)) by (unfold e; apply injective_projections; [reflexivity|now rewrite X]).
        rewrite RX, XK. clear -NE. change (F0 (f := CF)) with (RtoC 0) in *. generalize dependent (nth k (eig dec) (RtoC 0)). intros y NE. change (@eq C (RtoC 1 - RtoC 1 / y * y)%C (RtoC 0)). field. exact NE. }
      assert (I := HH _ _ NR (mapM_at ht xs hs k MH Lk)). unfold is_hilbert in I. revert I. apply is_CInt_ext. intros t _.
      rewrite (nth_indep (map (g t) xs) (RtoC 0) (g t (RtoC 0))) by (rewrite map_length; exact Lk). rewrite (map_nth (g t)). exact (alg6 _ _).
    + rewrite (nth_overflow hs) by (rewrite (mapM_length _ _ _ MH); exact Lk).
      apply (is_CInt_eq _ _ _ (RtoC 0 * RtoC 1)%C); [|ring]. apply (is_CInt_ext (fun t => RtoC 0 * RtoC (d t))%C); [|apply is_CInt_scal, is_CInt_R, D1].
      intros t _. rewrite (nth_overflow (map (g t) xs)) by (rewrite map_length; exact Lk). ring.
Qed.

Lemma int_csum (u v : R) n (f : nat -> R -> C) F : (forall k, (k < n)%nat -> is_CInt (f k) u v (F k)) -> is_CInt (fun t => csum n (fun k => f k t)) u v (csum n F).
Proof.
  induction n as [|n IH]; intros H.
  - assert (Z : is_RInt (V := R_NormedModule) (fun _ => 0) u v 0).
    { assert (X := is_RInt_const (V := R_NormedModule) u v (0 : R_NormedModule)). refine (eq_ind _ (fun y => is_RInt (V := R_NormedModule) (fun _ => 0) u v y) X 0 _). exact (Rmult_0_r (v - u)). }
    split; exact Z.
  - exact (is_CInt_plus _ _ _ _ _ _ (IH (fun k Hk => H k (Nat.lt_lt_succ_r _ _ Hk))) (H n (Nat.lt_succ_diag_r n))).
Qed.
Lemma csum_scal n (a : C) (f : nat -> C) : csum n (fun k => (a * f k)%C) = (a * csum n f)%C.
Proof. exact (nsum_mul_l CF n a f). Qed.
Lemma alg7 (d p r q : C) : (p * q * (d * r) = d * (p * r * q))%C. Proof. ring. Qed.
Lemma int_qform n (d : R -> R) u v (Rs : R -> nat -> nat -> C) (G : nat -> nat -> C) w :
  (forall i j, is_CInt (fun e => RtoC (d e) * Rs e i j)%C u v (G i j)) -> is_CInt (fun e => RtoC (d e) * qform n (Rs e) w)%C u v (qform n G w).
Proof.
  intros H. apply (is_CInt_ext (fun e => csum n (fun i => csum n (fun j => (Cconj (w i) * w j * (RtoC (d e) * Rs e i j))%C)))).
  - intros t _. unfold qform. rewrite <- csum_scal. apply (nsum_ext CF). intros i _. rewrite <- csum_scal. apply (nsum_ext CF). intros j _. exact (alg7 _ _ _ _).
  - unfold qform. apply int_csum. intros i _. apply int_csum. intros j _. refine (is_CInt_eq _ _ _ _ _ (is_CInt_scal (Cconj (w i) * w j)%C _ _ _ _ (H i j)) _). exact (alg4' _ _ _).
Qed.
Lemma res_nonpos n (z : C) (Sg T : nat -> nat -> C) e : 0 < snd z -> (forall v, snd (qform n Sg v) <= 0) -> (forall i j, (i < n)%nat -> (j < n)%nat -> T j i = Cconj (T i j)) ->
  forall B v, minv CF n (Mk z Sg T e) B -> snd (qform n B v) <= 0.
Proof.
  intros Hz HS HT B v MB. assert (X : (exists k, (k < n)%nat /\ v k <> RtoC 0) \/ forall k, (k < n)%nat -> v k = RtoC 0).
  { clear. induction n as [|n [(k & Hk & N)|IH]]; [right; lia|left; exists k; split; [lia|exact N]|]. destruct (Ceq_dec (v n) (RtoC 0)) as [Z|N]; [|left; exists n; split; [lia|exact N]].
    right. intros k Hk. destruct (Nat.eq_dec k n) as [->|]; [exact Z|apply IH; lia]. }
  destruct X as [(k & Hk & N)|Z]; [left; exact (res_neg n z Sg T e Hz HS HT B v k MB Hk N)|right].
  assert (Q : qform n B v = RtoC 0); [|rewrite Q; reflexivity]. unfold qform. rewrite (nsum_ext CF n _ (fun _ => RtoC 0 : CF)); [exact (nsum_0 CF n)|]. intros i Hi.
  rewrite (nsum_ext CF n _ (fun _ => RtoC 0 : CF)); [exact (nsum_0 CF n)|]. intros j Hj. rewrite (Z j Hj). exact (Cmult_0_r _).
Qed.
