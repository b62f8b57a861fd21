(** * pade_frequencies for oracles meeting the contracts of scipy.linalg.eig and np.linalg.inv *)
From Coq Require Import List Arith ZArith Bool Reals Lia Lra Psatz Sorted Classical IndefiniteDescription.
From Coquelicot Require Import Coquelicot.
From Verif Require Import Base FSum CBase LinPred_Burg Linalg_Model Linalg_Proofs Mat Matrix_Proofs MatAlg Matsu_Ser Matsu_Main Stat_Model Stat_Proofs PadeFreq_Tanh PadeFreq_Model PadeFreq_Eig PadeFreq_Proofs Spectral.
Import ListNotations.
Local Open Scope R_scope.

(** ** the contracts *)
(** scipy.linalg.eig(a, b) of a pencil with regular b: A v_j = e_j B v_j *)
Definition pencil_eig (A B : mat CF) (ev : list CF * mat CF) : Prop :=
  let (e, v) := ev in square CF (nr A) v /\ length e = nr A /\
  forall i j, (i < nr A)%nat -> (j < nr A)%nat -> nsum (K := CF) (nr A) (fun k => Cmult (me A i k) (me v k j)) = Cmult (nsum (K := CF) (nr A) (fun k => Cmult (me B i k) (me v k j))) (nth j e (RtoC 0)).
Definition geig_ok (geig : mat CF -> mat CF -> result (list CF * mat CF)) : Prop :=
  forall A B ev, nr A = nc A -> nr B = nr A -> nc B = nr A -> inj CF (nr A) (me B) -> geig A B = Ok ev -> pencil_eig A B ev.
Definition inv_ok (invO : mat CF -> result (mat CF)) : Prop := forall v vi, nr v = nc v -> invO v = Ok vi -> minv CF (nr v) (me v) (me vi).

(** the off-diagonal matrix of even size is regular *)
Lemma mat_b_inj h : inj CF (2 * h) (me (mat_b (2 * h))).
Proof.
  intros x Hx. set (M := (2 * h)%nat) in *. pose (y := (fun i => if (i <? M)%nat then x i else RtoC 0) : nat -> C). change (nat -> C) in x. assert (yM : y M = RtoC 0) by (unfold y; now rewrite Nat.ltb_irrefl).
  assert (yx : forall i, (i < M)%nat -> y i = x i) by (intros i Hi; unfold y; now rewrite (proj2 (Nat.ltb_lt i M) Hi)).
  assert (E : forall i, (i < M)%nat -> Cplus (prev y i) (y (S i)) = RtoC 0).
  { intros i Hi. assert (B := brow M i y Hi yM). assert (Z : nsum (K := CF) M (fun k => Cmult (me (mat_b M) i k) (y k)) = RtoC 0). { refine (eq_trans _ (Hx i Hi)). apply (nsum_ext CF). intros k Hk. now rewrite yx. }
    rewrite Z in B. transitivity (Cmult (RtoC 2) (Cmult (RtoC (1 / 2)) (Cplus (prev y i) (y (S i))))); [|rewrite <- B; ceq; ring]. rewrite Cmult_assoc, <- RtoC_mult. replace (2 * (1 / 2)) with 1 by field. ring. }
  assert (Odd : forall k, (2 * k + 1 < M)%nat -> y (2 * k + 1)%nat = RtoC 0).
  { induction k as [|k IH]; intros Hk; [assert (Q := E 0%nat ltac:(lia)); cbn [prev] in Q; cbn [Nat.mul Nat.add]; rewrite <- Q; ring|].
    assert (Q := E (2 * S k)%nat ltac:(lia)). replace (2 * S k)%nat with (S (2 * k + 1)) in Q at 1 by lia. cbn [prev] in Q. rewrite IH in Q by lia. replace (2 * S k + 1)%nat with (S (2 * S k)) by lia. rewrite <- Q. ring. }
  assert (Even : forall k, (k <= h)%nat -> y (M - 2 * k)%nat = RtoC 0).
  { induction k as [|k IH]; intros Hk; [rewrite Nat.mul_0_r, Nat.sub_0_r; exact yM|].
    assert (Q := E (M - 2 * k - 1)%nat ltac:(unfold M; lia)). replace (M - 2 * k - 1)%nat with (S (M - 2 * S k)) in Q at 1 by (unfold M; lia). cbn [prev] in Q. replace (S (M - 2 * k - 1)) with (M - 2 * k)%nat in Q by (unfold M; lia). rewrite IH in Q by lia. rewrite <- Q. ring. }
  intros j Hj. rewrite <- (yx j Hj). destruct (Nat.Even_or_Odd j) as [[k Hk]|[k Hk]].
  - replace j with (M - 2 * (h - k))%nat by (unfold M in *; lia). apply Even. lia.
  - rewrite Hk. apply Odd. unfold M in *. lia.
Qed.

Section Ok.
  Variable geig : mat CF -> mat CF -> result (list CF * mat CF).
  Variable invO : mat CF -> result (mat CF).
  Hypothesis HG : geig_ok geig.
  Hypothesis HI : inv_ok invO.
  Theorem pade0_cases num : (1 <= num)%nat ->
    (exists zs, pade_frequencies0 geig invO num = Ok (map (fun z => Cmult Ci (RtoC z)) zs, map (rho (2 * num - 1)) zs) /\ length zs = num /\ StronglySorted Rlt zs /\ List.Forall (fun z => 0 < z) zs /\
       (forall z, In z zs <-> 0 < z /\ q (2 / z) (2 * num) = 0) /\
       forall x, 8 * lsum (K := RF) (map (fun z => rho (2 * num - 1) z / (z ^ 2 + x ^ 2)) zs) = / cf (x / 2) (2 * num - 1) 0) \/
    (exists x, pade_frequencies0 geig invO num = Err x /\ (geig (mat_a (2 * num)) (mat_b (2 * num)) = Err x \/ exists e v, geig (mat_a (2 * num)) (mat_b (2 * num)) = Ok (e, v) /\ invO v = Err x)).
  Proof.
    intros Hn. set (m := (2 * num - 1)%nat). assert (Hm : (2 * num = S m)%nat) by (unfold m; lia).
    destruct (geig (mat_a (S m)) (mat_b (S m))) as [[e v]|x] eqn:E.
    - destruct (HG (mat_a (S m)) (mat_b (S m)) (e, v) eq_refl eq_refl eq_refl) as (Sv & Le & HE); [|exact E|]. { cbn [nr mat_a]. rewrite <- Hm. apply mat_b_inj. }
      cbn [nr mat_a] in Sv, Le, HE. destruct (invO v) as [vi|x] eqn:Ei.
      + assert (Hi : minv CF (S m) (me v) (me vi)). { destruct Sv as [A B]. assert (Q := HI v vi). rewrite A, B in Q. now apply Q. }
        left. exists (freqs num m e). split; [|split; [|split; [|split; [|split]]]].
        * first [eapply pade0_eq; eassumption | intros; eapply pade0_eq; eassumption].
        * first [eapply freqs_length; eassumption | intros; eapply freqs_length; eassumption].
        * first [eapply freqs_sorted; eassumption | intros; eapply freqs_sorted; eassumption].
        * first [eapply freqs_pos; eassumption | intros; eapply freqs_pos; eassumption].
        * rewrite Hm. first [eapply freqs_roots; eassumption | intros; eapply freqs_roots; eassumption].
        * first [eapply freqs_sum; eassumption | intros; eapply freqs_sum; eassumption].
      + right. exists x. split; [|right; exists e, v; rewrite Hm; split; [exact E|exact Ei]]. unfold pade_frequencies0. rewrite Hm, E. cbn [bind]. destruct Sv as [A B]. rewrite A. cbn [Nat.eqb]. rewrite Ei. reflexivity.
    - right. exists x. split; [|left; rewrite Hm; exact E]. unfold pade_frequencies0. rewrite Hm, E. reflexivity.
  Qed.
  (** frequencies and residues *)
  Theorem pade_cases num beta : (1 <= num)%nat -> 0 < beta ->
    (exists zs rs, pade_frequencies geig invO num beta = Ok (map (fun z => Cmult Ci (RtoC z)) zs, rs) /\ length zs = num /\ length rs = num /\
       StronglySorted Rlt zs /\ List.Forall (fun z => 0 < z) zs /\ List.Forall (fun r => 0 < r) rs) \/
    (exists x, pade_frequencies geig invO num beta = Err x /\ ((exists A B, geig A B = Err x) \/ exists v, invO v = Err x)).
  Proof.
    intros Hn Hb. destruct (pade0_cases num Hn) as [(zs & E & Lz & Sz & Pz & _ & _)|(x & E & Hx)].
    - left. exists (map (fun z => z / beta) zs), (map (rho (2 * num - 1)) zs). split; [|split; [|split; [|split; [|split]]]].
      + unfold pade_frequencies. rewrite E. cbn [bind fst snd]. destruct (Req_EM_T beta 0); [lra|]. f_equal. f_equal. rewrite !map_map. apply map_ext. intros z. apply C_ext; cbn; field; lra.
      + now rewrite map_length.
      + now rewrite map_length.
      + clear - Sz Hb. induction Sz as [|z l S IH F]; [constructor|]. cbn [map]. constructor; [exact IH|]. apply Forall_map. apply (Forall_impl _ (P := fun y => z < y)); [|exact F]. intros y L. apply Rmult_lt_compat_r; [now apply Rinv_0_lt_compat|exact L].
      + apply Forall_map. apply (Forall_impl _ (P := fun z => 0 < z)); [|exact Pz]. intros z L. now apply Rdiv_lt_0_compat.
      + apply Forall_map. apply (Forall_impl _ (P := fun z => 0 < z)); [|exact Pz]. intros z L. apply rho_pos. lra.
    - right. exists x. split; [|destruct Hx as [Hx|(e & v & _ & Hx)]; eauto]. unfold pade_frequencies. rewrite E. reflexivity.
  Qed.
  Theorem pade_cf num beta izp rp eps : (1 <= num)%nat -> 0 < beta -> pade_frequencies geig invO num beta = Ok (izp, rp) ->
    fermi_poles izp rp beta eps = 1 / 2 - beta * eps / 2 / cf (beta * eps / 2) (2 * num - 1) 0 / 2.
  Proof.
    intros Hn Hb E. unfold pade_frequencies in E. destruct (pade0_cases num Hn) as [(zs & E0 & Lz & Sz & Pz & _ & HS)|(x & E0 & _)]; rewrite E0 in E; [|discriminate].
    cbn [bind fst snd] in E. destruct (Req_EM_T beta 0); [lra|]. assert (Q : forall a b : list C * list R, Ok a = Ok b -> a = b) by (intros a b W; now injection W). apply Q in E. 
    assert (E1 := f_equal fst E). assert (E2 := f_equal snd E). cbn [fst snd] in E1, E2. subst izp rp. now apply fermi_poles_cf.
  Qed.
  Theorem pade_fermi num beta izp rp eps : (1 <= num)%nat -> 0 < beta -> pade_frequencies geig invO num beta = Ok (izp, rp) ->
    Rabs (fermi_poles izp rp beta eps - fermi_fct eps beta) <= fbound num (beta * eps / 2).
  Proof.
    intros Hn Hb E. rewrite (pade_cf num beta izp rp eps Hn Hb E). rewrite Rabs_minus_sym. apply fermi_cf. lia.
  Qed.
End Ok.
(** the result does not depend on the routines *)
Theorem pade_unique geig invO geig' invO' num beta r r' : geig_ok geig -> inv_ok invO -> geig_ok geig' -> inv_ok invO' -> (1 <= num)%nat ->
  pade_frequencies geig invO num beta = Ok r -> pade_frequencies geig' invO' num beta = Ok r' -> r = r'.
Proof.
  intros HG HI HG' HI' Hn E E'. unfold pade_frequencies in E, E'.
  destruct (pade0_cases geig invO HG HI num Hn) as [(zs & E0 & _ & Sz & _ & Rz & _)|(x & E0 & _)]; rewrite E0 in E; [|discriminate].
  destruct (pade0_cases geig' invO' HG' HI' num Hn) as [(zs' & E0' & _ & Sz' & _ & Rz' & _)|(x & E0' & _)]; rewrite E0' in E'; [|discriminate].
  assert (Q : zs = zs') by (apply sorted_ext; [assumption..|]; intros z; rewrite Rz, Rz'; reflexivity). subst zs'. rewrite E in E'. now injection E'.
Qed.
Theorem pade_one geig invO beta izp rp : geig_ok geig -> inv_ok invO -> 0 < beta -> pade_frequencies geig invO 1 beta = Ok (izp, rp) ->
  izp = [Cmult Ci (RtoC (2 * sqrt 3 / beta))] /\ rp = [3 / 2].
Proof.
  intros HG HI Hb E. unfold pade_frequencies in E. destruct (pade0_cases geig invO HG HI 1 (le_n _)) as [(zs & E0 & Lz & _ & Pz & _ & HS)|(x & E0 & _)]; rewrite E0 in E; [|discriminate].
  destruct zs as [|z [|]]; try discriminate. cbn [bind fst snd] in E. destruct (Req_EM_T beta 0); [lra|]. assert (Q : forall a b : list C * list R, Ok a = Ok b -> a = b) by (intros a b W; now injection W). apply Q in E.
  assert (E1 := f_equal fst E). assert (E2 := f_equal snd E). cbn [fst snd map] in E1, E2. inversion Pz as [|? ? P _]; subst.
  assert (H0 := HS 0). assert (H1 := HS 1). cbn in H0, H1. change (rho (2 * 1 - 1) z) with (rho 1 z) in *. change (2 * 1 - 1)%nat with 1%nat in *. set (r := rho 1 z) in *. clearbody r.
  assert (Z2 : z * z = 12 /\ r = 3 / 2).
  { assert (P2 : 0 < z * z) by nra.
    assert (A0 : 8 * r = z * z) by (transitivity (8 * (r / (z * (z * 1) + 0 * (0 * 1)) + 0) * (z * z)); [field; lra|rewrite H0; field]).
    assert (A1 : 8 * r = 12 / 13 * (z * z + 1)) by (transitivity (8 * (r / (z * (z * 1) + 1 * (1 * 1)) + 0) * (z * z + 1)); [field; lra|rewrite H1; field]). split; lra. }
  destruct Z2 as [Z2 ->]. assert (Z : z = 2 * sqrt 3). { assert (S := sqrt_sqrt 3 ltac:(lra)). assert (S' := sqrt_lt_R0 3 ltac:(lra)). assert ((z - 2 * sqrt 3) * (z + 2 * sqrt 3) = 0) by nra. apply Rmult_integral in H. destruct H; lra. }
  split; [|reflexivity]. subst z. f_equal. apply C_ext; cbn; field; lra.
Qed.

(** ** the error tends to zero *)
Lemma odd_fact_ge k : INR (fact k) <= odd_fact k.
Proof.
  induction k as [|k IH]; [cbn; lra|]. rewrite fact_simpl, mult_INR. cbn [odd_fact]. assert (I := pos_INR k). assert (F := INR_fact_lt_0 k). rewrite S_INR, Rmult_comm. apply Rmult_le_compat; lra.
Qed.
Lemma fbound_le num y : fbound num y <= Rabs y * (Rabs y ^ (2 * num) / INR (fact (2 * num))) ^ 2.
Proof.
  unfold fbound. assert (P := INR_fact_lt_0 (2 * num)). assert (Q := odd_fact_ge (2 * num)). assert (I := pos_INR num). assert (A := Rabs_pos y). replace (4 * num + 1)%nat with (S (2 * num + 2 * num)) by lia. cbn [pow]. rewrite pow_add. set (p := Rabs y ^ (2 * num)). set (f := INR (fact (2 * num))) in *. set (o := odd_fact (2 * num)) in *.
  assert (0 <= p) by (unfold p; now apply pow_le). unfold Rdiv. replace (Rabs y * (p * / f * (p * / f * 1))) with (Rabs y * (p * p) * / (f * f)) by (field; lra). apply Rmult_le_compat_l; [apply Rmult_le_pos; nra|]. apply Rinv_le_contravar; [nra|]. assert (f * f <= o * o) by nra. assert (0 <= o * o * (8 * INR num + 1)) by (apply Rmult_le_pos; nra). assert (0 <= o * o) by nra. nra.
Qed.
Lemma fbound_nonneg num y : 0 <= fbound num y.
Proof.
  unfold fbound. assert (O := odd_fact_pos (2 * num)). assert (I := pos_INR num). apply Rdiv_le_0_compat; [apply pow_le, Rabs_pos|]. assert (0 < odd_fact (2 * num) ^ 2) by (apply pow_lt; exact O). nra.
Qed.
Lemma fbound_lim y : is_lim_seq (fun num => fbound num y) 0.
Proof.
  apply (is_lim_seq_le_le (fun _ => 0) _ (fun num => Rabs y * (Rabs y ^ (2 * num) / INR (fact (2 * num))) ^ 2)).
  - intros n. split; [apply fbound_nonneg|apply fbound_le].
  - apply is_lim_seq_const.
  - assert (L : is_lim_seq (fun n => Rabs y ^ n / INR (fact n)) 0) by (apply is_lim_seq_Reals, cv_speed_pow_fact).
    assert (L2 : is_lim_seq (fun num => Rabs y ^ (2 * num) / INR (fact (2 * num))) 0). { apply (is_lim_seq_subseq (fun n => Rabs y ^ n / INR (fact n)) 0 (fun n => (2 * n)%nat)); [|exact L]. apply eventually_subseq. intros n. lia. }
    assert (L3 := is_lim_seq_mult' _ _ _ _ L2 L2). assert (L4 := is_lim_seq_scal_l _ (Rabs y) _ L3). cbn in L4. rewrite !Rmult_0_r in L4. apply (is_lim_seq_ext (fun num => Rabs y * (Rabs y ^ (2 * num) / INR (fact (2 * num)) * (Rabs y ^ (2 * num) / INR (fact (2 * num)))))); [|exact L4]. intros n. ring.
Qed.

(** ** the contracts are satisfiable and the Padé pencils are diagonalisable *)
Section Sat.
  Variable h : nat.
  Notation M := (2 * h)%nat.
  Definition sd (i : nat) : R := sqrt (2 * INR i + 1).
  Lemma sd_pos i : 0 < sd i. Proof. apply sqrt_lt_R0. assert (I := pos_INR i). lra. Qed.
  Lemma sd_sqr i : sd i * sd i = 2 * INR i + 1. Proof. apply sqrt_sqrt. assert (I := pos_INR i). lra. Qed.
  Definition mat_h : mat CF := Mat (K := CF) M M (fun i j => Cmult (me (mat_b M) i j) (RtoC (/ (sd i * sd j)))).
  Theorem pencil_exists : exists ev vi, pencil_eig (mat_a M) (mat_b M) ev /\ minv CF M (me (snd ev)) (me vi) /\ square CF M vi.
  Proof.
    destruct (eigh_exists mat_h eq_refl) as ([e w] & (Sw & Le & HE) & Hr & HU).
    { intros i j _ _. cbn [me mat_h mat_b]. rewrite (orb_comm (i =? S j)%nat). rewrite (Rmult_comm (sd i)). destruct (_ || _); apply C_ext; cbn; ring. }
    cbn [nr mat_h] in Sw, Le, HE, HU. 
    pose (V := fun k j => Cmult (me w k j) (RtoC (/ sd k))).
    assert (NZ : forall k, RtoC (sd k) <> RtoC 0) by (intros k Z; apply RtoC_inj in Z; assert (P := sd_pos k); lra).
    (* B V = D V e *)
    assert (BV : forall i j, (i < M)%nat -> (j < M)%nat -> nsum (K := CF) M (fun k => Cmult (me (mat_b M) i k) (V k j)) = Cmult (Cmult (RtoC (2 * INR i + 1)) (V i j)) (nth j e (RtoC 0))).
    { intros i j Hi Hj. transitivity (Cmult (RtoC (sd i)) (nsum (K := CF) M (fun k => Cmult (me mat_h i k) (me w k j)))).
      - refine (eq_trans _ (nsum_mul_l CF M _ _)). apply (nsum_ext CF). intros k Hk. unfold V. cbn [me mat_h]. change (@Fmul CF) with Cmult. assert (Pi := sd_pos i). assert (Pk := sd_pos k). replace (RtoC (/ (sd i * sd k))) with (Cmult (RtoC (/ sd i)) (RtoC (/ sd k))) by (rewrite <- RtoC_mult; f_equal; field; split; lra).
        transitivity (Cmult (Cmult (RtoC (sd i)) (RtoC (/ sd i))) (Cmult (Cmult (me (mat_b M) i k) (RtoC (/ sd k))) (me w k j))); [|ceq; ring]. rewrite <- RtoC_mult. replace (sd i * / sd i) with 1 by (field; lra). ceq; ring.
      - refine (eq_trans (f_equal (Cmult (RtoC (sd i))) (HE i j Hi Hj)) _). unfold V. rewrite <- (sd_sqr i). rewrite RtoC_mult, RtoC_inv by (assert (P := sd_pos i); lra). change (@Fmul CF) with Cmult. change (@F0 CF) with (RtoC 0). ceq. field. apply NZ. }
    assert (MV : minv CF M (fun k j => V k j) (fun p k => Cmult (Cconj (me w k p)) (RtoC (sd k)))).
    { apply minv_comm. intros i j Hi Hj. refine (eq_trans _ (HU i j Hi Hj)). apply (nsum_ext CF). intros k Hk. unfold V. change (@Fmul CF) with Cmult. rewrite RtoC_inv by (assert (P := sd_pos k); lra). ceq. field. apply NZ. }
    assert (EN : forall j, (j < M)%nat -> nth j e (RtoC 0) <> RtoC 0).
    { intros j Hj Z. assert (Q : forall k, (k < M)%nat -> V k j = RtoC 0). { intros k Hk. apply (mat_b_inj h (fun k => V k j)); [|exact Hk]. intros i Hi. refine (eq_trans (BV i j Hi Hj) _). rewrite Z. change (@F0 CF) with (RtoC 0). ceq. ring. }
      assert (W := minv_comm _ _ _ _ MV j j Hj Hj). rewrite (nsum_0' CF) in W; [unfold kron in W; rewrite Nat.eqb_refl in W; apply (f_equal fst) in W; cbn in W; lra|]. intros k Hk. rewrite Q by exact Hk. cring. }
    exists (map (fun j => Copp (Cinv (nth j e (RtoC 0)))) (seq 0 M), Mat (K := CF) M M V), (Mat (K := CF) M M (fun p k => Cmult (Cconj (me w k p)) (RtoC (sd k)))).
    split; [|split; [exact MV|split; reflexivity]]. split; [split; reflexivity|]. split; [now rewrite map_length, seq_length|]. cbn [nr mat_a snd]. change (me (Mat (K := CF) M M V)) with V. intros i j Hi Hj.
    refine (eq_trans (arow M i (fun k => V k j) Hi) _). refine (eq_trans _ (f_equal (Cmult _) (eq_sym (nth_map_seq (fun j => Copp (Cinv (nth j e (RtoC 0)))) M j (RtoC 0) Hj)))). rewrite BV by assumption. rewrite RtoC_opp. assert (N := EN j Hj). ceq. field. exact N.
  Qed.
End Sat.

Theorem oracles_exist : exists geig invO, geig_ok geig /\ inv_ok invO /\ forall num beta, (1 <= num)%nat -> 0 < beta -> exists r, pade_frequencies geig invO num beta = Ok r.
Proof.
  assert (G : forall AB : mat CF * mat CF, exists r : result (list CF * mat CF), (exists ev vi, r = Ok ev /\ pencil_eig (fst AB) (snd AB) ev /\ minv CF (nr (fst AB)) (me (snd ev)) (me vi)) \/ (r = Err LinAlgError /\ ~ exists ev vi, pencil_eig (fst AB) (snd AB) ev /\ minv CF (nr (fst AB)) (me (snd ev)) (me vi))).
  { intros AB. destruct (classic (exists ev vi, pencil_eig (fst AB) (snd AB) ev /\ minv CF (nr (fst AB)) (me (snd ev)) (me vi))) as [(ev & vi & H)|H]; [exists (Ok ev); left; eauto|exists (Err LinAlgError); right; auto]. }
  assert (I : forall v : mat CF, exists r : result (mat CF), (exists vi, r = Ok vi /\ minv CF (nr v) (me v) (me vi)) \/ (r = Err LinAlgError /\ ~ exists vi : mat CF, minv CF (nr v) (me v) (me vi))).
  { intros v. destruct (classic (exists vi : mat CF, minv CF (nr v) (me v) (me vi))) as [(vi & H)|H]; [exists (Ok vi); left; eauto|exists (Err LinAlgError); right; auto]. }
  destruct (functional_choice _ G) as [g Hg]. destruct (functional_choice _ I) as [iv Hiv].
  exists (fun A B => g (A, B)), iv. 
  assert (GO : geig_ok (fun A B => g (A, B))). { intros A B ev _ _ _ _ E. destruct (Hg (A, B)) as [(ev' & vi & E' & H & _)|(E' & _)]; rewrite E in E'; [|discriminate]. injection E' as <-. exact H. }
  assert (IO : inv_ok iv). { intros v vi _ E. destruct (Hiv v) as [(vi' & E' & H)|(E' & _)]; rewrite E in E'; [|discriminate]. injection E' as <-. exact H. }
  split; [exact GO|]. split; [exact IO|]. intros num beta Hn Hb.
  unfold pade_frequencies. destruct (pade0_cases (fun A B => g (A, B)) iv GO IO num Hn) as [(zs & R0 & _)|(x & _ & Hx)].
  - rewrite R0. cbn [bind]. destruct (Req_EM_T beta 0); [lra|eauto].
  - exfalso. destruct (Hg (mat_a (2 * num), mat_b (2 * num))) as [(ev & vi & E & HP & HM)|(_ & N)]; [|apply N; destruct (pencil_exists num) as (ev & vi & A & B & _); exists ev, vi; split; [exact A|exact B]].
    rewrite E in Hx. destruct Hx as [Hx|(e & v & Ev & Hx)]; [discriminate|]. injection Ev as ->. destruct HP as ((Sv & _) & _). cbn [fst nr mat_a snd] in Sv, HM.
    destruct (Hiv v) as [(vi' & E' & H)|(_ & N)]; [rewrite E' in Hx; discriminate|]. apply N. exists vi. rewrite Sv. exact HM.
Qed.
