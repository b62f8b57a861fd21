(** * Trapezoidal and Simpson weights, and the guard of tt2z *)
From Coq Require Import List Arith ZArith Reals Lia Lra Bool String Field.
From Coquelicot Require Import Coquelicot.
From Verif Require Import Base FSum CBase CExp Herm_Proofs LinPred_Burg Matrix_Time Stat_Model Linalg_Model Pole_Model Fourier_Model Fourier_Dft Fourier_Filon Fourier_Lin.
Import ListNotations.

Section Weights.
Context {K : Fld}.
Add Field KfQ : (Fth K).
Local Open Scope fld_scope.
Notation two := (two (K := K)).

Lemma trapz_regroup (F t : nat -> K) m :
  nsum (S m) (fun i => (t (S i) - t i) * (F i + F (S i)))
  = F 0%nat * (t 1%nat - t 0%nat) + F (S m) * (t (S m) - t m) + nsum m (fun i => F (S i) * (t (S (S i)) - t i)).
Proof.
  induction m as [|m IH]; [cbn; ring|]. cbn [nsum] in *. rewrite IH. ring.
Qed.
(** the composite rules, on f 0, f 1, ... with distance d *)
Definition trapz_rule (d : K) (n : nat) (f : nat -> K) : K := nsum n (fun i => d * (f i + f (S i)) / two).
Definition simps_rule (d : K) (m : nat) (f : nat -> K) : K :=
  nsum m (fun j => d / (two + 1) * (f (2 * j)%nat + (two * two) * f (2 * j + 1)%nat + f (2 * j + 2)%nat)).

Hypothesis two_neq : two <> 0.
Hypothesis three_neq : two + 1 <> 0.
Lemma three' : (1 + (1 + 1) : K) <> 0.
Proof. replace (1 + (1 + 1) : K) with (two + 1) by (unfold Fourier_Model.two; ring). exact three_neq. Qed.
Lemma four' : (1 + (1 + (1 + 1)) : K) <> 0.
Proof. replace (1 + (1 + (1 + 1)) : K) with (two * two) by (unfold Fourier_Model.two; ring). now apply fmul_neq0. Qed.
Ltac fld2 := unfold Fourier_Model.two; field; repeat match goal with |- _ /\ _ => split end;
  first [exact two_neq|exact three_neq|exact three'|exact four'|exact (fmul_neq0 K _ _ two_neq two_neq)].

Lemma trapz_rule_alt d n f : trapz_rule d (S n) f = d * (f 0%nat / two + nsum n (fun i => f (S i)) + f (S n) / two).
Proof. unfold trapz_rule. induction n as [|n IH]; cbn [nsum] in *; [fld2|]. rewrite IH. fld2. Qed.

Lemma lsum_map_seq n (f : nat -> K) : lsum (map f (seq 0 n)) = nsum n f.
Proof. rewrite lsum_nth, map_length, seq_length. apply nsum_ext. intros i Hi. now rewrite nth_map_seq. Qed.

Theorem trapz_weight_end d g w : (2 <= List.length g)%nat -> trapz_weight d g true = Ok w -> lsum w = trapz_rule d (List.length g - 1) (fun i => nth i g 0).
Proof.
  intros Hl H. unfold trapz_weight in H. set (n := List.length g) in *. destruct (Nat.eqb_spec n 0) as [|_]; [lia|]. injection H as <-. rewrite lsum_map_seq.
  destruct n as [|[|n]]; [lia|lia|]. cbn [Nat.sub]. rewrite trapz_rule_alt.
  rewrite nsum_S_l. cbn [nsum]. cbn [andb Nat.eqb]. rewrite (nsum_ext _ n _ (fun i => d * nth (S i) g 0)).
  2:{ intros i Hi. destruct (Nat.eqb_spec i n); [lia|]. ring. }
  rewrite Nat.eqb_refl, nsum_mul_l. fld2.
Qed.
(** without end point: the rule on the data continued by zero *)
Theorem trapz_weight_open d g w : trapz_weight d g false = Ok w -> lsum w = trapz_rule d (List.length g) (fun i => nth i g 0).
Proof.
  intros H. unfold trapz_weight in H. set (n := List.length g) in *. destruct (Nat.eqb_spec n 0) as [|Hn]; [discriminate H|]. injection H as <-. rewrite lsum_map_seq.
  assert (E : nth n g 0 = 0) by (apply nth_overflow; unfold n; lia). destruct n as [|n]; [lia|]. rewrite trapz_rule_alt, E. rewrite nsum_S_l. cbn [andb Nat.eqb].
  rewrite (nsum_ext _ n _ (fun i => d * nth (S i) g 0)) by (intros; ring). rewrite nsum_mul_l. fld2.
Qed.

Lemma simps_rule_alt d m f : simps_rule d (S m) f = d / (two + 1) * (f 0%nat + (two * two) * nsum (S m) (fun j => f (2 * j + 1)%nat) + two * nsum m (fun j => f (2 * S j)%nat) + f (2 * S m)%nat).
Proof.
  unfold simps_rule. rewrite nsum_mul_l. f_equal. induction m as [|m IH]; [cbn; ring|].
  cbn [nsum]. cbn [nsum] in IH. rewrite IH. replace (2 * S m + 2)%nat with (2 * S (S m))%nat by lia. unfold Fourier_Model.two. ring.
Qed.

Lemma nsum_last n (f : nat -> K) : nsum (S n) f = nsum n f + f n.
Proof. reflexivity. Qed.
Lemma nat_odd_2j j : Nat.odd (2 * j) = false.
Proof. now rewrite Nat.odd_mul. Qed.
Lemma nat_odd_2j1 j : Nat.odd (2 * j + 1) = true.
Proof. rewrite Nat.add_1_r, Nat.odd_succ. now rewrite Nat.even_mul. Qed.

Theorem simps_weight_odd d g w m : (1 <= m)%nat -> List.length g = (2 * m + 1)%nat -> simps_weight d g true = Ok w -> lsum w = simps_rule d m (fun i => nth i g 0).
Proof.
  intros Hm Lg H. unfold simps_weight in H. rewrite Lg in H. destruct (Nat.eqb_spec (2 * m + 1) 0) as [|_]; [lia|]. cbn [andb] in H. injection H as <-.
  change (lsum (map (fun i => d / (two + 1) * nth i g 0 * simps_factor (2 * m + 1) i true) (seq 0 (2 * m + 1))) = simps_rule d m (fun i => nth i g 0)).
  rewrite lsum_map_seq. destruct m as [|m]; [lia|]. rewrite simps_rule_alt. 
  replace (nsum (2 * S m + 1)) with (nsum (K := K) (S (2 * S m))) by (f_equal; lia). rewrite nsum_last. rewrite nsum_even_odd.
  rewrite (nsum_ext _ (S m) (fun j => d / (two + 1) * nth (2 * j + 1) g 0 * simps_factor (2 * S m + 1) (2 * j + 1) true) (fun j => d / (two + 1) * (two * two) * nth (2 * j + 1) g 0)).
  2:{ intros j Hj. unfold simps_factor. rewrite !nat_odd_2j1. destruct (Nat.ltb_spec 0 (2 * j + 1)); [|lia]. destruct (Nat.ltb_spec (2 * j + 1) (2 * S m + 1 - 1)); [|lia]. cbn [andb]. ring. }
  rewrite nsum_mul_l. rewrite nsum_S_l. rewrite (nsum_ext _ m _ (fun j => d / (two + 1) * two * nth (2 * S j) g 0)).
  2:{ intros j Hj. unfold simps_factor. rewrite nat_odd_2j1, nat_odd_2j. destruct (Nat.ltb_spec 0 (2 * S j)); [|lia]. destruct (Nat.ltb_spec (2 * S j) (2 * S m + 1 - 1)); [|lia]. cbn [andb]. ring. }
  rewrite nsum_mul_l.
  assert (F0 : simps_factor (K := K) (2 * S m + 1) (2 * 0) true = 1) by (unfold simps_factor; rewrite nat_odd_2j1; reflexivity).
  assert (F1 : simps_factor (K := K) (2 * S m + 1) (2 * S m) true = 1).
  { unfold simps_factor. rewrite nat_odd_2j1. destruct (Nat.ltb_spec (2 * S m) (2 * S m + 1 - 1)); [lia|]. now rewrite andb_false_r. }
  rewrite F0, F1. set (S1 := nsum m _). set (S2 := nsum (S m) _). change (2 * 0)%nat with 0%nat. fld2.
Qed.

Theorem simps_weight_even d g w m : (1 <= m)%nat -> List.length g = (2 * m + 2)%nat -> simps_weight d g true = Ok w ->
  lsum w = simps_rule d m (fun i => nth i g 0) + d * (nth (2 * m) g 0 + nth (2 * m + 1) g 0) / two.
Proof.
  intros Hm Lg H. unfold simps_weight in H. rewrite Lg in H. destruct (Nat.eqb_spec (2 * m + 2) 0) as [|_]; [lia|]. cbn [andb] in H. injection H as <-.
  change (lsum (map (fun i => d / (two + 1) * nth i g 0 * simps_factor (2 * m + 2) i true) (seq 0 (2 * m + 2))) = simps_rule d m (fun i => nth i g 0) + d * (nth (2 * m) g 0 + nth (2 * m + 1) g 0) / two).
  rewrite lsum_map_seq. destruct m as [|m]; [lia|]. rewrite simps_rule_alt.
  assert (Ho : Nat.odd (2 * S m + 2) = false) by (replace (2 * S m + 2)%nat with (2 * (S m + 1))%nat by lia; apply nat_odd_2j).
  replace (nsum (2 * S m + 2)) with (nsum (K := K) (S (S (2 * S m)))) by (f_equal; lia). rewrite (nsum_last (S (2 * S m))), (nsum_last (2 * S m)). rewrite nsum_even_odd.
  rewrite (nsum_ext _ (S m) (fun j => d / (two + 1) * nth (2 * j + 1) g 0 * simps_factor (2 * S m + 2) (2 * j + 1) true) (fun j => d / (two + 1) * (two * two) * nth (2 * j + 1) g 0)).
  2:{ intros j Hj. unfold simps_factor. rewrite Ho, nat_odd_2j1. destruct (Nat.eqb_spec (2 * j + 1) (2 * S m + 2 - 2)); [lia|]. destruct (Nat.eqb_spec (2 * j + 1) (2 * S m + 2 - 1)); [lia|].
      destruct (Nat.ltb_spec 0 (2 * j + 1)); [|lia]. ring. }
  rewrite nsum_mul_l. rewrite nsum_S_l. rewrite (nsum_ext _ m _ (fun j => d / (two + 1) * two * nth (2 * S j) g 0)).
  2:{ intros j Hj. unfold simps_factor. rewrite Ho, nat_odd_2j. destruct (Nat.eqb_spec (2 * S j) (2 * S m + 2 - 2)); [lia|]. destruct (Nat.eqb_spec (2 * S j) (2 * S m + 2 - 1)); [lia|].
      destruct (Nat.ltb_spec 0 (2 * S j)); [|lia]. ring. }
  rewrite nsum_mul_l.
  assert (F0 : simps_factor (K := K) (2 * S m + 2) (2 * 0) true = 1).
  { unfold simps_factor. rewrite Ho. destruct (Nat.eqb_spec (2 * 0) (2 * S m + 2 - 2)); [lia|]. destruct (Nat.eqb_spec (2 * 0) (2 * S m + 2 - 1)); [lia|]. reflexivity. }
  assert (F1 : simps_factor (K := K) (2 * S m + 2) (2 * S m) true = (two * two + 1) / two).
  { unfold simps_factor. rewrite Ho. destruct (Nat.eqb_spec (2 * S m) (2 * S m + 2 - 2)); [reflexivity|lia]. }
  assert (F2 : simps_factor (K := K) (2 * S m + 2) (S (2 * S m)) true = (two + 1) / two).
  { unfold simps_factor. rewrite Ho. destruct (Nat.eqb_spec (S (2 * S m)) (2 * S m + 2 - 2)); [lia|]. destruct (Nat.eqb_spec (S (2 * S m)) (2 * S m + 2 - 1)); [reflexivity|lia]. }
  rewrite F0, F1, F2. replace (2 * S m + 1)%nat with (S (2 * S m)) by lia. set (S1 := nsum m _). set (S2 := nsum (S m) _). change (2 * 0)%nat with 0%nat. unfold Fourier_Model.two in *.
  fld2.
Qed.

(** without end point: the rule on the data continued by zero *)
Theorem simps_weight_open d g w : simps_weight d g false = Ok w -> lsum w = simps_rule d ((List.length g + 1) / 2) (fun i => nth i g 0).
Proof.
  intros H. unfold simps_weight in H. cbn [andb] in H. set (n := List.length g) in *. injection H as <-.
  change (lsum (map (fun i => d / (two + 1) * nth i g 0 * simps_factor n i false) (seq 0 n)) = simps_rule d ((n + 1) / 2) (fun i => nth i g 0)).
  rewrite lsum_map_seq. set (m := ((n + 1) / 2)%nat). assert (Hm : (n = 2 * m \/ n + 1 = 2 * m)%nat). { assert (D := Nat.div_mod (n + 1) 2 ltac:(lia)). assert (B := Nat.mod_upper_bound (n + 1) 2 ltac:(lia)). lia. }
  assert (Z : forall i, (n <= i)%nat -> nth i g 0 = 0) by (intros i Hi; now apply nth_overflow).
  rewrite <- (nsum_extend K n (2 * m)); [|lia|]. 2:{ intros i Hi. rewrite Z by lia. ring. }
  destruct m as [|m']; [reflexivity|]. rewrite nsum_even_odd, simps_rule_alt. rewrite (Z (2 * S m')%nat) by lia.
  rewrite (nsum_ext _ (S m') (fun j => d / (two + 1) * nth (2 * j + 1) g 0 * simps_factor n (2 * j + 1) false) (fun j => d / (two + 1) * (two * two) * nth (2 * j + 1) g 0)).
  2:{ intros j Hj. unfold simps_factor. rewrite nat_odd_2j1. destruct (Nat.eqb_spec (2 * j + 1) 0); [lia|]. ring. }
  rewrite nsum_mul_l, nsum_S_l. rewrite (nsum_ext _ m' _ (fun j => d / (two + 1) * two * nth (2 * S j) g 0)).
  2:{ intros j Hj. unfold simps_factor. rewrite nat_odd_2j. destruct (Nat.eqb_spec (2 * S j) 0); [lia|]. ring. }
  rewrite nsum_mul_l. change (simps_factor n (2 * 0) false) with (1 : K). set (S1 := nsum m' _). set (S2 := nsum (S m') _). change (2 * 0)%nat with 0%nat. fld2.
Qed.

(** exactness for polynomials with anti-derivative *)
Definition cubic (c0 c1 c2 c3 t : K) : K := c0 + c1 * t + c2 * (t * t) + c3 * (t * t * t).
Definition cubic_int (c0 c1 c2 c3 t : K) : K := c0 * t + c1 * (t * t) / two + c2 * (t * t * t) / (two + 1) + c3 * (t * t * t * t) / (two * two).
Theorem simps_rule_cubic c0 c1 c2 c3 a d m :
  simps_rule d m (fun i => cubic c0 c1 c2 c3 (a + fnat i * d)) = cubic_int c0 c1 c2 c3 (a + fnat (2 * m) * d) - cubic_int c0 c1 c2 c3 a.
Proof.
  induction m as [|m IH]; [unfold simps_rule, cubic_int; cbn; fld2|].
  unfold simps_rule in *. cbn [nsum]. rewrite IH. replace (2 * S m)%nat with (2 * m + 2)%nat by lia. rewrite !fnat_add. set (x := fnat (2 * m)). cbn [fnat].
  unfold cubic, cubic_int, Fourier_Model.two in *. fld2.
Qed.
Theorem trapz_rule_linear c0 c1 a d n :
  trapz_rule d n (fun i => c0 + c1 * (a + fnat i * d)) = cubic_int c0 c1 0 0 (a + fnat n * d) - cubic_int c0 c1 0 0 a.
Proof.
  induction n as [|n IH]; [unfold trapz_rule, cubic_int; cbn; fld2|].
  unfold trapz_rule in *. cbn [nsum]. rewrite IH. replace (S n) with (n + 1)%nat by lia. rewrite !fnat_add. set (x := fnat n). cbn [fnat].
  unfold cubic_int, Fourier_Model.two in *. fld2.
Qed.
End Weights.

(** ** the transforms *)
Local Open Scope C_scope.
Lemma two_C : two (K := CF) = RtoC 2.
Proof. unfold two. cbn [Fadd F1 CF]. rewrite <- RtoC_plus. reflexivity. Qed.
Lemma two_C_neq : two (K := CF) <> RtoC 0.
Proof. rewrite two_C. apply RtoC_neq. lra. Qed.
Lemma three_C_neq : Fadd (two (K := CF)) F1 <> RtoC 0.
Proof. rewrite two_C. cbn [Fadd F1 CF]. rewrite <- RtoC_plus. apply RtoC_neq. lra. Qed.

(** the composite trapezoidal rule on the given grid *)
Theorem tt2z_trapz_rule tt gf_t z v : tt2z_trapz tt gf_t z = Ok v ->
  v = nsum (K := CF) (List.length tt - 1) (fun i =>
        (cexp (Ci * z * RtoC (nth i tt 0%R)) * nth i gf_t (RtoC 0) + cexp (Ci * z * RtoC (nth (S i) tt 0%R)) * nth (S i) gf_t (RtoC 0)) / RtoC 2
        * RtoC (nth (S i) tt 0 - nth i tt 0)).
Proof.
  intros H. unfold tt2z_trapz in H. destruct (Nat.ltb_spec (List.length tt) 2) as [|L]; [discriminate H|]. destruct (_ =? _)%nat; [|discriminate H].
  match type of H with Ok ?r = _ => assert (E : v = r) by congruence end. rewrite E. clear H E v.
  set (n := List.length tt) in *. destruct n as [|[|m]]; [lia|lia|]. replace (S (S m) - 1)%nat with (S m) by lia. replace (S (S m) - 2)%nat with m by lia.
  set (F := fun i => tphase z (nth i tt 0%R) * nth i gf_t (RtoC 0)). assert (T := trapz_regroup (K := CF) F (fun i => RtoC (nth i tt 0%R)) m).
  rewrite (nsum_ext CF (S m) _ (fun i => RtoC (/ 2) * ((RtoC (nth (S i) tt 0%R) - RtoC (nth i tt 0%R)) * (F i + F (S i))))).
  2:{ intros i Hi. unfold F, tphase. cbn [Fmul CF]. rewrite RtoC_minus, RtoC_inv by lra. unfold Cdiv. match goal with |- @eq _ ?a ?b => change (@eq C a b) end. ring. }
  assert (TL := nsum_mul_l CF (S m) (RtoC (/ 2))). cbn [Fmul CF] in TL. rewrite TL. f_equal. cbn [Fsub Fmul Fadd CF] in T. refine (eq_sym (eq_trans T _)).
  unfold F. rewrite !RtoC_minus. f_equal. apply (nsum_ext CF). intros i Hi. rewrite RtoC_minus. cring.
Qed.
Theorem tt2z_trapz_total tt gf_t z : (2 <= List.length tt)%nat -> List.length gf_t = List.length tt -> exists v, tt2z_trapz tt gf_t z = Ok v.
Proof. intros H L. unfold tt2z_trapz. destruct (Nat.ltb_spec (List.length tt) 2); [lia|]. rewrite L, Nat.eqb_refl. eauto. Qed.
(** ... which is the integral of the interpolated integrand *)
Theorem tt2z_trapz_integral tt gf_t z v f : tt2z_trapz tt gf_t z = Ok v -> (forall i, (S i < List.length tt)%nat -> nth i tt 0%R <> nth (S i) tt 0%R) ->
  interpolates f (fun i => nth i tt 0%R) (fun i => cexp (Ci * z * RtoC (nth i tt 0%R)) * nth i gf_t (RtoC 0)) (List.length tt - 1) ->
  is_CInt f (nth 0 tt 0%R) (nth (List.length tt - 1) tt 0%R) v.
Proof.
  intros H Hd Hf. rewrite (tt2z_trapz_rule _ _ _ _ H). refine (is_CInt_eq _ _ _ _ _ (trapz_sum f (fun i => nth i tt 0%R) _ (List.length tt - 1) _ Hf) _).
  - intros k Hk. apply Hd. lia.
  - apply (nsum_ext CF). intros i Hi. unfold Cdiv. cring.
Qed.

(** tt2z_simps is the composite Simpson rule for the integrand continued by zero *)
Theorem tt2z_simps_rule tt gf_t z v : tt2z_simps tt gf_t z = Ok v ->
  v = simps_rule (K := CF) (RtoC (nth 1 tt 0 - nth 0 tt 0)) ((List.length tt + 1) / 2)
        (fun i => if (i <? List.length tt)%nat then cexp (Ci * z * RtoC (nth i tt 0%R)) * nth i gf_t (RtoC 0) else RtoC 0).
Proof.
  intros H. unfold tt2z_simps in H. destruct (Nat.ltb_spec (List.length tt) 2) as [|L]; [discriminate H|]. 
  assert (Hw : simps_weight (K := CF) (RtoC (nth 1 tt 0 - nth 0 tt 0)) gf_t false = Ok (map (fun i => RtoC (nth 1 tt 0 - nth 0 tt 0) / (Fadd (two (K := CF)) F1) * nth i gf_t (RtoC 0) * simps_factor (K := CF) (List.length gf_t) i false) (seq 0 (List.length gf_t)))) by reflexivity.
  rewrite Hw in H. cbn [bind] in H. clear Hw. destruct (Nat.eqb_spec (List.length gf_t) (List.length tt)) as [Lg|]; [|discriminate H].
  match type of H with Ok ?r = _ => assert (E : v = r) by congruence end. rewrite E. clear H E v. rewrite Lg.
  set (n := List.length tt) in *. set (l := map (fun i => cexp (Ci * z * RtoC (nth i tt 0%R)) * nth i gf_t (RtoC 0)) (seq 0 n) : list CF).
  assert (Ll : @List.length CF l = n) by (unfold l; now rewrite map_length, seq_length).
  destruct (simps_weight (K := CF) (RtoC (nth 1 tt 0 - nth 0 tt 0)) l false) as [w|e] eqn:Ew; [|discriminate Ew].
  assert (T := simps_weight_open (K := CF) three_C_neq _ _ _ Ew). rewrite Ll in T. unfold simps_weight in Ew. cbn [andb] in Ew. rewrite Ll in Ew.
  assert (Ew' : w = map (fun i => RtoC (nth 1 tt 0 - nth 0 tt 0) / (Fadd (two (K := CF)) F1) * nth i l (RtoC 0) * simps_factor (K := CF) n i false) (seq 0 n)) by (symmetry; exact (f_equal (fun r => match r with Ok x => x | Err _ => w end) Ew)).
  rewrite Ew' in T. assert (T2 := eq_trans (eq_sym (lsum_map_seq (K := CF) n (fun i => RtoC (nth 1 tt 0 - nth 0 tt 0) / (Fadd (two (K := CF)) F1) * nth i l (RtoC 0) * simps_factor (K := CF) n i false))) T). clear T.
  transitivity (simps_rule (K := CF) (RtoC (nth 1 tt 0 - nth 0 tt 0)) ((n + 1) / 2) (fun i => nth i l (RtoC 0))).
  - refine (eq_trans _ T2). apply (nsum_ext CF). intros i Hi. rewrite nth_map_seq by exact Hi. unfold l. change (car CF) with C. rewrite (nth_map_seq (A := C)) by exact Hi. unfold tphase. cring.
  - apply (nsum_ext CF). intros j Hj.
    assert (N : forall i, nth i l (RtoC 0) = if (i <? n)%nat then cexp (Ci * z * RtoC (nth i tt 0%R)) * nth i gf_t (RtoC 0) else RtoC 0).
    { intros i. destruct (Nat.ltb_spec i n); [unfold l; now rewrite nth_map_seq|apply nth_overflow; lia]. }
    change (@F0 CF) with (RtoC 0). now rewrite !N.
Qed.

(** the anti-derivative of a real cubic *)
Lemma two_R : two (K := RF) = 2%R. Proof. cbn. ring. Qed.
Lemma two_R_neq : two (K := RF) <> @F0 RF. Proof. rewrite two_R. cbn. intros E. lra. Qed.
Lemma three_R_neq : Fadd (two (K := RF)) F1 <> @F0 RF. Proof. rewrite two_R. cbn. intros E. lra. Qed.
Lemma cubic_RInt c0 c1 c2 c3 a b : is_RInt (V := R_NormedModule) (cubic (K := RF) c0 c1 c2 c3) a b (cubic_int (K := RF) c0 c1 c2 c3 b - cubic_int (K := RF) c0 c1 c2 c3 a)%R.
Proof.
  apply (RInt_deriv (cubic_int (K := RF) c0 c1 c2 c3)); intros t; unfold cubic_int, cubic, two; cbn [Fadd Fmul Fdiv F1 RF].
  - auto_derive; [repeat split; lra|]. field.
  - auto_derive. exact I.
Qed.
Lemma fnat_INR i : fnat (K := RF) i = INR i.
Proof. induction i as [|i IH]; [reflexivity|]. rewrite S_INR, <- IH. cbn. ring. Qed.

Theorem simps_odd_cubic_exact c0 c1 c2 c3 a d m w : (1 <= m)%nat ->
  simps_weight (K := RF) d (map (fun i => (c0 + c1 * (a + INR i * d) + c2 * ((a + INR i * d) * (a + INR i * d)) + c3 * ((a + INR i * d) * (a + INR i * d) * (a + INR i * d)))%R) (seq 0 (2 * m + 1))) true = Ok w ->
  is_RInt (V := R_NormedModule) (fun t => c0 + c1 * t + c2 * (t * t) + c3 * (t * t * t))%R a (a + INR (2 * m) * d)%R (lsum (K := RF) w).
Proof.
  intros Hm H. set (g := map _ _) in H. assert (Lg : List.length g = (2 * m + 1)%nat) by (unfold g; now rewrite map_length, seq_length).
  assert (T := simps_weight_odd (K := RF) three_R_neq d g w m Hm Lg H).
  assert (E : simps_rule (K := RF) d m (fun i => nth i g (@F0 RF)) = simps_rule (K := RF) d m (fun i => cubic (K := RF) c0 c1 c2 c3 (@Fadd RF a (@Fmul RF (fnat i) d)))).
  { apply (nsum_ext RF). intros j Hj. unfold g. rewrite !nth_map_seq by lia. rewrite !fnat_INR. reflexivity. }
  rewrite (eq_trans T E), (simps_rule_cubic (K := RF) two_R_neq three_R_neq). rewrite fnat_INR. apply cubic_RInt.
Qed.
Theorem simps_even_linear_exact c0 c1 a d m w : (1 <= m)%nat ->
  simps_weight (K := RF) d (map (fun i => (c0 + c1 * (a + INR i * d))%R) (seq 0 (2 * m + 2))) true = Ok w ->
  is_RInt (V := R_NormedModule) (fun t => c0 + c1 * t)%R a (a + INR (2 * m + 1) * d)%R (lsum (K := RF) w).
Proof.
  intros Hm H. set (g := map _ _) in H. assert (Lg : List.length g = (2 * m + 2)%nat) by (unfold g; now rewrite map_length, seq_length).
  assert (T := simps_weight_even (K := RF) two_R_neq three_R_neq d g w m Hm Lg H).
  assert (E : simps_rule (K := RF) d m (fun i => nth i g (@F0 RF)) = simps_rule (K := RF) d m (fun i => cubic (K := RF) c0 c1 0%R 0%R (@Fadd RF a (@Fmul RF (fnat i) d)))).
  { apply (nsum_ext RF). intros j Hj. unfold g. rewrite !nth_map_seq by lia. rewrite !fnat_INR. unfold cubic. cbn [Fadd Fmul RF]. match goal with |- @eq _ ?x ?y => change (@eq R x y) end. ring. }
  rewrite (eq_trans T (f_equal (fun q : RF => @Fadd RF q _) E)), (simps_rule_cubic (K := RF) two_R_neq three_R_neq). rewrite fnat_INR. unfold g. rewrite !nth_map_seq by lia.
  apply (is_RInt_ext (V := R_NormedModule) (cubic (K := RF) c0 c1 0%R 0%R)). { intros t _. unfold cubic. cbn [Fadd Fmul RF]. match goal with |- @eq _ ?x ?y => change (@eq R x y) end. ring. }
  match goal with |- is_RInt _ _ _ ?l => replace l with (cubic_int (K := RF) c0 c1 0%R 0%R (a + INR (2 * m + 1) * d) - cubic_int (K := RF) c0 c1 0%R 0%R a)%R end; [apply cubic_RInt|].
  rewrite plus_INR. change (INR 1) with 1%R. unfold cubic_int. rewrite two_R. cbn [Fadd Fmul Fsub Fdiv F1 RF]. field.
Qed.
Theorem trapz_end_linear_exact c0 c1 a d n w :
  trapz_weight (K := RF) d (map (fun i => (c0 + c1 * (a + INR i * d))%R) (seq 0 (S (S n)))) true = Ok w ->
  is_RInt (V := R_NormedModule) (fun t => c0 + c1 * t)%R a (a + INR (S n) * d)%R (lsum (K := RF) w).
Proof.
  intros H. set (g := map _ _) in H. assert (Lg : List.length g = S (S n)) by (unfold g; now rewrite map_length, seq_length).
  assert (T := trapz_weight_end (K := RF) two_R_neq d g w ltac:(change (@List.length RF g) with (@List.length R g); lia) H). change (@List.length RF g) with (@List.length R g) in T. rewrite Lg in T. replace (S (S n) - 1)%nat with (S n) in T by lia.
  assert (E : trapz_rule (K := RF) d (S n) (fun i => nth i g (@F0 RF)) = trapz_rule (K := RF) d (S n) (fun i => @Fadd RF c0 (@Fmul RF c1 (@Fadd RF a (@Fmul RF (fnat i) d))))).
  { apply (nsum_ext RF). intros j Hj. unfold g. rewrite !nth_map_seq by lia. rewrite !fnat_INR. reflexivity. }
  rewrite (eq_trans T E), (trapz_rule_linear (K := RF) two_R_neq three_R_neq). rewrite fnat_INR.
  apply (is_RInt_ext (V := R_NormedModule) (cubic (K := RF) c0 c1 0%R 0%R)). { intros t _. unfold cubic. cbn [Fadd Fmul RF]. match goal with |- @eq _ ?x ?y => change (@eq R x y) end. ring. }
  apply cubic_RInt.
Qed.

(** ** guard *)
Lemma ge0_iff x : ge0 x = true <-> (0 <= x)%R.
Proof. unfold ge0. destruct (Rle_dec 0 x); split; intros; try easy; contradiction. Qed.
Lemma le0_iff x : le0 x = true <-> (x <= 0)%R.
Proof. unfold le0. destruct (Rle_dec x 0); split; intros; try easy; contradiction. Qed.
Definition well_defined (tt : list R) (z : list C) : Prop :=
  ((forall t, In t tt -> (0 <= t)%R) /\ (forall w, In w z -> (0 <= snd w)%R)) \/ ((forall t, In t tt -> (t <= 0)%R) /\ (forall w, In w z -> (snd w <= 0)%R)).
Lemma guard_iff tt z : ((forallb ge0 tt && forallb (fun w : C => ge0 (snd w)) z) || (forallb le0 tt && forallb (fun w : C => le0 (snd w)) z))%bool = true <-> well_defined tt z.
Proof.
  rewrite orb_true_iff, !andb_true_iff, !forallb_forall. unfold well_defined.
  setoid_rewrite ge0_iff. setoid_rewrite le0_iff. reflexivity.
Qed.
Theorem tt2z_guard laplace tt gf_t z :
  (~ well_defined tt z -> tt2z laplace tt gf_t z = Err ValueError) /\
  (well_defined tt z -> z <> [] -> gf_t <> [] -> tt2z laplace tt gf_t z = laplace tt gf_t z) /\
  (well_defined tt z -> z = [] \/ gf_t = [] -> exists r, tt2z laplace tt gf_t z = Ok r /\ List.length r = List.length z /\ forall x, In x r -> x = None).
Proof.
  unfold tt2z. split; [|split].
  - intros H. destruct (_ || _)%bool eqn:E; [|reflexivity]. apply guard_iff in E. contradiction.
  - intros H Hz Hg. apply guard_iff in H. match goal with |- context [negb ?b] => destruct b eqn:Eg; [|exfalso; exact (Bool.diff_false_true (eq_trans (eq_sym Eg) H))] end. cbn [negb]. destruct z; [contradiction|]. destruct gf_t; [contradiction|]. reflexivity.
  - intros H Hz. apply guard_iff in H. match goal with |- context [negb ?b] => destruct b eqn:Eg; [|exfalso; exact (Bool.diff_false_true (eq_trans (eq_sym Eg) H))] end. cbn [negb]. assert (E : ((List.length z =? 0) || (List.length gf_t =? 0))%nat = true). { destruct Hz as [->| ->]; [reflexivity|]. rewrite orb_true_r. reflexivity. }
    rewrite E. eexists. split; [reflexivity|]. rewrite map_length. split; [reflexivity|]. intros x Hx. apply in_map_iff in Hx. destruct Hx as [y [<- _]]. reflexivity.
Qed.
