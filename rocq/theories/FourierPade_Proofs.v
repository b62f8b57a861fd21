(** * Fourier-Padé transforms of sums of exponentials *)
From Coq Require Import List Arith ZArith Reals Lia Lra Bool Field.
From Coquelicot Require Import Coquelicot.
From Verif Require Import Base FSum CBase CExp Herm_Model Herm_Spec Herm_Proofs HermEval_Model LinPred_Model LinPred_Proofs LinPred_Burg Mat Pole_Proofs Fourier_Model Fourier_Quad
  FourierPade_Model FourierPade_Ser.
Import ListNotations.
Local Open Scope R_scope.

Section Gen.
Context {K : Fld}.
Add Field gen_field : (Fth K).
Local Open Scope fld_scope.
Lemma gser_partial (l : list (K * K)) d y N : regular l y ->
  nsum (S N) (fun j => gser l d j * fpow y j) = gval l d y - lsum (map (fun t => fst t * fpow (snd t * y) (S N) / (1 - snd t * y)) l).
Proof.
  induction l as [|t l IH]; intros Hr.
  - rewrite nsum_S_l, nsum_0'.
    + unfold gser, gval. cbn. ring.
    + intros i Hi. unfold gser. cbn. ring.
  - rewrite (nsum_ext K (S N) _ (fun j => gser l d j * fpow y j + fst t * fpow (snd t * y) j)).
    2:{ intros j Hj. rewrite gser_cons, fpow_mul. ring. }
    rewrite nsum_add, IH by (intros s Hs; apply Hr; now right). rewrite nsum_mul_l.
    assert (Ht : 1 - snd t * y <> 0) by (apply Hr; now left). assert (G := geom_sum K (snd t * y) (S N)).
    unfold gval. cbn [map]. rewrite !lsum_cons.
    assert (E : nsum (S N) (fpow (snd t * y)) = (1 - fpow (snd t * y) (S N)) / (1 - snd t * y)) by (rewrite <- G; field; exact Ht).
    rewrite E. field. exact Ht.
Qed.
End Gen.

(** the weights of the open quadrature rules, for arbitrarily many points *)
Definition open_weight (quad : quad_kind) (delta : R) (j : nat) : R :=
  match quad with
  | QTrapz => if (j =? 0)%nat then delta / 2 else delta
  | QSimps => if (j =? 0)%nat then delta / 3 else if Nat.odd j then 4 * delta / 3 else 2 * delta / 3
  | QOther => 0
  end.
(** a sum of exponentials; a term is the pair (amplitude, energy) *)
Definition signal (terms : list (C * C)) (t : R) : C := lsum (K := CF) (map (fun ce => Cmult (fst ce) (cexp (Copp (Cmult (Cmult Ci (snd ce)) (RtoC t))))) terms).
Definition grid (delta : R) (N : nat) : list R := map (fun j => INR j * delta) (seq 0 N).
Definition samples (terms : list (C * C)) (delta : R) (N : nat) : list C := map (fun j => signal terms (INR j * delta)) (seq 0 N).
(** number of exponentials in the weighted data *)
Definition n_exp (quad : quad_kind) (terms : list (C * C)) : nat := match quad with QSimps => 2 * length terms | _ => length terms end.

(** the weighted data as sum of geometric series *)
Definition step (delta : R) (eps : C) : C := cexp (Copp (Cmult (Cmult Ci eps) (RtoC delta))).
Definition geo (quad : quad_kind) (delta : R) (terms : list (C * C)) : list (C * C) :=
  let main := map (fun ce => (Cmult (RtoC delta) (fst ce), step delta (snd ce))) terms in
  match quad with
  | QSimps => main ++ map (fun ce => (Cmult (RtoC (- delta / 3)) (fst ce), Copp (step delta (snd ce)))) terms
  | _ => main
  end.
Definition geo_d (quad : quad_kind) (delta : R) (terms : list (C * C)) : C :=
  Cmult (RtoC (match quad with QSimps => - delta / 3 | _ => - delta / 2 end)) (lsum (K := CF) (map fst terms)).

Lemma cexp_fpow w j : cexp (Cmult w (RtoC (INR j))) = fpow (K := CF) (cexp w) j.
Proof.
  induction j as [|j IH].
  - cbn [INR fpow]. replace (Cmult w (RtoC 0)) with (RtoC 0) by (apply C_ext; cbn; ring). apply cexp_0.
  - rewrite S_INR, fpow_S. change (@eq C (cexp (Cmult w (RtoC (INR j + 1)))) (Cmult (cexp w) (fpow (K := CF) (cexp w) j))). rewrite <- IH, <- cexp_add. f_equal.
    rewrite RtoC_plus. ring.
Qed.
Lemma signal_geo terms delta j : signal terms (INR j * delta) = lsum (K := CF) (map (fun ce => Cmult (fst ce) (fpow (K := CF) (step delta (snd ce)) j)) terms).
Proof.
  unfold signal. apply (lsum_map_ext CF). intros [c e] _. cbn [fst snd]. f_equal. unfold step. rewrite <- cexp_fpow. f_equal. rewrite RtoC_mult. cring.
Qed.
Lemma fpow_opp_C (x : C) j : fpow (K := CF) (Copp x) j = Cmult (RtoC (if Nat.odd j then -1 else 1)) (fpow (K := CF) x j).
Proof.
  induction j as [|j IH].
  - cbn. change (@eq C (RtoC 1) (Cmult (RtoC 1) (RtoC 1))). ring.
  - rewrite !fpow_S. rewrite Nat.odd_succ, <- Nat.negb_odd. change (@eq C (Cmult (Copp x) (fpow (K := CF) (Copp x) j)) (Cmult (RtoC (if negb (Nat.odd j) then -1 else 1)) (Cmult x (fpow (K := CF) x j)))).
    rewrite IH. destruct (Nat.odd j); cbn [negb]; apply C_ext; cbn; ring.
Qed.
Lemma lsum_app_C (a b : list C) : lsum (K := CF) (a ++ b) = Cplus (lsum (K := CF) a) (lsum (K := CF) b).
Proof. exact (lsum_app CF a b). Qed.
Lemma geo_gser quad delta terms j : quad <> QOther -> gser (K := CF) (geo quad delta terms) (geo_d quad delta terms) j = Cmult (RtoC (open_weight quad delta j)) (signal terms (INR j * delta)).
Proof.
  intros Hq. rewrite signal_geo. set (g := lsum (K := CF) (map (fun ce => Cmult (fst ce) (fpow (K := CF) (step delta (snd ce)) j)) terms)).
  assert (E1 : lsum (K := CF) (map (fun t : C * C => Cmult (fst t) (fpow (K := CF) (snd t) j)) (map (fun ce => (Cmult (RtoC delta) (fst ce), step delta (snd ce))) terms)) = Cmult (RtoC delta) g).
  { rewrite map_map. unfold g. rewrite <- (lsum_map_mul_l CF terms (RtoC delta)). apply (lsum_map_ext CF). intros [c e] _. cbn [fst snd]. change (@eq C (Cmult (Cmult (RtoC delta) c) (fpow (K := CF) (step delta e) j)) (Cmult (RtoC delta) (Cmult c (fpow (K := CF) (step delta e) j)))). ring. }
  assert (E2 : lsum (K := CF) (map (fun t : C * C => Cmult (fst t) (fpow (K := CF) (snd t) j)) (map (fun ce => (Cmult (RtoC (- delta / 3)) (fst ce), Copp (step delta (snd ce)))) terms))
               = Cmult (RtoC (- delta / 3 * (if Nat.odd j then -1 else 1))) g).
  { rewrite map_map. unfold g. rewrite <- (lsum_map_mul_l CF terms (RtoC (- delta / 3 * (if Nat.odd j then -1 else 1)))). apply (lsum_map_ext CF). intros [c e] _. cbn [fst snd]. rewrite fpow_opp_C, RtoC_mult. 
    change (@eq C (Cmult (Cmult (RtoC (- delta / 3)) c) (Cmult (RtoC (if Nat.odd j then -1 else 1)) (fpow (K := CF) (step delta e) j))) (Cmult (Cmult (RtoC (- delta / 3)) (RtoC (if Nat.odd j then -1 else 1))) (Cmult c (fpow (K := CF) (step delta e) j)))). ring. }
  assert (E0 : j = 0%nat -> lsum (K := CF) (map fst terms) = g).
  { intros ->. unfold g. apply (lsum_map_ext CF). intros [c e] _. cbn. change (@eq C c (Cmult c (RtoC 1))). ring. }
  unfold gser. destruct quad; [| |easy]; unfold geo, geo_d.
  - change (@eq C (Cplus (lsum (K := CF) (map (fun t : C * C => Cmult (fst t) (fpow (K := CF) (snd t) j)) (map (fun ce => (Cmult (RtoC delta) (fst ce), step delta (snd ce))) terms)))
      (if (j =? 0)%nat then Cmult (RtoC (- delta / 2)) (lsum (K := CF) (map fst terms)) else RtoC 0)) (Cmult (RtoC (open_weight QTrapz delta j)) g)).
    rewrite E1. unfold open_weight. destruct (Nat.eqb_spec j 0) as [Ej|Ej].
    + rewrite (E0 Ej). clearbody g. apply C_ext; cbn; field.
    + apply Cplus_0_r.
  - change (@eq C (Cplus (lsum (K := CF) (map (fun t : C * C => Cmult (fst t) (fpow (K := CF) (snd t) j)) (map (fun ce => (Cmult (RtoC delta) (fst ce), step delta (snd ce))) terms ++ map (fun ce => (Cmult (RtoC (- delta / 3)) (fst ce), Copp (step delta (snd ce)))) terms)))
      (if (j =? 0)%nat then Cmult (RtoC (- delta / 3)) (lsum (K := CF) (map fst terms)) else RtoC 0)) (Cmult (RtoC (open_weight QSimps delta j)) g)).
    rewrite map_app, lsum_app_C, E1, E2. unfold open_weight. destruct (Nat.eqb_spec j 0) as [Ej|Ej].
    + rewrite (E0 Ej). subst j. clearbody g. apply C_ext; cbn; field.
    + clearbody g. destruct (Nat.odd j); apply C_ext; cbn; field.
Qed.
Lemma geo_len quad delta terms : length (geo quad delta terms) = n_exp quad terms.
Proof. destruct quad; unfold geo, n_exp; rewrite ?app_length, !map_length; lia. Qed.

Lemma quad_weight_ok quad delta g w : quad_weight quad delta g = Ok w ->
  quad <> QOther /\ length w = length g /\ forall j, (j < length g)%nat -> nth j w (RtoC 0) = Cmult (RtoC (open_weight quad delta j)) (nth j g (RtoC 0)).
Proof.
  destruct quad; cbn [quad_weight]; [| |discriminate].
  - unfold trapz_weight. change (@length (car CF) g) with (@length C g). cbv zeta. destruct (length g =? 0)%nat eqn:E0; intros H; [discriminate H|]. split; [discriminate|].
    match type of H with Ok ?r = _ => assert (Eg : w = r) by congruence end. subst w. split; [now rewrite map_length, seq_length|]. intros j Hj. rewrite nth_map_seq by exact Hj. cbn [andb]. unfold open_weight.
    destruct (Nat.eqb_spec j 0) as [->|_].
    + transitivity (Cmult (Cmult (Cmult (RtoC delta) (nth 0 g (RtoC 0))) (Cdiv (RtoC 1) (RtoC 2))) (RtoC 1)); [rewrite two_C; reflexivity|]. clear. generalize (nth 0 g (RtoC 0)). intros c. apply C_ext; cbn; field.
    + change (@eq C (Cmult (Cmult (Cmult (RtoC delta) (nth j g (RtoC 0))) (RtoC 1)) (RtoC 1)) (Cmult (RtoC delta) (nth j g (RtoC 0)))). ring.
  - unfold simps_weight. change (@length (car CF) g) with (@length C g). cbv zeta. cbn [andb]. intros H. split; [discriminate|].
    match type of H with Ok ?r = _ => assert (Eg : w = r) by congruence end. subst w. split; [now rewrite map_length, seq_length|]. intros j Hj. rewrite nth_map_seq by exact Hj. unfold open_weight, simps_factor.
    assert (T3 : Fadd (two (K := CF)) F1 = RtoC 3) by (rewrite two_C; cbn; apply C_ext; cbn; ring).
    assert (T4 : Fmul (two (K := CF)) two = RtoC 4) by (rewrite two_C; cbn; apply C_ext; cbn; ring). rewrite T3, T4, two_C.
    transitivity (Cmult (Cmult (Cdiv (RtoC delta) (RtoC 3)) (nth j g (RtoC 0))) (if (j =? 0)%nat then RtoC 1 else if Nat.odd j then RtoC 4 else RtoC 2)); [reflexivity|].
    generalize (nth j g (RtoC 0)). intros c. destruct (j =? 0)%nat; [|destruct (Nat.odd j)]; apply C_ext; cbn; field.
Qed.
Lemma quad_weight_total quad delta g : quad <> QOther -> g <> [] -> exists w, quad_weight quad delta g = Ok w.
Proof.
  intros Hq Hg. destruct quad; [| |easy]; cbn [quad_weight].
  - unfold trapz_weight. change (@length (car CF) g) with (@length C g). cbv zeta. destruct (Nat.eqb_spec (length g) 0) as [E|E]; [now apply length_zero_iff_nil in E|]. eauto.
  - unfold simps_weight. change (@length (car CF) g) with (@length C g). cbv zeta. cbn [andb]. eauto.
Qed.

Lemma cpoly_pv (p : list C) y : cpoly p y = pv (K := CF) p y.
Proof.
  induction p as [|c p IH]; [reflexivity|]. cbn [cpoly]. rewrite IH. unfold pv. cbn [length]. rewrite (nsum_S_l CF). cbn [nth].
  match goal with |- @eq _ _ (Fadd _ ?s) => assert (E : s = Cmult y (nsum (K := CF) (length p) (fun i => Cmult (nth i p (RtoC 0)) (fpow (K := CF) y i)))) end.
  { symmetry. refine (eq_trans (eq_sym (nsum_mul_l CF (length p) y (fun i => Cmult (nth i p (RtoC 0)) (fpow (K := CF) y i)))) _). apply (nsum_ext CF). intros i Hi. rewrite fpow_S.
    change (@eq C (Cmult y (Cmult (nth i p (RtoC 0)) (fpow (K := CF) y i))) (Cmult (nth i p (RtoC 0)) (Cmult y (fpow (K := CF) y i)))). ring. }
  rewrite E. match goal with |- Cplus c (Cmult y ?a) = _ => change (@eq C (Cplus c (Cmult y a)) (Cplus (Cmult c (RtoC 1)) (Cmult y a))) end. ring.
Qed.

(** ** The value: limit of the quadrature sums *)
Lemma gval_limit (l : list (C * C)) d y : (forall t, In t l -> Cmod (Cmult (snd t) y) < 1) ->
  is_lim_seq (fun N => Cmod (Cminus (nsum (K := CF) N (fun j => Cmult (gser (K := CF) l d j) (fpow (K := CF) y j))) (gval (K := CF) l d y))) 0.
Proof.
  intros Hc. apply is_lim_seq_incr_1.
  assert (Hr : regular (K := CF) l y).
  { intros t Ht E. specialize (Hc t Ht). assert (E' : Cmult (snd t) y = RtoC 1).
    { transitivity (Cminus (RtoC 1) (Cminus (RtoC 1) (Cmult (snd t) y))); [ring|]. rewrite (E : Cminus (RtoC 1) (Cmult (snd t) y) = RtoC 0). ring. }
    assert (Hc' : Cmod (RtoC 1) < 1) by exact (eq_ind _ (fun x => Cmod x < 1) Hc _ E'). rewrite Cmod_1 in Hc'. lra. }
  apply (is_lim_seq_ext (fun N => Cmod (lsum (K := CF) (map (fun t : C * C => Cdiv (Cmult (fst t) (fpow (K := CF) (Cmult (snd t) y) (S N))) (Cminus (RtoC 1) (Cmult (snd t) y))) l)))).
  { intros N. rewrite <- Cmod_opp. f_equal. assert (G := gser_partial (K := CF) l d y N Hr).
    change (Fdiv (f := CF)) with Cdiv in G. 
    transitivity (Cminus (gval (K := CF) l d y - lsum (K := CF) (map (fun t : C * C => Cdiv (Cmult (fst t) (fpow (K := CF) (Cmult (snd t) y) (S N))) (Cminus (RtoC 1) (Cmult (snd t) y))) l))%C (gval (K := CF) l d y)).
    - ring.
    - f_equal. exact (eq_sym G). }
  clear Hr. induction l as [|t l IH].
  - cbn. rewrite Cmod_0. apply is_lim_seq_const.
  - specialize (IH (fun s Hs => Hc s (or_intror Hs))). specialize (Hc t (or_introl eq_refl)).
    apply (is_lim_seq_le_le (fun _ => 0) _ (fun N => Cmod (fst t) / Cmod (Cminus (RtoC 1) (Cmult (snd t) y)) * (Cmod (Cmult (snd t) y) * Cmod (Cmult (snd t) y) ^ N)
      + Cmod (lsum (K := CF) (map (fun t : C * C => Cdiv (Cmult (fst t) (fpow (K := CF) (Cmult (snd t) y) (S N))) (Cminus (RtoC 1) (Cmult (snd t) y))) l)))).
    + intros N. split; [apply Cmod_ge_0|]. cbn [map]. rewrite lsum_cons.
      eapply Rle_trans; [apply Cmod_triangle|]. apply Rplus_le_compat_r.
      destruct (Ceq_dec (Cminus (RtoC 1) (Cmult (snd t) y)) (RtoC 0)) as [E|E].
      { exfalso. assert (E' : Cmult (snd t) y = RtoC 1) by (transitivity (Cminus (RtoC 1) (Cminus (RtoC 1) (Cmult (snd t) y))); [ring|]; rewrite E; ring). rewrite E', Cmod_1 in Hc. lra. }
      rewrite Cmod_div by exact E. rewrite Cmod_mult, Cmod_fpow. right. cbn [pow]. field. intros E0. apply E. now apply Cmod_eq_0.
    + apply is_lim_seq_const.
    + replace 0 with (Cmod (fst t) / Cmod (Cminus (RtoC 1) (Cmult (snd t) y)) * (Cmod (Cmult (snd t) y) * 0) + 0) by ring.
      apply is_lim_seq_plus'; [|exact IH]. apply (is_lim_seq_scal_l _ _ (Finite _)). apply (is_lim_seq_scal_l _ _ (Finite 0)).
      apply is_lim_seq_geom. rewrite Rabs_pos_eq by apply Cmod_ge_0. exact Hc.
Qed.
