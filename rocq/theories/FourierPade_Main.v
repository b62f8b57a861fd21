(** * Fourier-Padé transforms: accuracy and exactness *)
From Coq Require Import List Arith ZArith Reals Lia Lra Bool Field FinFun.
From Coquelicot Require Import Coquelicot.
From Verif Require Import Base FSum CBase CExp Herm_Model Herm_Spec Herm_Proofs Herm_Proofs2 HermEval_Model HermEval_Proofs LinPred_Model LinPred_Proofs LinPred_Burg Mat Pole_Proofs Fourier_Model Fourier_Quad
  FourierPade_Model FourierPade_Ser FourierPade_Proofs.
Import ListNotations.
Local Open Scope R_scope.

Section Covar.
Context {K : Fld}.
Add Field cov_field : (Fth K).
Local Open Scope fld_scope.
Lemma gden_head (l : list (K * K)) : nth 0 (gden l) 0 = 1.
Proof. induction l as [|t l IH]; [reflexivity|]. cbn [gden fold_right]. rewrite lin_mul_nth. fold (gden l). rewrite IH. cbn. ring. Qed.
(** the covariance method solves a consistent system exactly *)
Lemma covar_consistent lstsq : lstsq_ok lstsq -> forall (w : list K) o coeff res (f : nat -> K) c0, (0 < o)%nat -> pcoeff_covar lstsq w o = Ok (coeff, res) -> starts_with f w ->
  (length c0 <= o)%nat -> (forall k, (o <= k)%nat -> (k < length w)%nat -> ser_mul (ser_of (1 :: c0)) f k = 0) ->
  length coeff = o /\ forall k, (o <= k)%nat -> (k < length w)%nat -> ser_mul (ser_of (1 :: coeff)) f k = 0.
Proof.
  intros Hls w o coeff res f c0 Ho. unfold pcoeff_covar. destruct (Nat.leb_spec (length w) o) as [|HL]; [discriminate|].
  set (X := toeplitz _ _). intros [= <- <-] Hf Lc0 H0. set (coeff := lstsq X (map Fopp (skipn o w))) in *.
  assert (HX : length X = (length w - o)%nat) by (unfold X; rewrite toeplitz_length, firstn_length, skipn_length; lia).
  assert (Hrow : forall i, (i < length w - o)%nat -> nth i X [] = map (fun j => nth (o - 1 + i - j) w 0) (seq 0 o)).
  { intros i Hi. apply covar_row; lia. }
  assert (Hlen : forall row, In row X -> length row = o).
  { intros row Hin. destruct (In_nth X row [] Hin) as (i & Hi & <-). rewrite Hrow by lia. now rewrite map_length, seq_length. }
  destruct (Hls X (map Fopp (skipn o w)) o) as [Hc Hex].
  { intros E. rewrite E in HX. cbn in HX. lia. }
  { rewrite map_length, skipn_length. lia. }
  { exact Hlen. }
  fold coeff in Hc, Hex. split; [exact Hc|].
  (* a row of the system is the convolution *)
  assert (KEY : forall c : list K, length c = o -> forall k, (o <= k)%nat -> (k < length w)%nat -> ser_mul (ser_of (1 :: c)) f k = nth k w 0 + dot (nth (k - o) X []) c).
  { intros c Lc k Hk1 Hk2. rewrite Hrow by lia. rewrite (dot_nsum K _ _ o); [|now rewrite map_length, seq_length|exact Lc].
    unfold ser_mul. rewrite nsum_S_l. unfold ser_of at 1. cbn [nth]. rewrite Nat.sub_0_r, (Hf k Hk2).
    rewrite (nsum_extend K o k).
    - transitivity (nth k w 0 + nsum o (fun i => ser_of (1 :: c) (S i) * f (k - S i)%nat)); [ring|]. f_equal. apply nsum_ext. intros i Hi. rewrite nth_map_seq by lia. unfold ser_of. cbn [nth].
      rewrite Hf by lia. replace (o - 1 + (k - o) - i)%nat with (k - S i)%nat by lia. ring.
    - exact Hk1.
    - intros i Hi. unfold ser_of. cbn [nth]. rewrite nth_overflow by lia. ring. }
  set (c1 := c0 ++ repeat 0 (o - length c0)). assert (L1 : length c1 = o) by (unfold c1; rewrite app_length, repeat_length; lia).
  assert (HS : matvec X c1 = map Fopp (skipn o w)).
  { apply (list_ext _ _ 0); [unfold matvec; rewrite !map_length, skipn_length; lia|]. unfold matvec at 1. rewrite map_length. intros i Hi. unfold matvec. rewrite (nth_map_in _ _ _ _ []) by exact Hi.
    rewrite (nth_map_in _ _ _ _ 0) by (rewrite skipn_length; lia). rewrite nth_skipn'.
    assert (E := KEY c1 L1 (o + i)%nat ltac:(lia) ltac:(lia)). replace (o + i - o)%nat with i in E by lia.
    assert (E0 : ser_mul (ser_of (1 :: c1)) f (o + i) = 0).
    { rewrite <- (H0 (o + i)%nat) by lia. unfold ser_mul. apply nsum_ext. intros j Hj. f_equal. unfold ser_of. destruct j as [|j]; [reflexivity|]. cbn [nth]. unfold c1.
      destruct (Nat.lt_ge_cases j (length c0)) as [Hjl|Hjl]; [now rewrite app_nth1|]. rewrite app_nth2, nth_overflow with (l := c0) by exact Hjl.
      destruct (Nat.lt_ge_cases (j - length c0) (o - length c0)) as [Hx|Hx]; [|now rewrite nth_overflow by (rewrite repeat_length; exact Hx)].
      apply nth_repeat. }
    match goal with |- ?a = - ?b => transitivity ((b + a) - b); [ring|]; assert (E2 : b + a = 0) by (rewrite <- E; exact E0); rewrite E2; ring end. }
  specialize (Hex c1 L1 HS). intros k Hk1 Hk2. rewrite (KEY coeff Hc k Hk1 Hk2).
  assert (E : nth (k - o) (matvec X coeff) 0 = nth (k - o) (map Fopp (skipn o w)) 0) by now rewrite Hex.
  unfold matvec in E. rewrite (nth_map_in _ _ _ _ []) in E by lia. rewrite (nth_map_in _ _ _ _ 0) in E by (rewrite skipn_length; lia). rewrite nth_skipn' in E.
  replace (o + (k - o))%nat with k in E by lia. rewrite E. ring.
Qed.
End Covar.

(** contract of the Padé algorithm *)
Definition pade_contract (pade_fn : list C -> nat -> nat -> result (list C * list C)) : Prop :=
  forall an num den p q, pade_fn an num den = Ok (p, q) -> length p = S num /\ length q = S den /\ nonzero (K := CF) q /\ accurate (K := CF) p q an (num + den + 1).
(** the argument of the rational function *)
Definition yarg (z : C) (delta : R) : C := cexp (Cmult (Cmult Ci z) (RtoC delta)).
(** condition that no exponential is resonant with the frequency *)
Definition off_poles (quad : quad_kind) (delta : R) (terms : list (C * C)) (z : C) : Prop :=
  forall ce, In ce terms -> Cmult (step delta (snd ce)) (yarg z delta) <> RtoC 1 /\ (quad = QSimps -> Cmult (step delta (snd ce)) (yarg z delta) <> RtoC (-1)).

Lemma geo_regular quad delta terms z : off_poles quad delta terms z -> regular (K := CF) (geo quad delta terms) (yarg z delta).
Proof.
  intros H t Ht E. assert (E1 : Cmult (snd t) (yarg z delta) = RtoC 1).
  { transitivity (Cminus (RtoC 1) (Cminus (RtoC 1) (Cmult (snd t) (yarg z delta)))); [ring|]. rewrite (E : Cminus (RtoC 1) (Cmult (snd t) (yarg z delta)) = RtoC 0). ring. }
  clear E. destruct quad; unfold geo in Ht.
  - apply in_map_iff in Ht. destruct Ht as (ce & <- & Hce). exact (proj1 (H ce Hce) E1).
  - apply in_app_or in Ht. destruct Ht as [Ht|Ht]; apply in_map_iff in Ht; destruct Ht as (ce & <- & Hce).
    + exact (proj1 (H ce Hce) E1).
    + apply (proj2 (H ce Hce) eq_refl). cbn [snd] in E1. transitivity (Copp (Cmult (Copp (step delta (snd ce))) (yarg z delta))); [ring|]. rewrite E1. apply C_ext; cbn; ring.
  - apply in_map_iff in Ht. destruct Ht as (ce & <- & Hce). exact (proj1 (H ce Hce) E1).
Qed.
Lemma step_y delta eps z : Cmult (step delta eps) (yarg z delta) = cexp (Cmult (Cmult Ci (Cminus z eps)) (RtoC delta)).
Proof. unfold step, yarg. rewrite <- cexp_add. f_equal. ring. Qed.
Lemma step_y_mod delta eps z : 0 < delta -> snd eps < snd z -> Cmod (Cmult (step delta eps) (yarg z delta)) < 1.
Proof.
  intros Hd He. rewrite step_y, Cmod_cexp. rewrite <- exp_0. apply exp_increasing. destruct z as [x y], eps as [a b]. cbn in *. 
  replace ((0 * (x + - a) - 1 * (y + - b)) * delta - (0 * (y + - b) + 1 * (x + - a)) * 0) with (- (delta * (y - b))) by ring. assert (0 < delta * (y - b)) by (apply Rmult_lt_0_compat; lra). lra.
Qed.
Lemma upper_off quad delta terms z : 0 < delta -> (forall ce, In ce terms -> snd (snd ce) < snd z) -> off_poles quad delta terms z.
Proof.
  intros Hd H ce Hce. assert (M := step_y_mod delta (snd ce) z Hd (H ce Hce)). split.
  - intros E. rewrite E, Cmod_1 in M. lra.
  - intros _ E. rewrite E in M. replace (RtoC (-1)) with (Copp (RtoC 1)) in M by (apply C_ext; cbn; ring). rewrite Cmod_opp, Cmod_1 in M. lra.
Qed.
Lemma geo_decay quad delta terms z : 0 < delta -> (forall ce, In ce terms -> snd (snd ce) < snd z) -> forall t, In t (geo quad delta terms) -> Cmod (Cmult (snd t) (yarg z delta)) < 1.
Proof.
  intros Hd H t Ht.
  assert (Hm : forall ce, In ce terms -> Cmod (Cmult (Copp (step delta (snd ce))) (yarg z delta)) < 1).
  { intros ce Hce. replace (Cmult (Copp (step delta (snd ce))) (yarg z delta)) with (Copp (Cmult (step delta (snd ce)) (yarg z delta))) by ring. rewrite Cmod_opp. apply step_y_mod; [exact Hd|now apply H]. }
  destruct quad; unfold geo in Ht.
  2: apply in_app_or in Ht; destruct Ht as [Ht|Ht].
  all: apply in_map_iff in Ht; destruct Ht as (ce & <- & Hce); cbn [snd]; (apply Hm; exact Hce) || (apply step_y_mod; [exact Hd|now apply H]).
Qed.

(** the value the transforms are compared with *)
Definition laplace_val (quad : quad_kind) (delta : R) (terms : list (C * C)) (z : C) : C := gval (K := CF) (geo quad delta terms) (geo_d quad delta terms) (yarg z delta).
Lemma laplace_val_trapz delta terms z :
  laplace_val QTrapz delta terms z = Cmult (RtoC delta) (lsum (K := CF) (map (fun ce => Cminus (Cdiv (fst ce) (Cminus (RtoC 1) (cexp (Cmult (Cmult Ci (Cminus z (snd ce))) (RtoC delta))))) (Cdiv (fst ce) (RtoC 2))) terms)).
Proof.
  unfold laplace_val, gval, geo, geo_d. rewrite map_map. induction terms as [|ce l IH].
  - cbn. apply C_ext; cbn; ring.
  - cbn [map] in *. rewrite !lsum_cons in *. cbn [fst snd] in *.
    change (@eq C (Cplus (Cmult (RtoC (- delta / 2)) (Cplus (fst ce) (lsum (K := CF) (map fst l)))) (Cplus (Cdiv (Cmult (RtoC delta) (fst ce)) (Cminus (RtoC 1) (Cmult (step delta (snd ce)) (yarg z delta)))) (lsum (K := CF) (map (fun x => Cdiv (Cmult (RtoC delta) (fst x)) (Cminus (RtoC 1) (Cmult (step delta (snd x)) (yarg z delta)))) l))))
      (Cmult (RtoC delta) (Cplus (Cminus (Cdiv (fst ce) (Cminus (RtoC 1) (cexp (Cmult (Cmult Ci (Cminus z (snd ce))) (RtoC delta))))) (Cdiv (fst ce) (RtoC 2))) (lsum (K := CF) (map (fun ce => Cminus (Cdiv (fst ce) (Cminus (RtoC 1) (cexp (Cmult (Cmult Ci (Cminus z (snd ce))) (RtoC delta))))) (Cdiv (fst ce) (RtoC 2))) l))))).
    change (@eq C (Cplus (Cmult (RtoC (- delta / 2)) (lsum (K := CF) (map fst l))) (lsum (K := CF) (map (fun x => Cdiv (Cmult (RtoC delta) (fst x)) (Cminus (RtoC 1) (Cmult (step delta (snd x)) (yarg z delta)))) l)))
      (Cmult (RtoC delta) (lsum (K := CF) (map (fun ce => Cminus (Cdiv (fst ce) (Cminus (RtoC 1) (cexp (Cmult (Cmult Ci (Cminus z (snd ce))) (RtoC delta))))) (Cdiv (fst ce) (RtoC 2))) l)))) in IH.
    set (A := lsum (K := CF) (map fst l)) in *.
    match type of IH with Cplus _ ?b = Cmult _ ?c => set (B := b) in *; set (D := c) in * end.
    transitivity (Cplus (Cplus (Cmult (RtoC (- delta / 2)) (fst ce)) (Cdiv (Cmult (RtoC delta) (fst ce)) (Cminus (RtoC 1) (Cmult (step delta (snd ce)) (yarg z delta))))) (Cplus (Cmult (RtoC (- delta / 2)) A) B)); [ring|].
    rewrite IH. rewrite step_y. unfold Cdiv. replace (RtoC (- delta / 2)) with (Copp (Cmult (RtoC delta) (Cinv (RtoC 2)))) by (apply C_ext; cbn; field). ring.
Qed.
Lemma laplace_val_limit quad delta terms z : quad <> QOther -> 0 < delta -> (forall ce, In ce terms -> snd (snd ce) < snd z) ->
  is_lim_seq (fun N => Cmod (Cminus (nsum (K := CF) N (fun j => Cmult (RtoC (open_weight quad delta j)) (Cmult (signal terms (INR j * delta)) (cexp (Cmult (Cmult Ci z) (RtoC (INR j * delta))))))) (laplace_val quad delta terms z))) 0.
Proof.
  intros Hq Hd H. eapply is_lim_seq_ext; [|exact (gval_limit (geo quad delta terms) (geo_d quad delta terms) (yarg z delta) (geo_decay quad delta terms z Hd H))].
  intros N. cbv beta. f_equal. unfold laplace_val. f_equal. apply (nsum_ext CF). intros j Hj. rewrite geo_gser by exact Hq.
  assert (E : cexp (Cmult (Cmult Ci z) (RtoC (INR j * delta))) = fpow (K := CF) (yarg z delta) j) by (unfold yarg; rewrite <- cexp_fpow; f_equal; rewrite RtoC_mult; ring).
  rewrite E. cring.
Qed.

Section TT.
Variable close : R -> R -> bool.
Theorem tt2z_pade_spec pade_fn tt gf_t z degree quad v : pade_contract pade_fn -> tt2z_pade close pade_fn tt gf_t z degree quad = Ok v ->
  nth 0 tt 0 = 0 /\ (2 <= length tt)%nat /\ length gf_t = length tt /\ quad <> QOther /\
  exists w p q num den, (Z.of_nat num = Z.of_nat den + degree + 1)%Z /\ (length tt - 1 <= num + den + 1 <= length tt)%nat /\
    length w = length tt /\ (forall j, (j < length tt)%nat -> nth j w (RtoC 0) = Cmult (RtoC (open_weight quad (nth 1 tt 0) j)) (nth j gf_t (RtoC 0))) /\
    length p = S num /\ length q = S den /\ nonzero (K := CF) q /\ accurate (K := CF) p q w (num + den + 1) /\
    cpoly q (yarg z (nth 1 tt 0)) <> RtoC 0 /\ v = Cdiv (cpoly p (yarg z (nth 1 tt 0))) (cpoly q (yarg z (nth 1 tt 0))).
Proof.
  intros HC. unfold tt2z_pade. destruct (Nat.ltb_spec (length tt) 2) as [|Hn]; [discriminate|]. cbv zeta.
  destruct (equidistant close tt); cbn [negb]; [|discriminate]. destruct (is_quad quad); cbn [negb]; [|discriminate].
  destruct (Req_EM_T (nth 0 tt 0) 0) as [E0|]; [|discriminate]. destruct (Nat.eqb_spec (length tt) (length gf_t)) as [Hl|]; cbn [negb]; [|discriminate].
  rewrite E0, Rminus_0_r. destruct (quad_weight quad (nth 1 tt 0) gf_t) as [w|] eqn:EW; cbn [bind]; [|discriminate].
  destruct (quad_weight_ok _ _ _ _ EW) as (Hq & Lw & Hw).
  set (deg := ((Z.of_nat (length w) - (degree + 1) - 1) / 2)%Z). destruct ((deg <? 0) || (deg + (degree + 1) <? 0))%Z eqn:EB; [discriminate|].
  apply orb_false_iff in EB. destruct EB as [B1 B2]. apply Z.ltb_ge in B1. apply Z.ltb_ge in B2.
  destruct (pade_fn w _ _) as [[p q]|] eqn:EP; cbn [bind fst snd]; [|discriminate]. destruct (HC _ _ _ _ _ EP) as (Lp & Lq & Nq & Acc).
  unfold ratpol_eval. fold (yarg z (nth 1 tt 0)). destruct (Ceq_dec _ _) as [|Hy]; [discriminate|]. intros H. split; [reflexivity|]. split; [exact Hn|]. split; [now rewrite Hl|]. split; [exact Hq|].
  exists w, p, q, (Z.to_nat (deg + (degree + 1))), (Z.to_nat deg). split; [lia|]. split.
  - assert (D1 : (2 * deg <= Z.of_nat (length w) - (degree + 1) - 1)%Z) by (apply Z.mul_div_le; lia).
    assert (D2 : (Z.of_nat (length w) - (degree + 1) - 1 < 2 * deg + 2)%Z).
    { unfold deg. set (a := (Z.of_nat (length w) - (degree + 1) - 1)%Z). assert (M := Z.mod_pos_bound a 2 ltac:(lia)). assert (D := Z.div_mod a 2 ltac:(lia)). lia. }
    lia.
  - split; [congruence|]. split; [intros j Hj; apply Hw; lia|]. split; [exact Lp|]. split; [exact Lq|]. split; [exact Nq|]. split; [exact Acc|]. split; [exact Hy|]. congruence.
Qed.

Lemma grid_len delta N : length (grid delta N) = N. Proof. unfold grid. now rewrite map_length, seq_length. Qed.
Lemma grid_nth delta N j : (j < N)%nat -> nth j (grid delta N) 0 = INR j * delta.
Proof. intros H. unfold grid. now rewrite nth_map_seq. Qed.
Lemma samples_len terms delta N : length (samples terms delta N) = N. Proof. unfold samples. now rewrite map_length, seq_length. Qed.
Lemma samples_nth terms delta N j : (j < N)%nat -> nth j (samples terms delta N) (RtoC 0) = signal terms (INR j * delta).
Proof. intros H. unfold samples. now rewrite nth_map_seq. Qed.
Lemma geo_starts quad delta terms N w : quad <> QOther -> length w = N ->
  (forall j, (j < N)%nat -> nth j w (RtoC 0) = Cmult (RtoC (open_weight quad delta j)) (nth j (samples terms delta N) (RtoC 0))) ->
  starts_with (K := CF) (gser (K := CF) (geo quad delta terms) (geo_d quad delta terms)) w.
Proof.
  intros Hq Lw Hw i Hi. change (@length (car CF) w) with (@length C w) in Hi. rewrite Lw in Hi. rewrite geo_gser by exact Hq. symmetry. rewrite <- (samples_nth terms delta N) by exact Hi. exact (Hw i Hi).
Qed.

Theorem tt2z_pade_exact pade_fn terms delta N z degree quad v : pade_contract pade_fn -> off_poles quad delta terms z ->
  (2 * Z.of_nat (n_exp quad terms) + Z.abs (degree + 1) + 1 <= Z.of_nat N)%Z ->
  tt2z_pade close pade_fn (grid delta N) (samples terms delta N) z degree quad = Ok v -> v = laplace_val quad delta terms z.
Proof.
  intros HC Hoff HN H. destruct (tt2z_pade_spec _ _ _ _ _ _ _ HC H) as (_ & H2 & _ & Hq & w & p & q & num & den & Hd & Hr & Lw & Hw & Lp & Lq & _ & Acc & Hy & ->).
  rewrite grid_len in *. rewrite (grid_nth delta N 1) in * by lia. replace (INR 1 * delta) with delta in * by (cbn; ring).
  assert (St := geo_starts quad delta terms N w Hq Lw Hw). specialize (Acc _ St).
  rewrite !cpoly_pv in *.
  assert (HL1 : (n_exp quad terms <= num)%nat) by lia. assert (HL2 : (n_exp quad terms <= den)%nat) by lia.
  apply (geom_exact (K := CF) p q (geo quad delta terms) (geo_d quad delta terms) (num + den + 1)).
  - exact Acc.
  - change (@length C p = S num) in Lp. assert (HA : (@length C p + S (@length (C * C) (geo quad delta terms)) <= S (num + den + 1))%nat) by (rewrite geo_len, Lp; lia). exact HA.
  - change (@length C q = S den) in Lq. assert (HA : (@length C q + S (@length (C * C) (geo quad delta terms)) <= S (num + den + 1))%nat) by (rewrite geo_len, Lq; lia). exact HA.
  - now apply geo_regular.
  - exact Hy.
Qed.

Lemma grid_equidistant delta N : (2 <= N)%nat -> (forall x, close x x = true) -> equidistant close (grid delta N) = true.
Proof.
  intros HN Hc. unfold equidistant. apply forallb_forall. intros d Hd. unfold diff in Hd. apply in_map_iff in Hd. destruct Hd as (k & <- & Hk). apply in_seq in Hk. rewrite grid_len in Hk.
  rewrite !grid_nth by lia. rewrite S_INR. replace ((INR k + 1) * delta - INR k * delta) with (INR 1 * delta - INR 0 * delta) by (cbn; ring). apply Hc.
Qed.
(** distinct exponentials with non-vanishing amplitudes; Simpson's rule adds the negative steps *)
Definition separated (quad : quad_kind) (delta : R) (terms : list (C * C)) : Prop :=
  delta <> 0 /\ (forall ce, In ce terms -> fst ce <> RtoC 0) /\ NoDup (map (fun ce => step delta (snd ce)) terms) /\
  (quad = QSimps -> forall a b, In a terms -> In b terms -> step delta (snd a) <> Copp (step delta (snd b))).
Lemma NoDup_app_intro {A} (l l' : list A) : NoDup l -> NoDup l' -> (forall x, In x l -> ~ In x l') -> NoDup (l ++ l').
Proof.
  induction l as [|a l IH]; intros H1 H2 H; [exact H2|]. cbn. inversion H1; subst. constructor.
  - intros Hin. apply in_app_or in Hin. destruct Hin as [Hin|Hin]; [easy|]. apply (H a); [now left|exact Hin].
  - apply IH; try assumption. intros x Hx. apply H. now right.
Qed.
Lemma geo_proper quad delta terms : separated quad delta terms -> proper (K := CF) (geo quad delta terms).
Proof.
  intros (Hd & Hc & HN & HS).
  assert (Hs : forall e, step delta e <> RtoC 0) by (intros e; apply cexp_neq_0).
  assert (Hd' : RtoC delta <> RtoC 0) by (intros E; apply Hd; now injection E).
  assert (Hd3 : RtoC (- delta / 3) <> RtoC 0) by (intros E; apply Hd; injection E; lra).
  assert (P : proper (K := CF) (map (fun ce => (Cmult (RtoC delta) (fst ce), step delta (snd ce))) terms)).
  { split.
    - rewrite map_map. exact HN.
    - intros t Ht. apply in_map_iff in Ht. destruct Ht as (ce & <- & Hce). cbn [fst snd]. split; [|apply Hs]. apply Cmult_neq_0; [exact Hd'|now apply Hc]. }
  unfold geo. destruct quad; [exact P| |exact P]. destruct P as [P1 P2]. split.
  - rewrite map_app. apply NoDup_app_intro; [exact P1| |].
    + rewrite map_map. cbn [snd]. rewrite <- (map_map (fun ce => step delta (snd ce)) Copp). apply FinFun.Injective_map_NoDup; [|exact HN].
      intros a b E. transitivity (Copp (Copp a)); [ring|]. rewrite E. ring.
    + intros x Hx Hx'. rewrite map_map in Hx, Hx'. apply in_map_iff in Hx. apply in_map_iff in Hx'. destruct Hx as (a & <- & Ha), Hx' as (b & Hb & Hb'). cbn [snd] in Hb.
      exact (HS eq_refl a b Ha Hb' (eq_sym Hb)).
  - intros t Ht. apply in_app_or in Ht. destruct Ht as [Ht|Ht]; [now apply P2|]. apply in_map_iff in Ht. destruct Ht as (ce & <- & Hce). cbn [fst snd]. split.
    + apply Cmult_neq_0; [exact Hd3|now apply Hc].
    + intros E. apply (Hs (snd ce)). transitivity (Copp (Copp (step delta (snd ce)))); [ring|]. change (Copp (step delta (snd ce)) = RtoC 0) in E. rewrite E. ring.
Qed.
(** with 2n+1 or 2n+2 samples and n exponentials the transform succeeds and is exact *)
Theorem tt2z_pade_resolves pade_fn terms delta N z quad : pade_contract pade_fn ->
  (forall an num den, (num + den + 1 <= length an)%nat -> exists p q, pade_fn an num den = Ok (p, q)) -> (forall x, close x x = true) ->
  quad <> QOther -> (1 <= n_exp quad terms)%nat -> (2 * n_exp quad terms + 1 <= N <= 2 * n_exp quad terms + 2)%nat -> separated quad delta terms -> off_poles quad delta terms z ->
  tt2z_pade close pade_fn (grid delta N) (samples terms delta N) z (-1) quad = Ok (laplace_val quad delta terms z).
Proof.
  intros HC HT Hcl Hq Hn HN Hs Hoff.
  assert (HE : exists v, tt2z_pade close pade_fn (grid delta N) (samples terms delta N) z (-1) quad = Ok v).
  { unfold tt2z_pade. rewrite grid_len, samples_len. rewrite (proj2 (Nat.ltb_ge N 2)) by lia. cbv zeta. rewrite grid_equidistant by (lia || exact Hcl). cbn [negb].
    assert (EQ : is_quad quad = true) by (destruct quad; easy). rewrite EQ. cbn [negb]. rewrite !grid_nth by lia.
    destruct (Req_EM_T (INR 0 * delta) 0) as [_|Ne]; [|exfalso; apply Ne; cbn; ring]. rewrite Nat.eqb_refl. cbn [negb].
    replace (INR 1 * delta - INR 0 * delta) with delta by (cbn; ring).
    destruct (quad_weight_total quad delta (samples terms delta N) Hq) as (w & EW). { intros E. assert (L := samples_len terms delta N). rewrite E in L. cbn in L. lia. }
    rewrite EW. cbn [bind]. destruct (quad_weight_ok _ _ _ _ EW) as (_ & Lw & Hw). rewrite samples_len in Lw, Hw. change (@length C w = N) in Lw.
    assert (ED : ((Z.of_nat (@length C w) - (-1 + 1) - 1) / 2 = Z.of_nat (n_exp quad terms))%Z).
    { rewrite Lw. symmetry. apply (Z.div_unique _ _ _ (Z.of_nat N - 2 * Z.of_nat (n_exp quad terms) - 1)); lia. }
    rewrite ED. set (n := n_exp quad terms) in *. rewrite (proj2 (Z.ltb_ge (Z.of_nat n) 0)), (proj2 (Z.ltb_ge (Z.of_nat n + (-1 + 1)) 0)) by lia. cbn [orb].
    replace (Z.to_nat (Z.of_nat n + (-1 + 1))) with n by lia. rewrite Nat2Z.id.
    destruct (HT w n n) as (p & q & EP); [lia|]. rewrite EP. cbn [bind fst snd]. destruct (HC _ _ _ _ _ EP) as (Lp & Lq & Nq & Acc). fold (yarg z delta).
    unfold ratpol_eval. destruct (Ceq_dec _ _) as [E|_]; [|eauto]. exfalso. rewrite cpoly_pv in E. revert E.
    assert (St := geo_starts quad delta terms N w Hq Lw Hw). specialize (Acc _ St).
    apply (geom_den_neq (K := CF) p q (geo quad delta terms) (geo_d quad delta terms) (n + n + 1)).
    - exact Acc.
    - assert (HA : (@length C p + S (@length (C * C) (geo quad delta terms)) <= S (n + n + 1))%nat) by (rewrite geo_len, Lp; fold n; lia). exact HA.
    - assert (HA : (@length C q + S (@length (C * C) (geo quad delta terms)) <= S (n + n + 1))%nat) by (rewrite geo_len, Lq; fold n; lia). exact HA.
    - assert (HA : (@length C q <= S (@length (C * C) (geo quad delta terms)))%nat) by (rewrite geo_len, Lq; fold n; lia). exact HA.
    - exact Nq.
    - now apply geo_proper.
    - now apply geo_regular. }
  destruct HE as (v & HE). rewrite HE. f_equal. apply (tt2z_pade_exact pade_fn terms delta N z (-1) quad v HC Hoff); [lia|exact HE].
Qed.

(** ** Square Hermite-Padé *)
Theorem tt2z_herm2_spec (nullvec : list (list C) -> list C) (solve : list (list C) -> list C -> result (list C)) tt gf_t z quad v : nullvec_ok (K := CF) nullvec -> solve_ok (K := CF) solve ->
  tt2z_herm2 close (from_taylor (K := CF) nullvec solve) tt gf_t z quad = Ok v ->
  nth 0 tt 0 = 0 /\ 0 < snd z /\ quad <> QOther /\
  exists w p q r deg, (length gf_t = 3 * deg + 2 \/ length gf_t = 3 * deg + 3 \/ length gf_t = 3 * deg + 4)%nat /\
    length w = length gf_t /\ (forall j, (j < length gf_t)%nat -> nth j w (RtoC 0) = Cmult (RtoC (open_weight quad (nth 1 tt 0) j)) (nth j gf_t (RtoC 0))) /\
    length p = S deg /\ length q = S deg /\ length r = S deg /\ (nonzero (K := CF) q \/ nonzero (K := CF) r) /\ accurate2 (K := CF) p q r w (3 * deg + 2) /\
    HermEval_Proofs.quad p q r (yarg z (nth 1 tt 0)) v.
Proof.
  intros Hnv Hsv. unfold tt2z_herm2. destruct (Nat.ltb_spec (length tt) 2) as [|Hn]; [discriminate|]. cbv zeta.
  destruct (equidistant close tt); cbn [negb]; [|discriminate]. destruct (is_quad quad); cbn [negb]; [|discriminate].
  destruct (Req_EM_T (nth 0 tt 0) 0) as [E0|]; [|discriminate]. destruct (Rlt_dec 0 (snd z)) as [Hz|]; [|discriminate].
  rewrite E0, Rminus_0_r. destruct (quad_weight quad (nth 1 tt 0) gf_t) as [w|] eqn:EW; cbn [bind]; [|discriminate].
  destruct (quad_weight_ok _ _ _ _ EW) as (Hq & Lw & Hw). change (@length C w = length gf_t) in Lw. destruct (Nat.ltb_spec (@length C w) 2) as [|H2]; [discriminate|].
  set (deg := ((@length C w - 2) / 3)%nat). assert (D := Nat.div_mod (@length C w - 2) 3 ltac:(lia)). assert (M := Nat.mod_upper_bound (@length C w - 2) 3 ltac:(lia)). fold deg in D.
  destruct (from_taylor_total CF nullvec solve w deg deg deg Hnv) as (pqr & num & den & pq & EF & EH & Hnd & EP). { assert (HA : (deg + deg + deg + 2 <= @length C w)%nat) by lia. exact HA. }
  destruct pqr as [[p q] r]. destruct (hermite2_accurate CF nullvec Hnv w deg deg deg p q r EH) as (Lp & Lq & Lr & NZ & Acc).
  rewrite EF. cbn [bind fst snd]. intros H. split; [reflexivity|]. split; [exact Hz|]. split; [exact Hq|]. exists w, p, q, r, deg. split; [lia|]. split; [exact Lw|]. split; [exact Hw|].
  split; [exact Lp|]. split; [exact Lq|]. split; [exact Lr|]. split; [exact NZ|]. split; [replace (3 * deg + 2)%nat with (deg + deg + deg + 2)%nat by lia; exact Acc|].
  exact (proj1 (hermite2_eval_nearest p q r (fst pq) (snd pq) _ v H)).
Qed.

(** ** Linear prediction *)
Variable lstsq : list (list C) -> list C -> list C.
Theorem tt2z_lpz_exact terms delta N z order quad v : lstsq_ok (K := CF) lstsq -> off_poles quad delta terms z ->
  let o := match order with None => (N / 2)%nat | Some o => o end in
  (n_exp quad terms + 1 <= o)%nat -> (o + n_exp quad terms + 1 <= N)%nat ->
  tt2z_lpz close lstsq (grid delta N) (samples terms delta N) z order quad = Ok v -> v = laplace_val quad delta terms z.
Proof.
  intros Hls Hoff o Ho1 Ho2. unfold tt2z_lpz. rewrite grid_len. destruct (Nat.ltb_spec N 2) as [|Hn]; [discriminate|]. cbv zeta. fold o.
  destruct (equidistant close _); cbn [negb]; [|discriminate]. rewrite (grid_nth delta N 1), (grid_nth delta N 0) by lia. replace (INR 1 * delta - INR 0 * delta) with delta by (cbn; ring).
  destruct (quad_weight quad delta (samples terms delta N)) as [w|] eqn:EW; cbn [bind]; [|discriminate].
  destruct (quad_weight_ok _ _ _ _ EW) as (Hq & Lw & Hw). rewrite samples_len in Lw, Hw. change (@length C w = N) in Lw.
  assert (St := geo_starts quad delta terms N w Hq Lw Hw).
  destruct (pcoeff_covar (K := CF) lstsq w o) as [[coeff res]|] eqn:EC; cbn [bind fst]; [|discriminate].
  rewrite (proj2 (Nat.ltb_ge N (o + 1))) by lia.
  set (l := geo quad delta terms) in *. set (d := geo_d quad delta terms) in *. set (n := n_exp quad terms) in *. assert (Ll : @length (C * C) l = n) by apply geo_len.
  destruct (covar_consistent (K := CF) lstsq Hls w o coeff res (gser (K := CF) l d) (tl (gden (K := CF) l)) ltac:(lia) EC St) as [Lc HR].
  { assert (L := gden_len (K := CF) l). change (@length (car CF) (gden (K := CF) l) = S (@length (C * C) l)) in L. rewrite Ll in L. rewrite tl_length. lia. }
  { intros k Hk1 Hk2. assert (G := gser_rat (K := CF) l d k). unfold ser_of in G at 2. rewrite nth_overflow in G.
    2:{ assert (L := gnum_len (K := CF) l d). change (@length (car CF) (gnum (K := CF) l d) = S (@length (C * C) l)) in L. rewrite Ll in L. lia. }
    rewrite <- G. f_equal. destruct (gden (K := CF) l) as [|q0 q'] eqn:EQ.
    - assert (L := gden_len (K := CF) l). rewrite EQ in L. discriminate L.
    - cbn [tl]. assert (E1 := gden_head (K := CF) l). rewrite EQ in E1. cbn [nth] in E1. now rewrite E1. }
  set (aa := RtoC 1 :: coeff). set (convo := map _ (seq 0 o)).
  assert (PH : forall i, (i < N)%nat -> tphase z (nth i (grid delta N) 0) = fpow (K := CF) (yarg z delta) i).
  { intros i Hi. rewrite grid_nth by exact Hi. unfold tphase, yarg. rewrite <- cexp_fpow. f_equal. rewrite RtoC_mult. ring. }
  assert (EN : nsum (K := CF) o (fun i => Cmult (tphase z (nth i (grid delta N) 0)) (nth i convo (RtoC 0))) = pv (K := CF) convo (yarg z delta)).
  { unfold pv. assert (Lv : @length (car CF) convo = o) by (unfold convo; now rewrite map_length, seq_length). rewrite Lv. apply (nsum_ext CF). intros i Hi. rewrite PH by lia. change (@eq C (Cmult (fpow (K := CF) (yarg z delta) i) (nth i convo (RtoC 0))) (Cmult (nth i convo (RtoC 0)) (fpow (K := CF) (yarg z delta) i))). apply Cmult_comm. }
  assert (ED : nsum (K := CF) (o + 1) (fun i => Cmult (tphase z (nth i (grid delta N) 0)) (nth i aa (RtoC 0))) = pv (K := CF) aa (yarg z delta)).
  { unfold pv. assert (Lv : @length (car CF) aa = (o + 1)%nat) by (unfold aa; cbn [length]; change (@length (car CF) coeff = o) in Lc; rewrite Lc; lia). rewrite Lv. apply (nsum_ext CF). intros i Hi. rewrite PH by lia. change (@eq C (Cmult (fpow (K := CF) (yarg z delta) i) (nth i aa (RtoC 0))) (Cmult (nth i aa (RtoC 0)) (fpow (K := CF) (yarg z delta) i))). apply Cmult_comm. }
  rewrite EN, ED. destruct (Ceq_dec _ _) as [|Hne]; [discriminate|]. intros [= <-]. unfold laplace_val. fold l d.
  apply (geom_exact (K := CF) convo aa l d N).
  - intros k Hk. destruct (Nat.lt_ge_cases k o) as [Hko|Hko].
    + unfold ser_of at 2. unfold convo. rewrite nth_map_seq by exact Hko. unfold ser_mul. apply (nsum_ext CF). intros j Hj. rewrite (St (k - j)%nat) by (change (k - j < @length C w)%nat; lia). reflexivity.
    + unfold ser_of at 2. rewrite nth_overflow by (unfold convo; rewrite map_length, seq_length; exact Hko). apply HR; [lia|]. change (k < @length C w)%nat. lia.
  - assert (HA : (@length C convo + S (@length (C * C) l) <= S N)%nat) by (unfold convo; rewrite map_length, seq_length, Ll; lia). exact HA.
  - change (@length C coeff = o) in Lc. assert (HA : (@length C aa + S (@length (C * C) l) <= S N)%nat) by (unfold aa; cbn [length]; rewrite Lc, Ll; lia). exact HA.
  - now apply geo_regular.
  - exact Hne.
Qed.
End TT.
