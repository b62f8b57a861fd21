(** * Integrals with the density of states over a punctured band *)
From Coq Require Import Reals Lra Lia List.
From Coquelicot Require Import Coquelicot.
From Verif Require Import LatHil_Poisson LatHil_Stieltjes.
Local Open Scope R_scope.

(** finite covers of an interval *)
Lemma cover (a b : R) (Q : R -> R -> Prop) : a <= b -> (forall u r r', r' <= r -> Q u r -> Q u r') ->
  (forall e, a <= e <= b -> exists r, 0 < r /\ forall u, a <= u <= b -> Rabs (u - e) < r -> Q u r) -> exists r, 0 < r /\ forall u, a <= u <= b -> Q u r.
Proof.
  intros Hab An H. set (E := fun c => a <= c <= b /\ exists r, 0 < r /\ forall u, a <= u <= c -> Q u r).
  assert (Ea : E a). { split; [lra|]. destruct (H a ltac:(lra)) as (r & Hr & B). exists r. split; [exact Hr|]. intros u Hu. apply B; [lra|]. replace u with a by lra. rewrite Rminus_eq_0, Rabs_R0. exact Hr. }
  destruct (completeness E) as (s & Us & Ls); [exists b; intros c [Hc _]; lra|exists a; exact Ea|].
  assert (sa : a <= s) by (apply Us, Ea). assert (sb : s <= b) by (apply Ls; intros c [Hc _]; lra).
  destruct (H s ltac:(lra)) as (r & Hr & B).
  assert (Ex : exists c, E c /\ s - r < c). { apply Classical_Prop.NNPP. intros N. assert (s <= s - r); [|lra]. apply Ls. intros c Ec. apply Rnot_lt_le. intros L. apply N. exists c. split; assumption. }
  destruct Ex as (c & (Hc & r1 & Hr1 & B1) & Lc). assert (Hm : 0 < Rmin r r1) by (apply Rmin_pos; assumption).
  assert (All : forall u, a <= u <= Rmin b (s + r / 2) -> Q u (Rmin r r1)).
  { intros u [Hu1 Hu2]. assert (M1 := Rmin_l b (s + r / 2)). assert (M2 := Rmin_r b (s + r / 2)). destruct (Rle_dec u c) as [L|L]; [apply (An u r1); [apply Rmin_r|apply B1; lra]|apply (An u r); [apply Rmin_l|apply B; [lra|apply Rabs_lt_between; lra]]]. }
  assert (En : E (Rmin b (s + r / 2))). { split; [split; [apply Rmin_glb; lra|apply Rmin_l]|]. exists (Rmin r r1). split; [exact Hm|exact All]. }
  assert (Le := Us _ En). exists (Rmin r r1). split; [exact Hm|]. intros u Hu. apply All. split; [lra|]. unfold Rmin in *. destruct (Rle_dec b (s + r / 2)); lra.
Qed.

Section L.
Variables (L : (R -> R) -> R) (M : R).
Hypothesis HL : meanl L M.
Hypothesis HM : 0 <= M.
Let W := L (fun _ => 1).
Let Wp : 0 <= W := W_pos L M HL.
Definition rho (n e : R) : R := L (fun x => pk n (e - x)).
Variables (h : R -> R) (H : R).
Hypothesis Ch : cont h.
Hypothesis Hh : forall e, Rabs (h e) <= H.
Lemma H0 : 0 <= H.
Proof. exact (Rle_trans _ _ _ (Rabs_pos _) (Hh 0)). Qed.

Lemma hpk_e n x : 0 < n -> cont (fun e => h e * pk n (e - x)).
Proof. intros Hn. apply cont_mult; [exact Ch|apply pk_conte, Hn]. Qed.
Lemma hpk_int n a b : 0 < n -> cont (fun x => RInt (fun e => h e * pk n (e - x)) a b).
Proof.
  intros Hn x. apply cont_eps. intros t Ht. assert (Hp := H0). assert (N2 : 0 < / (n * n)) by (apply Rinv_0_lt_compat; nra). assert (Ab := Rabs_pos (b - a)).
  set (K := (H * / (n * n) * Rabs (b - a) + 1)). assert (K1 : 1 <= K). { unfold K. assert (0 <= H * / (n * n) * Rabs (b - a)) by (apply Rmult_le_pos; [apply Rmult_le_pos; lra|exact Ab]). lra. }
  exists (t / K). split; [apply Rdiv_lt_0_compat; lra|]. intros y Hy.
  assert (I := fun z u v => cont_int _ u v (hpk_e n z Hn)).
  replace (RInt (fun e => h e * pk n (e - y)) a b - RInt (fun e => h e * pk n (e - x)) a b) with (RInt (fun e => minus (h e * pk n (e - y)) (h e * pk n (e - x))) a b) by (apply (RInt_minus (V := R_CompleteNormedModule)); apply I).
  assert (G : forall u v, u <= v -> Rabs (RInt (fun e => minus (h e * pk n (e - y)) (h e * pk n (e - x))) u v) <= (v - u) * (H * (/ (n * n) * Rabs (y - x)))).
  { intros u v Huv. apply (norm_RInt_le_const (V := R_NormedModule) (fun e => minus (h e * pk n (e - y)) (h e * pk n (e - x))) u v); [exact Huv| |].
    - intros e _. change (Rabs (h e * pk n (e - y) - h e * pk n (e - x)) <= H * (/ (n * n) * Rabs (y - x))). rewrite <- Rmult_minus_distr_l, Rabs_mult. apply Rmult_le_compat; try apply Rabs_pos; [apply Hh|].
      eapply Rle_trans; [apply pk_lip, Hn|]. right. f_equal. replace (e - y - (e - x)) with (- (y - x)) by ring. apply Rabs_Ropp.
    - apply (RInt_correct (V := R_CompleteNormedModule)). apply (ex_RInt_minus (V := R_NormedModule)); apply I. }
  assert (G' : Rabs (RInt (fun e => minus (h e * pk n (e - y)) (h e * pk n (e - x))) a b) <= Rabs (b - a) * (H * (/ (n * n) * Rabs (y - x)))).
  { destruct (Rle_dec a b) as [Q|Q]; [rewrite (Rabs_pos_eq (b - a)) by lra; apply G, Q|]. rewrite (Rabs_left (b - a)) by lra. rewrite <- (opp_RInt_swap (fun e => minus (h e * pk n (e - y)) (h e * pk n (e - x))) b a); [|apply (ex_RInt_minus (V := R_NormedModule)); apply I].
    unfold opp; cbn. rewrite Rabs_Ropp. replace (- (b - a)) with (a - b) by ring. apply G. lra. }
  eapply Rle_trans; [exact G'|]. apply Rle_trans with (K * Rabs (y - x)). { unfold K. assert (Y := Rabs_pos (y - x)). lra. }
  apply Rle_trans with (K * (t / K)); [apply Rmult_le_compat_l; lra|right; field; lra].
Qed.
Lemma hpk_u n e t : 0 < n -> 0 < t -> exists r, 0 < r /\ forall e', Rabs (e' - e) < r -> forall x, Rabs (h e' * pk n (e' - x) - h e * pk n (e - x)) <= t.
Proof.
  intros Hn Ht. assert (Hp := H0). assert (N1 : 0 < / n) by (apply Rinv_0_lt_compat; lra). assert (N2 : 0 < / (n * n)) by (apply Rinv_0_lt_compat; nra).
  destruct (eps_cont h e (Ch e) (t / 2 / / n)) as (r1 & Hr1 & B1); [apply Rdiv_lt_0_compat; lra|].
  set (K := H * / (n * n) + 1). assert (K1 : 1 <= K). { unfold K. assert (0 <= H * / (n * n)) by (apply Rmult_le_pos; lra). lra. }
  exists (Rmin r1 (t / 2 / K)). split; [apply Rmin_pos; [exact Hr1|apply Rdiv_lt_0_compat; lra]|]. intros e' He x. assert (A1 := Rmin_l r1 (t / 2 / K)). assert (A2 := Rmin_r r1 (t / 2 / K)).
  replace (h e' * pk n (e' - x) - h e * pk n (e - x)) with ((h e' - h e) * pk n (e' - x) + h e * (pk n (e' - x) - pk n (e - x))) by ring.
  eapply Rle_trans; [apply Rabs_triang|]. rewrite !Rabs_mult. replace t with (t / 2 + t / 2) by field. apply Rplus_le_compat.
  - apply Rle_trans with (t / 2 / / n * / n); [|right; field; lra]. apply Rmult_le_compat; try apply Rabs_pos; [left; apply B1; lra|]. rewrite Rabs_pos_eq by (apply pk_pos, Hn). apply pk_le, Hn.
  - apply Rle_trans with (K * (t / 2 / K)); [|right; field; lra]. apply Rle_trans with (H * (/ (n * n) * Rabs (e' - e))).
    + apply Rmult_le_compat; try apply Rabs_pos; [apply Hh|]. eapply Rle_trans; [apply pk_lip, Hn|]. right. do 2 f_equal. ring.
    + assert (Y := Rabs_pos (e' - e)). apply Rle_trans with (K * Rabs (e' - e)); [unfold K; nra|]. apply Rmult_le_compat_l; lra.
Qed.
Lemma rho_fub n a b : 0 < n -> is_RInt (fun e => h e * rho n e) a b (L (fun x => RInt (fun e => h e * pk n (e - x)) a b)).
Proof.
  intros Hn. apply is_RInt_ext with (fun e => L (fun x => h e * pk n (e - x))).
  - intros e _. unfold rho. apply (ml_scal L M HL). apply pk_contx, Hn.
  - apply (L_fubini L M HL (fun e x => h e * pk n (e - x)) a); [intros e; apply cont_mult; [apply cont_const|apply pk_contx, Hn]|intros e t Ht; apply hpk_u; assumption|intros b'; apply hpk_int, Hn].
Qed.
(** approximate identity *)
Lemma approx t : 0 < t -> exists r, 0 < r /\ forall n, 0 < n < r -> forall x, - M <= x <= M -> Rabs (RInt (fun e => h e * pk n (e - x)) (- M - 1) (M + 1) - h x) <= t.
Proof.
  intros Ht. assert (Hp := H0). assert (Un : exists d, 0 < d /\ forall x y, - M - 1 <= x <= M + 1 -> - M - 1 <= y <= M + 1 -> Rabs (y - x) < d -> Rabs (h y - h x) <= t / 2).
  { destruct (cover (- M - 1) (M + 1) (fun u r => forall y, Rabs (y - u) < r -> Rabs (h y - h u) <= t / 2)) as (d & Hd & B).
    - lra.
    - intros u r r' Hr Q y Hy. apply Q. lra.
    - intros e _. destruct (eps_cont h e (Ch e) (t / 4) ltac:(lra)) as (r & Hr & B). exists (r / 2). split; [lra|]. intros u _ Hu y Hy. assert (B1 := B u ltac:(lra)). assert (B2 : Rabs (h y - h e) < t / 4). { apply B. replace (y - e) with ((y - u) + (u - e)) by ring. eapply Rle_lt_trans; [apply Rabs_triang|lra]. }
      replace (h y - h u) with ((h y - h e) - (h u - h e)) by ring. eapply Rle_trans; [apply Rabs_triang|]. rewrite Rabs_Ropp. lra.
    - exists d. split; [exact Hd|]. intros x y Hx _ Hy. apply (B x Hx y Hy). }
  destruct Un as (d & Hd & U). assert (d2 : 0 < d * d) by nra. set (K := 2 * H / (d * d) * (2 * M + 2) + H + 1).
  assert (K1 : 1 <= K). { unfold K. assert (0 <= 2 * H / (d * d) * (2 * M + 2)); [|lra]. apply Rmult_le_pos; [apply Rdiv_le_0_compat; lra|lra]. }
  exists (t / 2 / K). split; [apply Rdiv_lt_0_compat; lra|]. intros n [Hn Hn'] x Hx.
  assert (E : RInt (fun e => h e * pk n (e - x)) (- M - 1) (M + 1) - h x = RInt (fun e => (h e - h x) * pk n (e - x)) (- M - 1) (M + 1) + h x * (RInt (fun e => pk n (e - x)) (- M - 1) (M + 1) - 1)).
  { assert (E : RInt (fun e => h e * pk n (e - x)) (- M - 1) (M + 1) = RInt (fun e => (h e - h x) * pk n (e - x)) (- M - 1) (M + 1) + h x * RInt (fun e => pk n (e - x)) (- M - 1) (M + 1)); [|rewrite E; ring].
    apply is_RInt_unique. apply is_RInt_ext with (fun e => plus ((h e - h x) * pk n (e - x)) (scal (h x) (pk n (e - x)))); [intros; unfold plus, scal; cbn; unfold mult; cbn; ring|].
    apply (is_RInt_plus (V := R_NormedModule)); [|apply (is_RInt_scal (V := R_NormedModule))]; apply (RInt_correct (V := R_CompleteNormedModule)), cont_int; [apply cont_mult; [apply cont_minus; [exact Ch|apply cont_const]|apply pk_conte, Hn]|apply pk_conte, Hn]. }
  rewrite E. eapply Rle_trans; [apply Rabs_triang|].
  assert (B1 : Rabs (RInt (fun e => (h e - h x) * pk n (e - x)) (- M - 1) (M + 1)) <= t / 2 * RInt (fun e => pk n (e - x)) (- M - 1) (M + 1) + 2 * H / (d * d) * n * (2 * M + 2)).
  { set (bd := fun e => t / 2 * pk n (e - x) + 2 * H / (d * d) * n). assert (Ib : is_RInt bd (- M - 1) (M + 1) (t / 2 * RInt (fun e => pk n (e - x)) (- M - 1) (M + 1) + 2 * H / (d * d) * n * (2 * M + 2))).
    { replace (2 * H / (d * d) * n * (2 * M + 2)) with (scal (M + 1 - (- M - 1)) (2 * H / (d * d) * n)) by (unfold scal; cbn; unfold mult; cbn; field; lra). unfold bd. apply (is_RInt_plus (V := R_NormedModule)); [|apply (is_RInt_const (V := R_NormedModule))].
      apply (is_RInt_scal (V := R_NormedModule)), (RInt_correct (V := R_CompleteNormedModule)), cont_int, pk_conte, Hn. }
    rewrite <- (is_RInt_unique _ _ _ _ Ib). apply (norm_RInt_le (V := R_NormedModule) (fun e => (h e - h x) * pk n (e - x)) bd (- M - 1) (M + 1)).
    - lra.
    - intros e He. change (Rabs ((h e - h x) * pk n (e - x)) <= bd e). rewrite Rabs_mult, (Rabs_pos_eq (pk n (e - x))) by (apply pk_pos, Hn). unfold bd. assert (P := pk_pos n Hn (e - x)).
      assert (Q0 : 0 <= 2 * H / (d * d) * n) by (apply Rmult_le_pos; [apply Rdiv_le_0_compat; lra|lra]).
      destruct (Rlt_dec (Rabs (e - x)) d) as [Q|Q]; [assert (A := U x e ltac:(lra) He Q); assert (Rabs (h e - h x) * pk n (e - x) <= t / 2 * pk n (e - x)) by (apply Rmult_le_compat_r; lra); lra|].
      apply Rnot_lt_le in Q. assert (S : d * d <= (e - x) * (e - x)). { assert (Z : Rabs (e - x) * Rabs (e - x) = (e - x) * (e - x)) by (unfold Rabs; destruct (Rcase_abs (e - x)); ring). rewrite <- Z. apply Rmult_le_compat; lra. }
      assert (S2 := pk_sq n Hn (e - x)). assert (T : Rabs (h e - h x) <= 2 * H). { eapply Rle_trans; [apply Rabs_triang|]. rewrite Rabs_Ropp. assert (A1 := Hh e). assert (A2 := Hh x). lra. }
      assert (P1 : pk n (e - x) * (d * d) <= n). { eapply Rle_trans; [|exact S2]. rewrite Rmult_comm. apply Rmult_le_compat_r; [exact P|exact S]. }
      assert (P2 : pk n (e - x) <= n / (d * d)). { apply Rmult_le_reg_r with (d * d); [exact d2|]. unfold Rdiv. rewrite Rmult_assoc, Rinv_l by lra. lra. }
      assert (P3 : Rabs (h e - h x) * pk n (e - x) <= 2 * H * (n / (d * d))) by (apply Rmult_le_compat; [apply Rabs_pos|exact P|exact T|exact P2]).
      assert (P4 : 0 <= t / 2 * pk n (e - x)) by (apply Rmult_le_pos; lra). replace (2 * H / (d * d) * n) with (2 * H * (n / (d * d))) by (field; lra). lra.
    - apply (RInt_correct (V := R_CompleteNormedModule)), cont_int. apply cont_mult; [apply cont_minus; [exact Ch|apply cont_const]|apply pk_conte, Hn].
    - apply (RInt_correct (V := R_CompleteNormedModule)). exists (t / 2 * RInt (fun e => pk n (e - x)) (- M - 1) (M + 1) + 2 * H / (d * d) * n * (2 * M + 2)). exact Ib. }
  assert (B2 : Rabs (h x * (RInt (fun e => pk n (e - x)) (- M - 1) (M + 1) - 1)) <= H * n).
  { rewrite Rabs_mult. apply Rmult_le_compat; try apply Rabs_pos; [apply Hh|]. assert (A := pk_int_le1 n Hn x (- M - 1) (M + 1)). assert (B := pk_int_ge n Hn x (- M - 1) (M + 1) ltac:(lra)). apply Rabs_le. lra. }
  assert (B3 := pk_int_le1 n Hn x (- M - 1) (M + 1)). assert (B4 : t / 2 * RInt (fun e => pk n (e - x)) (- M - 1) (M + 1) <= t / 2 * 1) by (apply Rmult_le_compat_l; lra).
  assert (B5 : K * n <= t / 2). { apply Rle_trans with (K * (t / 2 / K)); [apply Rmult_le_compat_l; lra|right; field; lra]. }
  unfold K in B5. lra.
Qed.
Lemma global t : 0 < t -> exists r, 0 < r /\ forall n, 0 < n < r -> Rabs (RInt (fun e => h e * rho n e) (- M - 1) (M + 1) - L h) <= t.
Proof.
  intros Ht. destruct (approx (t / (W + 1))) as (r & Hr & B); [apply Rdiv_lt_0_compat; lra|]. exists r. split; [exact Hr|]. intros n Hn. rewrite (is_RInt_unique _ _ _ _ (rho_fub n _ _ (proj1 Hn))).
  apply Rle_trans with (t / (W + 1) * W); [apply (L_diff L M HL); [apply hpk_int, Hn|exact Ch|apply B, Hn]|]. apply Rle_trans with (t / (W + 1) * (W + 1)); [apply Rmult_le_compat_l; [left; apply Rdiv_lt_0_compat; lra|lra]|right; field; lra].
Qed.

Lemma rho_pos n e : 0 < n -> 0 <= rho n e.
Proof.
  intros Hn. unfold rho. apply Rle_trans with (L (fun _ => 0)); [rewrite (L_const L M HL); lra|]. apply (ml_mono L M HL); [apply cont_const|apply pk_contx, Hn|]. intros x _. apply pk_pos, Hn.
Qed.
Lemma rho_cont n : 0 < n -> cont (rho n).
Proof.
  intros Hn e. apply cont_eps. intros t Ht. assert (N2 : 0 < / (n * n)) by (apply Rinv_0_lt_compat; nra). set (K := / (n * n) * W + 1). assert (K1 : 1 <= K). { unfold K. assert (0 <= / (n * n) * W) by (apply Rmult_le_pos; lra). lra. }
  exists (t / K). split; [apply Rdiv_lt_0_compat; lra|]. intros y Hy. apply Rle_trans with (/ (n * n) * Rabs (y - e) * W).
  - unfold rho. apply (L_diff L M HL); try (apply pk_contx, Hn). intros x _. eapply Rle_trans; [apply pk_lip, Hn|]. right. do 2 f_equal. ring.
  - apply Rle_trans with (K * (t / K)); [|right; field; lra]. assert (Y := Rabs_pos (y - e)). apply Rle_trans with (K * Rabs (y - e)); [unfold K; nra|apply Rmult_le_compat_l; lra].
Qed.
(** weight near a point *)
Definition weight (p d : R) : R := L (fun x => d * d / ((x - p) * (x - p) + d * d)).
Lemma lor_cont p d : 0 < d -> cont (fun x => d * d / ((x - p) * (x - p) + d * d)).
Proof.
  intros Hd x. apply (ex_derive_continuous (V := R_NormedModule)). assert (0 < (x - p) * (x - p) + d * d). { assert (X1 := Rle_0_sqr (x - p)). unfold Rsqr in X1. assert (0 < d * d) by (apply Rmult_lt_0_compat; lra). lra. } auto_derive. lra.
Qed.
Lemma bad p d n : 0 < n <= d -> Rabs (RInt (fun e => h e * rho n e) (p - d) (p + d)) <= H * (5 * weight p d).
Proof.
  intros [Hn Hd]. assert (Hp := H0). rewrite (is_RInt_unique _ _ _ _ (rho_fub n _ _ Hn)). set (q := fun x => RInt (fun e => pk n (e - x)) (p - d) (p + d)).
  assert (Cq : cont q). { intros x. apply (continuous_ext (fun x => (atan ((p + d - x) / n) - atan ((p - d - x) / n)) / PI)); [intros y; symmetry; apply is_RInt_unique, pk_int, Hn|]. apply (ex_derive_continuous (V := R_NormedModule)). auto_derive. auto. }
  assert (HB : forall x, Rabs (RInt (fun e => h e * pk n (e - x)) (p - d) (p + d)) <= H * q x).
  { intros x. unfold q. assert (Ib : is_RInt (fun e => H * pk n (e - x)) (p - d) (p + d) (H * RInt (fun e => pk n (e - x)) (p - d) (p + d))) by (apply (is_RInt_scal (V := R_NormedModule)), (RInt_correct (V := R_CompleteNormedModule)), cont_int, pk_conte, Hn).
    apply (norm_RInt_le (V := R_NormedModule) (fun e => h e * pk n (e - x)) (fun e => H * pk n (e - x)) (p - d) (p + d)); [lra| | |exact Ib].
    - intros e _. change (Rabs (h e * pk n (e - x)) <= H * pk n (e - x)). assert (P := pk_pos n Hn (e - x)). rewrite Rabs_mult, (Rabs_pos_eq (pk n (e - x))) by exact P. apply Rmult_le_compat_r; [exact P|apply Hh].
    - apply (RInt_correct (V := R_CompleteNormedModule)), cont_int, hpk_e, Hn. }
  assert (HQ : forall x, H * q x <= H * (5 * (d * d / ((x - p) * (x - p) + d * d)))) by (intros x; apply Rmult_le_compat_l; [exact Hp|apply pk_bad; assumption]).
  assert (Cw : cont (fun x => H * 5 * (d * d / ((x - p) * (x - p) + d * d)))) by (apply cont_mult; [apply cont_const|apply lor_cont; lra]).
  assert (E : H * (5 * weight p d) = L (fun x => H * 5 * (d * d / ((x - p) * (x - p) + d * d)))) by (unfold weight; rewrite (ml_scal L M HL) by (apply lor_cont; lra); ring). rewrite E. apply Rabs_le. split.
  - replace (- L (fun x => H * 5 * (d * d / ((x - p) * (x - p) + d * d)))) with (L (fun x => -1 * (H * 5 * (d * d / ((x - p) * (x - p) + d * d))))) by (rewrite (ml_scal L M HL) by exact Cw; ring).
    apply (ml_mono L M HL); [apply cont_mult; [apply cont_const|exact Cw]|apply hpk_int, Hn|]. intros x _. assert (A := HB x). assert (B := HQ x). apply Rabs_le_between in A. lra.
  - apply (ml_mono L M HL); [apply hpk_int, Hn|exact Cw|]. intros x _. assert (A := HB x). assert (B := HQ x). apply Rabs_le_between in A. lra.
Qed.

(** ** punctured intervals *)
Fixpoint gaps (f : R -> R) (d a : R) (ps : list R) (b : R) : R :=
  match ps with nil => RInt f a b | p :: qs => RInt f a (p - d) + gaps f d (p + d) qs b end.
Fixpoint fits (d a : R) (ps : list R) (b : R) : Prop :=
  match ps with nil => a < b | p :: qs => a < p - d /\ fits d (p + d) qs b end.
Fixpoint wsum (ps : list R) (d : R) : R := match ps with nil => 0 | p :: qs => weight p d + wsum qs d end.
Lemma hrho_cont n : 0 < n -> cont (fun e => h e * rho n e).
Proof. intros Hn. apply cont_mult; [exact Ch|apply rho_cont, Hn]. Qed.
Lemma gaps_bad n d ps : 0 < n <= d -> forall a b, Rabs (RInt (fun e => h e * rho n e) a b - gaps (fun e => h e * rho n e) d a ps b) <= H * 5 * wsum ps d.
Proof.
  intros Hn. set (f := fun e => h e * rho n e). assert (I : forall u v, ex_RInt f u v) by (intros; apply cont_int, hrho_cont; lra).
  induction ps as [|p qs IH]; intros a b; cbn [gaps wsum]; [rewrite Rminus_eq_0, Rabs_R0; lra|].
  replace (RInt f a b) with (RInt f a (p - d) + (RInt f (p - d) (p + d) + RInt f (p + d) b)); [|transitivity (RInt f a (p - d) + RInt f (p - d) b); [f_equal|]; apply (RInt_Chasles f); apply I].
  replace (RInt f a (p - d) + (RInt f (p - d) (p + d) + RInt f (p + d) b) - (RInt f a (p - d) + gaps f d (p + d) qs b)) with (RInt f (p - d) (p + d) + (RInt f (p + d) b - gaps f d (p + d) qs b)) by ring.
  eapply Rle_trans; [apply Rabs_triang|]. assert (B := bad p d n Hn). specialize (IH (p + d) b). fold f in B. lra.
Qed.

Variable dd : R -> R.
(** dd is the boundary value at the energy e *)
Definition bv (e : R) : Prop := forall t, 0 < t -> exists r, 0 < r /\ forall u v, Rabs (u - e) < r -> 0 < v < r -> Rabs (rho v u - dd e) < t.
Lemma bv_cont a b e : a < e < b -> (forall u, a < u < b -> bv u) -> continuous dd e.
Proof.
  intros He B. apply cont_eps. intros t Ht. destruct (B e He (t / 2) ltac:(lra)) as (r & Hr & Q). exists (Rmin r (Rmin (e - a) (b - e))). split; [repeat apply Rmin_pos; lra|]. intros y Hy.
  assert (M1 := Rmin_l r (Rmin (e - a) (b - e))). assert (M2 := Rmin_r r (Rmin (e - a) (b - e))). assert (M3 := Rmin_l (e - a) (b - e)). assert (M4 := Rmin_r (e - a) (b - e)). assert (Y : Rabs (y - e) < r) by lra. apply Rabs_lt_between in Hy.
  destruct (B y ltac:(lra) (t / 2) ltac:(lra)) as (r' & Hr' & Q'). assert (m := Rmin_pos _ _ Hr Hr'). assert (m1 := Rmin_l r r'). assert (m2 := Rmin_r r r').
  specialize (Q y (Rmin r r' / 2) Y ltac:(lra)). specialize (Q' y (Rmin r r' / 2)). rewrite Rminus_eq_0, Rabs_R0 in Q'. specialize (Q' Hr' ltac:(lra)).
  replace (dd y - dd e) with ((rho (Rmin r r' / 2) y - dd e) - (rho (Rmin r r' / 2) y - dd y)) by ring. eapply Rle_trans; [apply Rabs_triang|]. rewrite Rabs_Ropp. lra.
Qed.
Lemma bv_unif a b t : a <= b -> (forall e, a <= e <= b -> bv e) -> 0 < t -> exists r, 0 < r /\ forall n, 0 < n < r -> forall u, a <= u <= b -> Rabs (rho n u - dd u) <= t.
Proof.
  intros Hab B Ht. destruct (cover a b (fun u r => forall n, 0 < n < r -> Rabs (rho n u - dd u) <= t)) as (r & Hr & Q).
  - exact Hab.
  - intros u r r' Hr Q n Hn. apply Q. lra.
  - intros e He. destruct (B e He (t / 4) ltac:(lra)) as (r & Hr & Q). exists r. split; [exact Hr|]. intros u Hu Hur n Hn.
    destruct (B u Hu (t / 4) ltac:(lra)) as (r' & Hr' & Q'). assert (m := Rmin_pos _ _ Hr Hr'). assert (m1 := Rmin_l r r'). assert (m2 := Rmin_r r r').
    assert (Q1 := Q u n Hur Hn). assert (Q2 := Q u (Rmin r r' / 2) Hur ltac:(lra)). specialize (Q' u (Rmin r r' / 2)). rewrite Rminus_eq_0, Rabs_R0 in Q'. specialize (Q' Hr' ltac:(lra)).
    replace (rho n u - dd u) with ((rho n u - dd e) - (rho (Rmin r r' / 2) u - dd e) + (rho (Rmin r r' / 2) u - dd u)) by ring. eapply Rle_trans; [apply Rabs_triang|]. assert (T := Rabs_triang (rho n u - dd e) (- (rho (Rmin r r' / 2) u - dd e))). rewrite Rabs_Ropp in T. fold (Rminus (rho n u - dd e) (rho (Rmin r r' / 2) u - dd e)) in T. lra.
  - exists r. split; [exact Hr|]. intros n Hn u Hu. apply Q; assumption.
Qed.
Lemma gap_conv a b s : a <= b -> 0 < s -> (forall e, a - s < e < b + s -> bv e) ->
  ex_RInt (fun e => h e * dd e) a b /\ forall t, 0 < t -> exists r, 0 < r /\ forall n, 0 < n < r -> Rabs (RInt (fun e => h e * rho n e) a b - RInt (fun e => h e * dd e) a b) <= t.
Proof.
  intros Hab Hs B. assert (Hp := H0).
  assert (I : ex_RInt (fun e => h e * dd e) a b). { apply (ex_RInt_continuous (V := R_CompleteNormedModule)). intros x Hx. rewrite Rmin_left, Rmax_right in Hx by lra. apply (continuous_mult (K := R_AbsRing) h dd x); [apply Ch|]. apply (bv_cont (a - s) (b + s)); [lra|exact B]. }
  split; [exact I|]. intros t Ht. set (K := (b - a) * H + 1). assert (K1 : 1 <= K). { unfold K. assert (0 <= (b - a) * H) by (apply Rmult_le_pos; lra). lra. }
  destruct (bv_unif a b (t / K) Hab) as (r & Hr & Q); [intros e He; apply B; lra|apply Rdiv_lt_0_compat; lra|]. exists r. split; [exact Hr|]. intros n Hn.
  assert (In : ex_RInt (fun e => h e * rho n e) a b) by (apply cont_int, hrho_cont; lra).
  replace (RInt (fun e => h e * rho n e) a b - RInt (fun e => h e * dd e) a b) with (RInt (fun e => minus (h e * rho n e) (h e * dd e)) a b) by (apply (RInt_minus (V := R_CompleteNormedModule)); assumption).
  apply Rle_trans with ((b - a) * (H * (t / K))).
  - apply (norm_RInt_le_const (V := R_NormedModule) (fun e => minus (h e * rho n e) (h e * dd e)) a b); [exact Hab| |].
    + intros e He. change (Rabs (h e * rho n e - h e * dd e) <= H * (t / K)). rewrite <- Rmult_minus_distr_l, Rabs_mult. apply Rmult_le_compat; try apply Rabs_pos; [apply Hh|apply Q; assumption].
    + apply (RInt_correct (V := R_CompleteNormedModule)). apply (ex_RInt_minus (V := R_NormedModule)); assumption.
  - apply Rle_trans with (K * (t / K)); [|right; field; lra]. assert (0 < t / K) by (apply Rdiv_lt_0_compat; lra). unfold K at 2. lra.
Qed.
Lemma fits_gt d ps : 0 < d -> forall a b q, fits d a ps b -> In q ps -> a + d < q.
Proof.
  intros Hd. induction ps as [|p qs IH]; cbn; intros a b q F I; [contradiction|]. destruct F as [F1 F2]. destruct I as [<-|I]; [lra|]. specialize (IH _ _ _ F2 I). lra.
Qed.
(** the integrals over the gaps exist *)
Fixpoint gaps_ex (f : R -> R) (d a : R) (ps : list R) (b : R) : Prop :=
  match ps with nil => ex_RInt f a b | p :: qs => ex_RInt f a (p - d) /\ gaps_ex f d (p + d) qs b end.
Lemma gaps_conv d ps b : 0 < d -> forall a s, 0 < s -> fits d a ps b -> (forall e, a - s < e -> ~ In e ps -> bv e) ->
  gaps_ex (fun e => h e * dd e) d a ps b /\
  forall t, 0 < t -> exists r, 0 < r /\ forall n, 0 < n < r -> Rabs (gaps (fun e => h e * rho n e) d a ps b - gaps (fun e => h e * dd e) d a ps b) <= t.
Proof.
  intros Hd. induction ps as [|p qs IH]; cbn [fits gaps gaps_ex]; intros a s Hs F B.
  - apply (gap_conv a b s); [lra|exact Hs|]. intros e He. apply B; [lra|intros []].
  - destruct F as [F1 F2]. destruct (gap_conv a (p - d) (Rmin s d)) as [I1 C1]; [lra|apply Rmin_pos; assumption| |].
    { intros e He. assert (m1 := Rmin_l s d). assert (m2 := Rmin_r s d). apply B; [lra|]. intros [E|E]; [lra|]. assert (G := fits_gt d qs Hd _ _ _ F2 E). lra. }
    destruct (IH (p + d) d Hd F2) as [I2 C2]; [intros e He N; apply B; [lra|intros [E|E]; [lra|contradiction]]|]. split; [split; assumption|].
    intros t Ht. destruct (C1 (t / 2) ltac:(lra)) as (r1 & Hr1 & Q1). destruct (C2 (t / 2) ltac:(lra)) as (r2 & Hr2 & Q2). exists (Rmin r1 r2). split; [apply Rmin_pos; assumption|]. intros n Hn. assert (m1 := Rmin_l r1 r2). assert (m2 := Rmin_r r1 r2).
    specialize (Q1 n ltac:(lra)). specialize (Q2 n ltac:(lra)).
    match goal with |- Rabs (?x + ?y - (?u + ?v)) <= _ => replace (x + y - (u + v)) with ((x - u) + (y - v)) by ring end. eapply Rle_trans; [apply Rabs_triang|]. lra.
Qed.
Lemma stieltjes d ps : 0 < d -> fits d (- M - 1) ps (M + 1) -> (forall e, ~ In e ps -> bv e) ->
  gaps_ex (fun e => h e * dd e) d (- M - 1) ps (M + 1) /\ Rabs (L h - gaps (fun e => h e * dd e) d (- M - 1) ps (M + 1)) <= H * 5 * wsum ps d.
Proof.
  intros Hd F B. destruct (gaps_conv d ps (M + 1) Hd (- M - 1) 1 ltac:(lra) F) as [I Cv]; [intros e _; apply B|]. split; [exact I|].
  apply Rnot_lt_le. intros Lt. set (g := Rabs (L h - gaps (fun e => h e * dd e) d (- M - 1) ps (M + 1)) - H * 5 * wsum ps d) in *. assert (Gp : 0 < g) by (unfold g; lra).
  destruct (Cv (g / 4) ltac:(lra)) as (r1 & Hr1 & Q1). destruct (global (g / 4) ltac:(lra)) as (r2 & Hr2 & Q2). set (n := Rmin d (Rmin r1 r2) / 2). assert (m1 := Rmin_l d (Rmin r1 r2)). assert (m2 := Rmin_r d (Rmin r1 r2)). assert (m3 := Rmin_l r1 r2). assert (m4 := Rmin_r r1 r2).
  assert (m0 : 0 < Rmin d (Rmin r1 r2)) by (repeat apply Rmin_pos; assumption). specialize (Q1 n ltac:(unfold n; lra)). specialize (Q2 n ltac:(unfold n; lra)). assert (Q3 := gaps_bad n d ps ltac:(unfold n; lra) (- M - 1) (M + 1)).
  assert (Z : Rabs (L h - gaps (fun e => h e * dd e) d (- M - 1) ps (M + 1)) <= H * 5 * wsum ps d + g / 4 + g / 4); [|unfold g in Z at 1 2; fold g in Z; unfold g in *; lra].
  set (x := L h) in *. set (y := gaps (fun e => h e * dd e) d (- M - 1) ps (M + 1)) in *. set (u := RInt (fun e => h e * rho n e) (- M - 1) (M + 1)) in *. set (v := gaps (fun e => h e * rho n e) d (- M - 1) ps (M + 1)) in *.
  replace (x - y) with ((- (u - x) + (u - v)) + (v - y)) by ring. eapply Rle_trans; [apply Rabs_triang|]. assert (T := Rabs_triang (- (u - x)) (u - v)). rewrite Rabs_Ropp in T. lra.
Qed.
(** no weight at the points *)
Lemma stieltjes_lim ps : (exists d0, 0 < d0 /\ forall d, 0 < d < d0 -> fits d (- M - 1) ps (M + 1)) -> (forall e, ~ In e ps -> bv e) ->
  (forall p, In p ps -> forall t, 0 < t -> exists r, 0 < r /\ forall d, 0 < d < r -> weight p d <= t) ->
  forall t, 0 < t -> exists r, 0 < r /\ forall d, 0 < d < r -> gaps_ex (fun e => h e * dd e) d (- M - 1) ps (M + 1) /\ Rabs (gaps (fun e => h e * dd e) d (- M - 1) ps (M + 1) - L h) <= t.
Proof.
  intros (d0 & Hd0 & F) B Na t Ht. assert (Hp := H0).
  assert (Ws : forall qs, (forall q, In q qs -> In q ps) -> forall t, 0 < t -> exists r, 0 < r /\ forall d, 0 < d < r -> wsum qs d <= t).
  { clear t Ht. induction qs as [|q qs IH]; intros Sub t Ht; [exists 1; split; [lra|]; intros; cbn; lra|]. destruct (Na q (Sub q (or_introl eq_refl)) (t / 2) ltac:(lra)) as (r1 & Hr1 & Q1). destruct (IH (fun q' I => Sub q' (or_intror I)) (t / 2) ltac:(lra)) as (r2 & Hr2 & Q2).
    exists (Rmin r1 r2). split; [apply Rmin_pos; assumption|]. intros d Hd. assert (m1 := Rmin_l r1 r2). assert (m2 := Rmin_r r1 r2). cbn. specialize (Q1 d ltac:(lra)). specialize (Q2 d ltac:(lra)). lra. }
  destruct (Ws ps (fun _ x => x) (t / (H * 5 + 1))) as (r & Hr & Q); [apply Rdiv_lt_0_compat; lra|]. exists (Rmin r d0). split; [apply Rmin_pos; assumption|]. intros d Hd. assert (m1 := Rmin_l r d0). assert (m2 := Rmin_r r d0).
  destruct (stieltjes d ps) as [I E]; [lra|apply F; lra|exact B|]. split; [exact I|]. rewrite Rabs_minus_sym. eapply Rle_trans; [exact E|]. specialize (Q d ltac:(lra)).
  apply Rle_trans with (H * 5 * (t / (H * 5 + 1))); [apply Rmult_le_compat_l; lra|]. apply Rle_trans with ((H * 5 + 1) * (t / (H * 5 + 1))); [apply Rmult_le_compat_r; [left; apply Rdiv_lt_0_compat; lra|lra]|right; field; lra].
Qed.
End L.
