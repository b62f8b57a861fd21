(** * The fundamental theorem of algebra *)
From Coq Require Import List Arith Lia Lra Reals Ratan Classical.
From Coquelicot Require Import Coquelicot.
From Verif Require Import CExp.
Import ListNotations.
Local Open Scope C_scope.
Local Arguments Cmod x%C.

Fixpoint hor (l : list C) (x : C) : C := match l with [] => 0 | a :: l => a + x * hor l x end.
Fixpoint cpw (x : C) (n : nat) : C := match n with O => 1 | S n => x * cpw x n end.

Local Arguments hor l x%C.
Local Arguments cpw x%C n%nat.

Lemma Cmod_sub_rev (a b : C) : (Cmod a - Cmod b <= Cmod (a + b))%R.
Proof.
  assert (H := Cmod_triangle (a + b) (- b)). replace (a + b + - b) with a in H by ring. rewrite Cmod_opp in H. lra.
Qed.
Lemma Cmod_pos (a : C) : a <> 0 -> (0 < Cmod a)%R.
Proof. apply Cmod_gt_0. Qed.

(** ** growth *)
Lemma hor_grow (l : list C) : forall a : C, last l 0 <> 0 -> l <> [] -> forall M, exists B, (1 <= B)%R /\ forall x, (B <= Cmod x)%R -> (M <= Cmod (hor (a :: l) x))%R.
Proof.
  induction l as [|b l IH]; intros a Hl Hn M; [contradiction|].
  destruct l as [|c l].
  - cbn [last] in Hl. assert (Hb := Cmod_pos b Hl). exists (Rmax 1 ((Rabs M + Cmod a) / Cmod b)). split; [apply Rmax_l|]. intros x Hx.
    cbn [hor]. replace (a + x * (b + x * 0)) with (x * b + a) by ring. eapply Rle_trans; [|apply Cmod_sub_rev]. rewrite Cmod_mult.
    assert (H := Rle_trans _ _ _ (Rmax_r _ _) Hx). apply (Rmult_le_compat_r (Cmod b)) in H; [|lra]. unfold Rdiv in H. rewrite Rmult_assoc, Rinv_l in H by lra. assert (A := Rle_abs M). lra.
  - destruct (IH b Hl ltac:(discriminate) (Rabs M + Cmod a)%R) as (B & HB & H). exists B. split; [exact HB|]. intros x Hx. specialize (H x Hx).
    set (q := b :: c :: l) in *. change (hor (a :: q) x) with (a + x * hor q x). rewrite Cplus_comm. eapply Rle_trans; [|apply Cmod_sub_rev]. rewrite Cmod_mult.
    assert (A := Rle_abs M). assert (P := Cmod_ge_0 (hor q x)). assert (E : (1 * Cmod (hor q x) <= Cmod x * Cmod (hor q x))%R) by (apply Rmult_le_compat_r; lra). lra.
Qed.
(** ** bounds on bounded sets *)
Lemma hor_bound (l : list C) B : (0 <= B)%R -> exists M, (0 <= M)%R /\ forall x, (Cmod x <= B)%R -> (Cmod (hor l x) <= M)%R.
Proof.
  intros HB. induction l as [|a l (M & HM & H)].
  - exists 0%R. split; [lra|]. intros x _. cbn [hor]. rewrite Cmod_0. lra.
  - assert (Ha := Cmod_ge_0 a). exists (Cmod a + B * M)%R. split; [assert (0 <= B * M)%R by (apply Rmult_le_pos; lra); lra|]. intros x Hx. cbn [hor].
    eapply Rle_trans; [apply Cmod_triangle|]. rewrite Cmod_mult. apply Rplus_le_compat_l. apply Rmult_le_compat; try apply Cmod_ge_0; [exact Hx|now apply H].
Qed.
Lemma hor_lip (l : list C) B : (0 <= B)%R -> exists L, (0 <= L)%R /\ forall x y, (Cmod x <= B)%R -> (Cmod y <= B)%R -> (Cmod (hor l x - hor l y) <= L * Cmod (x - y))%R.
Proof.
  intros HB. induction l as [|a l (L & HL & H)].
  - exists 0%R. split; [lra|]. intros x y _ _. cbn [hor]. replace (0 - 0) with (RtoC 0) by ring. rewrite Cmod_0. lra.
  - destruct (hor_bound l B HB) as (M & HM & HMb). exists (B * L + M)%R. split; [assert (0 <= B * L)%R by (apply Rmult_le_pos; lra); lra|]. intros x y Hx Hy. cbn [hor].
    replace (a + x * hor l x - (a + y * hor l y)) with (x * (hor l x - hor l y) + (x - y) * hor l y) by ring.
    eapply Rle_trans; [apply Cmod_triangle|]. rewrite !Cmod_mult. specialize (H x y Hx Hy). specialize (HMb y Hy).
    assert (P := Cmod_ge_0 (x - y)). assert (P2 := Cmod_ge_0 (hor l x - hor l y)). assert (P3 := Cmod_ge_0 x).
    assert (E1 : (Cmod x * Cmod (hor l x - hor l y) <= B * (L * Cmod (x - y)))%R) by (apply Rmult_le_compat; lra).
    assert (E2 : (Cmod (x - y) * Cmod (hor l y) <= Cmod (x - y) * M)%R) by (apply Rmult_le_compat_l; lra). lra.
Qed.
(** ** shifted argument *)
Fixpoint zadd (u v : list C) : list C := match u, v with [], _ => v | _, [] => u | a :: u, b :: v => (a + b) :: zadd u v end.
Lemma hor_zadd u : forall v x, hor (zadd u v) x = hor u x + hor v x.
Proof. induction u as [|a u IH]; intros [|b v] x; cbn [zadd hor]; try ring. rewrite IH. ring. Qed.
Lemma hor_scal c l x : hor (map (fun a => c * a) l) x = c * hor l x.
Proof. induction l as [|a l IH]; cbn [map hor]; [ring|]. rewrite IH. ring. Qed.
Lemma zadd_last (u : list C) : forall v, (length v < length u)%nat -> length (zadd u v) = length u /\ last (zadd u v) 0 = last u 0.
Proof.
  induction u as [|a u IH]; intros v Hv; [cbn in Hv; lia|]. destruct v as [|b v]; [now split|]. cbn [length] in Hv. destruct (IH v ltac:(lia)) as [E1 E2].
  cbn [zadd length]. split; [now rewrite E1|]. destruct u as [|c u]; [cbn in Hv; lia|]. change (last (a :: c :: u) 0) with (last (c :: u) 0).
  destruct (zadd (c :: u) v) as [|d w] eqn:E; [rewrite <- E in E1; rewrite E in E1; discriminate|]. change (last ((a + b) :: d :: w) 0) with (last (d :: w) 0). exact E2.
Qed.
Lemma hor_shift (u : C) (l : list C) : exists l' : list C, length l' = length l /\ last l' 0 = last l 0 /\ forall h, hor l (u + h) = hor l' h.
Proof.
  induction l as [|a l (s & E1 & E2 & E3)].
  - exists []. repeat split.
  - exists (zadd (a :: s) (map (fun b => u * b) s)). destruct (zadd_last (a :: s) (map (fun b => u * b) s)) as [F1 F2]; [rewrite map_length; cbn [length]; lia|].
    split; [rewrite F1; cbn [length]; now rewrite E1|]. split.
    + rewrite F2. destruct s as [|b s]; destruct l as [|c l]; try discriminate; [reflexivity|]. exact E2.
    + intros h. rewrite hor_zadd, hor_scal. cbn [hor]. rewrite E3. ring.
Qed.
(** ** roots *)
Lemma cpw_exp z n : cpw (cexp z) n = cexp (RtoC (INR n) * z).
Proof.
  induction n as [|n IH]; [cbn [cpw]; replace (RtoC (INR 0) * z) with (RtoC 0) by (cbn; ring); now rewrite cexp_0|].
  cbn [cpw]. rewrite IH, <- cexp_add. f_equal. rewrite S_INR, RtoC_plus. ring.
Qed.
Lemma polar (a : C) : a <> 0 -> exists z, cexp z = a.
Proof.
  intros Ha. assert (P := Cmod_pos a Ha). set (r := Cmod a) in *. assert (Hr : (r * r = fst a * fst a + snd a * snd a)%R).
  { unfold r, Cmod. rewrite sqrt_sqrt; [cbn [pow]; ring|]. assert (Q1 := pow2_ge_0 (fst a)). assert (Q2 := pow2_ge_0 (snd a)). lra. }
  set (c := (fst a / r)%R). set (s := (snd a / r)%R).
  assert (Hcs : (c * c + s * s = 1)%R) by (unfold c, s; apply (Rmult_eq_reg_l (r * r)); [|nra]; field_simplify; [|lra]; nra).
  assert (Hc : (-1 <= c <= 1)%R) by nra.
  assert (T : exists t, cos t = c /\ sin t = s).
  { assert (S2 : sqrt (1 - Rsqr c) = Rabs s). { replace (1 - Rsqr c)%R with (Rsqr s) by (unfold Rsqr; lra). apply sqrt_Rsqr_abs. }
    destruct (Rle_or_lt 0 s) as [H|H].
    - exists (acos c). rewrite cos_acos, sin_acos by exact Hc. rewrite S2, Rabs_right by lra. now split.
    - exists (- acos c)%R. rewrite cos_neg, sin_neg, cos_acos, sin_acos by exact Hc. rewrite S2, Rabs_left by lra. split; lra. }
  destruct T as (t & Tc & Ts). exists (ln r, t). unfold cexp. cbn [fst snd]. rewrite exp_ln by lra. rewrite Tc, Ts. unfold c, s. destruct a as [x y]; cbn [fst snd]. f_equal; field; lra.
Qed.
Lemma kroot (a : C) k : (0 < k)%nat -> exists w, cpw w k = a.
Proof.
  intros Hk. destruct (Ceq_dec a 0) as [->|Ha]; [exists 0; destruct k as [|k]; [lia|cbn [cpw]; ring]|].
  destruct (polar a Ha) as [z Hz]. exists (cexp (z / RtoC (INR k))). rewrite cpw_exp. rewrite <- Hz. f_equal. field.
  intros E. apply RtoC_inj in E. apply (not_0_INR k); [lia|exact E].
Qed.
Lemma cpw_mul x y n : cpw (x * y) n = cpw x n * cpw y n.
Proof. induction n as [|n IH]; cbn [cpw]; [ring|]. rewrite IH. ring. Qed.
Lemma cpw_R t n : cpw (RtoC t) n = RtoC (t ^ n).
Proof. induction n as [|n IH]; cbn [cpw pow]; [reflexivity|]. rewrite IH, RtoC_mult. reflexivity. Qed.
Lemma split_first (l : list C) : last l 0 <> 0 -> exists k (c : C) tl, c <> 0 /\ forall h, hor l h = cpw h k * (c + h * hor tl h).
Proof.
  induction l as [|a l IH]; intros H; [contradiction|]. destruct (Ceq_dec a 0) as [->|Ha].
  - destruct l as [|b l]; [contradiction|]. destruct (IH H) as (k & c & tl & Hc & E). exists (S k), c, tl. split; [exact Hc|]. intros h.
    change (hor (RtoC 0 :: b :: l) h) with (0 + h * hor (b :: l) h). rewrite E. cbn [cpw]. ring.
  - exists 0%nat, a, l. split; [exact Ha|]. intros h. cbn [hor cpw]. ring.
Qed.
(** ** no local minimum away from the zeros *)
Lemma descent (a : C) (l : list C) : a <> 0 -> last l 0 <> 0 -> exists h, (Cmod (hor (a :: l) h) < Cmod a)%R.
Proof.
  intros Ha Hl. destruct (split_first l Hl) as (k & c & tl & Hc & E). destruct (kroot (- a / c) (S k)) as [w Hw]; [lia|].
  destruct (hor_bound tl (Cmod w) (Cmod_ge_0 w)) as (M & HM & HMb). assert (Pa := Cmod_pos a Ha).
  set (T := (Cmod w * Cmod (cpw w (S k)) * M)%R). assert (HT : (0 <= T)%R) by (unfold T; assert (P1 := Cmod_ge_0 w); assert (P2 := Cmod_ge_0 (cpw w (S k))); apply Rmult_le_pos; [apply Rmult_le_pos; lra|lra]).
  set (t := (Cmod a / (T + Cmod a + 1))%R). assert (Ht : (0 < t < 1)%R).
  { unfold t. split; [apply Rdiv_lt_0_compat; lra|]. apply (Rmult_lt_reg_r (T + Cmod a + 1)); [lra|]. unfold Rdiv. rewrite Rmult_assoc, Rinv_l by lra. lra. }
  assert (HtT : (t * T < Cmod a)%R).
  { apply (Rmult_lt_reg_r (T + Cmod a + 1)); [lra|]. replace (t * T * (T + Cmod a + 1))%R with (Cmod a * T)%R by (unfold t; field; lra). apply Rmult_lt_compat_l; lra. }
  exists (RtoC t * w). set (h := RtoC t * w). cbn [hor]. rewrite E.
  assert (Eh : a + h * (cpw h k * (c + h * hor tl h)) = a * RtoC (1 - t ^ S k) + RtoC (t ^ S k) * (RtoC t * (w * cpw w (S k) * hor tl h))).
  { assert (X : h * cpw h k = RtoC (t ^ S k) * (- a / c)) by (change (h * cpw h k) with (cpw h (S k)); unfold h; now rewrite cpw_mul, cpw_R, Hw).
    replace (h * (cpw h k * (c + h * hor tl h))) with (h * cpw h k * c + h * cpw h k * h * hor tl h) by ring. rewrite X, RtoC_minus, Hw. unfold h. field. exact Hc. }
  rewrite Eh. assert (Tp : (0 < t ^ S k <= 1)%R). { split; [apply pow_lt; lra|]. rewrite <- (pow1 (S k)). apply pow_incr. lra. }
  eapply Rle_lt_trans; [apply Cmod_triangle|]. rewrite !Cmod_mult, !Cmod_R. rewrite (Rabs_right (1 - t ^ S k)), (Rabs_right (t ^ S k)), (Rabs_right t) by lra.
  assert (Hh : (Cmod h <= Cmod w)%R). { unfold h. rewrite Cmod_mult, Cmod_R, Rabs_right by lra. assert (P := Cmod_ge_0 w). assert (t * Cmod w <= 1 * Cmod w)%R by (apply Rmult_le_compat_r; lra). lra. }
  specialize (HMb h Hh). assert (B1 : (Cmod w * Cmod (cpw w (S k)) * Cmod (hor tl h) <= T)%R).
  { unfold T. apply Rmult_le_compat_l; [apply Rmult_le_pos; apply Cmod_ge_0|exact HMb]. }
  assert (B2 : (t * (Cmod w * Cmod (cpw w (S k)) * Cmod (hor tl h)) < Cmod a)%R).
  { eapply Rle_lt_trans; [|exact HtT]. apply Rmult_le_compat_l; lra. }
  assert (B3 : (t ^ S k * (t * (Cmod w * Cmod (cpw w (S k)) * Cmod (hor tl h))) < t ^ S k * Cmod a)%R) by (apply Rmult_lt_compat_l; lra).
  lra.
Qed.
(** ** the minimum on a square *)
Lemma square_min (l : list C) B : (0 <= B)%R -> exists u v, (-B <= u <= B)%R /\ (-B <= v <= B)%R /\
  forall x y, (-B <= x <= B)%R -> (-B <= y <= B)%R -> (Cmod (hor l (u, v)) <= Cmod (hor l (x, y)))%R.
Proof.
  intros HB. set (f := fun x y => Cmod (hor l (x, y))).
  set (S := fun r => exists x y, (-B <= x <= B)%R /\ (-B <= y <= B)%R /\ r = (- f x y)%R).
  destruct (completeness S) as [m' [Hub Hlub]].
  { exists 0%R. intros r (x & y & _ & _ & ->). assert (H := Cmod_ge_0 (hor l (x, y))). unfold f. lra. }
  { exists (- f 0 0)%R, 0%R, 0%R. repeat split; lra. }
  set (m := (- m')%R). assert (Hm : forall x y, (-B <= x <= B)%R -> (-B <= y <= B)%R -> (m <= f x y)%R).
  { intros x y Hx Hy. assert (H := Hub (- f x y)%R). unfold m. assert (- f x y <= m')%R by (apply H; exists x, y; auto). lra. }
  apply NNPP. intros N. assert (HN : forall u v, (-B <= u <= B)%R -> (-B <= v <= B)%R -> (m < f u v)%R).
  { intros u v Hu Hv. destruct (Rle_lt_or_eq_dec _ _ (Hm u v Hu Hv)) as [H|H]; [exact H|]. exfalso. apply N. exists u, v. split; [exact Hu|]. split; [exact Hv|].
    intros x y Hx Hy. fold (f u v). fold (f x y). rewrite <- H. now apply Hm. }
  destruct (hor_lip l (2 * B)%R) as (L & HL & Lip); [lra|].
  assert (Inb : forall x y, (-B <= x <= B)%R -> (-B <= y <= B)%R -> (Cmod (x, y) <= 2 * B)%R).
  { intros x y Hx Hy. eapply Rle_trans; [apply Cmod_2Rmax|]. cbn [fst snd]. assert (Rmax (Rabs x) (Rabs y) <= B)%R by (apply Rmax_lub; apply Rabs_le; lra). assert (sqrt 2 <= 2)%R.
    { rewrite <- (sqrt_square 2) at 2 by lra. apply sqrt_le_1_alt. lra. } assert (P0 := sqrt_pos 2). assert (P := Rabs_pos x). assert (P2 := Rmax_l (Rabs x) (Rabs y)). apply Rmult_le_compat; lra. }
  set (D := fun u v => if Rlt_dec m (f u v) then ((f u v - m) / (4 * L + 2))%R else 1%R).
  assert (HD : forall u v, (0 < D u v)%R) by (intros u v; unfold D; destruct (Rlt_dec m (f u v)); [apply Rdiv_lt_0_compat; lra|lra]).
  destruct (compactness_value_2d (-B) B (-B) B (fun u v => mkposreal (D u v) (HD u v))) as [[d Hd] Hcov]. cbn [pos] in Hcov.
  assert (Big : forall x y, (-B <= x <= B)%R -> (-B <= y <= B)%R -> (m + d <= f x y)%R).
  { intros x y Hx Hy. destruct (Rle_or_lt (m + d) (f x y)) as [H|H]; [exact H|]. exfalso. apply (Hcov x y Hx Hy). intros (u & v & Hu & Hv & H1 & H2 & H3).
    assert (Huv := HN u v Hu Hv). unfold D in *. destruct (Rlt_dec m (f u v)) as [_|X]; [|contradiction]. set (g := (f u v - m)%R) in *.
    assert (Hq : (g / (4 * L + 2) * (4 * L + 2) = g)%R) by (field; lra). set (q := (g / (4 * L + 2))%R) in *.
    assert (Dist : (Cmod ((x, y) - (u, v)) <= 2 * q)%R).
    { eapply Rle_trans; [apply Cmod_2Rmax|]. cbn [fst snd Cminus Cplus Copp]. assert (Rmax (Rabs (x + - u)) (Rabs (y + - v)) <= q)%R by (apply Rmax_lub; unfold Rminus in *; lra). assert (sqrt 2 <= 2)%R.
      { rewrite <- (sqrt_square 2) at 2 by lra. apply sqrt_le_1_alt. lra. } assert (P0 := sqrt_pos 2). assert (P := Rabs_pos (x + - u)). assert (P2 := Rmax_l (Rabs (x + - u)) (Rabs (y + - v))). apply Rmult_le_compat; lra. }
    assert (LL := Lip (x, y) (u, v) (Inb x y Hx Hy) (Inb u v Hu Hv)).
    assert (LD : (L * Cmod ((x, y) - (u, v)) <= L * (2 * q))%R) by (apply Rmult_le_compat_l; lra).
    assert (F : (f u v - f x y <= Cmod (hor l (x, y) - hor l (u, v)))%R).
    { unfold f. assert (X := Cmod_sub_rev (hor l (u, v)) (- (hor l (u, v) - hor l (x, y)))). rewrite Cmod_opp in X. replace (hor l (u, v) + - (hor l (u, v) - hor l (x, y))) with (hor l (x, y)) in X by ring.
      replace (hor l (x, y) - hor l (u, v)) with (- (hor l (u, v) - hor l (x, y))) by ring. rewrite Cmod_opp. lra. }
    assert (G : (g = f u v - m)%R) by reflexivity. nra. }
  assert (X : (m' <= m' - d)%R). { apply Hlub. intros r (x & y & Hx & Hy & ->). assert (Y := Big x y Hx Hy). unfold m in Y. lra. }
  lra.
Qed.
Theorem fta (a : C) (l : list C) : last l 0 <> 0 -> exists x, hor (a :: l) x = 0.
Proof.
  intros Hl. assert (Hn : l <> []) by (intros ->; contradiction).
  destruct (hor_grow l a Hl Hn (Cmod a + 1)%R) as (B & HB & Hg).
  destruct (square_min (a :: l) B) as (u & v & Hu & Hv & Hmin); [lra|].
  assert (Glob : forall x, (Cmod (hor (a :: l) (u, v)) <= Cmod (hor (a :: l) x))%R).
  { intros x. destruct (Rle_or_lt B (Cmod x)) as [H|H].
    - apply Hg in H. assert (X := Hmin 0%R 0%R). replace (hor (a :: l) (0%R, 0%R)) with a in X by (cbn [hor]; change (0%R, 0%R) with (RtoC 0); ring).
      specialize (X ltac:(lra) ltac:(lra)). lra.
    - destruct x as [x y]. assert (X := Rmax_Cmod (x, y)). cbn [fst snd] in X. assert (X1 := Rmax_l (Rabs x) (Rabs y)). assert (X2 := Rmax_r (Rabs x) (Rabs y)).
      apply Hmin; apply Rabs_le_between; lra. }
  exists (u, v). apply NNPP. intros N. destruct (hor_shift (u, v) (a :: l)) as (l' & E1 & E2 & E3).
  destruct l' as [|a' l']; [discriminate|]. assert (Ea : hor (a :: l) (u, v) = a') by (assert (X := E3 0); rewrite Cplus_0_r in X; rewrite X; cbn [hor]; ring).
  destruct l as [|b l]; [contradiction|]. destruct l' as [|b' l']; [discriminate|].
  destruct (descent a' (b' :: l')) as [h Hh]; [now rewrite <- Ea|change (last (a' :: b' :: l') 0 <> 0); rewrite E2; exact Hl|].
  rewrite <- E3, <- Ea in Hh. assert (X := Glob ((u, v) + h)). lra.
Qed.
