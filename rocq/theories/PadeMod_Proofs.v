(** * Proofs about the averages and errors of Averager and Mod_Averager *)
From Coq Require Import Reals List Lia Lra.
From Coquelicot Require Import Coquelicot.
From Verif Require Import Base CBase PadeMod_Spec PadeMod_Model.
Import ListNotations.
Local Open Scope C_scope.

(** ** Sums *)
Lemma rsum_total l : rsum l = total l.
Proof. induction l as [|x l IH]; [reflexivity|]. cbn. now rewrite <- IH. Qed.
Lemma csum_fst l : fst (csum l) = total (map fst l).
Proof. induction l as [|x l IH]; [reflexivity|]. cbn. now rewrite <- IH. Qed.
Lemma csum_snd l : snd (csum l) = total (map snd l).
Proof. induction l as [|x l IH]; [reflexivity|]. cbn. now rewrite <- IH. Qed.
Lemma total_app l l' : total (l ++ l') = (total l + total l')%R.
Proof. induction l as [|x l IH]; cbn; [ring|]. rewrite IH. ring. Qed.
Lemma total_sub m l : total (map (fun x => x - m)%R l) = (total l - m * INR (length l))%R.
Proof. induction l as [|x l IH]; [cbn; ring|]. cbn [map total length]. rewrite IH, S_INR. ring. Qed.
Lemma total_sq_nonneg l : (0 <= total (map (fun x => x * x)%R l))%R.
Proof. induction l as [|x l IH]; cbn; [lra|]. nra. Qed.
Lemma total_sq_zero l : (total (map (fun x => x * x) l) = 0)%R -> forall x, In x l -> x = 0%R.
Proof.
  induction l as [|y l IH]; intros H x Hx; [destruct Hx|]. cbn in H. pose proof (total_sq_nonneg l) as P.
  assert (Q := Rle_0_sqr y). unfold Rsqr in Q. assert (y * y = 0)%R by lra. assert (total (map (fun x => x * x) l) = 0)%R by lra.
  destruct Hx as [<-|Hx]; [now apply Rsqr_0_uniq|now apply IH].
Qed.
Lemma cauchy_schwarz l : (total l * total l <= INR (length l) * total (map (fun x => x * x) l))%R.
Proof.
  induction l as [|x l IH]; [cbn; lra|]. cbn [total map length]. rewrite S_INR.
  set (n := INR (length l)) in *. set (T := total l) in *. set (Q := total (map (fun x => x * x)%R l)) in *.
  assert (Hn : (0 <= n)%R) by apply pos_INR. assert (HQ : (0 <= Q)%R) by apply total_sq_nonneg.
  assert (H : (2 * x * T <= n * (x * x) + Q)%R).
  { destruct Hn as [Hn|Hn].
    - assert (E : (0 <= (n * x - T) * (n * x - T))%R) by apply Rle_0_sqr.
      assert (E2 : (n * (2 * x * T) <= n * (n * (x * x) + Q))%R) by nra. now apply Rmult_le_reg_l with n.
    - rewrite <- Hn in *. assert (T * T = 0)%R by (assert (E := Rle_0_sqr T); unfold Rsqr in E; lra).
      assert (T0 : T = 0%R) by now apply Rsqr_0_uniq. rewrite T0. lra. }
  nra.
Qed.

(** ** Mean and standard deviation *)
Lemma len_pos {A} (l : list A) : l <> [] -> (0 < INR (length l))%R.
Proof. destruct l; [easy|]. intros _. apply lt_0_INR. cbn. lia. Qed.
Lemma mean_unique l m m' : is_mean l m -> is_mean l m' -> m = m'.
Proof. intros [N E] [_ E']. apply Rmult_eq_reg_r with (INR (length l)); [congruence|]. apply Rgt_not_eq. now apply len_pos. Qed.
Lemma mean_ok v : v <> [] -> is_mean v (total v / INR (length v)).
Proof. intros N. split; [exact N|]. field. apply Rgt_not_eq. now apply len_pos. Qed.
Lemma std1_ok v : (2 <= length v)%nat -> exists s, std1 v = Some s /\ is_sample_std v s.
Proof.
  intros H. destruct v as [|x [|y v]]; try (cbn in H; lia). unfold std1. set (l := x :: y :: v) in *.
  cbv zeta. eexists. split; [reflexivity|]. rewrite !rsum_total.
  set (m := (total l / INR (length l))%R).
  assert (Hn : (1 < INR (length l))%R). { apply (lt_INR 1). exact H. }
  assert (P : (0 <= total (map (fun x => (x - m) * (x - m)) l) / (INR (length l) - 1))%R).
  { apply Rle_mult_inv_pos; [|lra]. rewrite <- (map_map (fun x => x - m)%R (fun y => y * y)%R). apply total_sq_nonneg. }
  split; [apply sqrt_pos|]. exists m. split; [apply mean_ok; discriminate|].
  rewrite sqrt_sqrt by exact P. unfold Rdiv at 1. rewrite Rmult_assoc, Rinv_l, Rmult_1_r; [reflexivity|lra].
Qed.
Lemma std1_none v : (length v <= 1)%nat -> std1 v = None.
Proof. destruct v as [|x [|y v]]; cbn; try reflexivity. lia. Qed.

Theorem samuelson l m s : is_mean l m -> is_sample_std l s -> forall x, In x l ->
  (INR (length l) * ((x - m) * (x - m)) <= (INR (length l) - 1) * (INR (length l) - 1) * (s * s))%R.
Proof.
  intros Hm (_ & m' & Hm' & Hs) x Hx. assert (m' = m) by now apply (mean_unique l). subst m'.
  assert (Z : total (map (fun x => x - m)%R l) = 0%R). { rewrite total_sub. destruct Hm as [_ E]. lra. }
  destruct (in_split _ _ Hx) as (l1 & l2 & ->).
  assert (CS := cauchy_schwarz (map (fun x => x - m)%R (l1 ++ l2))).
  rewrite map_map, map_length, !map_app, !total_app, app_length, plus_INR in CS.
  rewrite map_app, total_app in Z, Hs. cbn [map total] in Z, Hs.
  rewrite app_length in *. cbn [length] in *. rewrite plus_INR, S_INR in *.
  set (n1 := INR (length l1)) in *. set (n2 := INR (length l2)) in *.
  set (t1 := total (map (fun x => x - m)%R l1)) in *. set (t2 := total (map (fun x => x - m)%R l2)) in *.
  set (q1 := total (map (fun x => (x - m) * (x - m))%R l1)) in *. set (q2 := total (map (fun x => (x - m) * (x - m))%R l2)) in *.
  replace (t1 + t2)%R with (- (x - m))%R in CS by lra.
  set (d := (x - m)%R) in *. replace (n1 + (n2 + 1) - 1)%R with (n1 + n2)%R in * by ring.
  replace ((n1 + n2) * (n1 + n2) * (s * s))%R with ((n1 + n2) * (s * s * (n1 + n2)))%R by ring. rewrite Hs. lra.
Qed.
Theorem std_zero l m s : is_mean l m -> is_sample_std l s -> (2 <= length l)%nat -> (s = 0%R <-> forall x, In x l -> x = m).
Proof.
  intros Hm (Hp & m' & Hm' & Hs) Hl. assert (m' = m) by now apply (mean_unique l). subst m'.
  assert (Hn : (1 < INR (length l))%R) by (apply (lt_INR 1); exact Hl).
  rewrite <- (map_map (fun x => x - m)%R (fun y => y * y)%R) in Hs. split.
  - intros -> x Hx. assert (E : (x - m = 0)%R); [|lra].
    apply (total_sq_zero (map (fun x => x - m)%R l)); [rewrite <- Hs; ring|]. now apply (in_map (fun x => x - m)%R).
  - intros H. assert (E : total (map (fun y => y * y)%R (map (fun x => x - m)%R l)) = 0%R).
    { clear -H. induction l as [|x l IH]; [reflexivity|]. cbn. rewrite IH by (intros; apply H; now right). rewrite (H x) by now left. ring. }
    rewrite E in Hs. assert (s * s = 0)%R by nra. now apply Rsqr_0_uniq.
Qed.

(** ** Columns *)
Lemma nonan_Some {A} (l : list A) : nonan (map Some l) = l.
Proof. induction l as [|x l IH]; [reflexivity|]. cbn. now f_equal. Qed.
Lemma nonan_app {A} (l l' : list (option A)) : nonan (l ++ l') = nonan l ++ nonan l'.
Proof. apply flat_map_app. Qed.
Lemma kept_valids {A} : forall (l : list A) valid, map fst (filter snd (combine l valid)) = valids valid l.
Proof.
  induction l as [|x l IH]; intros [|b valid]; try reflexivity. cbn [combine filter snd valids].
  destruct b; cbn [map fst]; now rewrite IH.
Qed.
Lemma valids_map {A B} (f : A -> B) : forall valid l, valids valid (map f l) = map f (valids valid l).
Proof. induction valid as [|b valid IH]; intros [|x l]; try reflexivity. cbn [valids map]. destruct b; cbn [map]; now rewrite IH. Qed.
Lemma valids_In {A} : forall valid (l : list A) x, In x (valids valid l) -> In x l.
Proof.
  induction valid as [|b valid IH]; intros [|y l] x H; try (destruct H; fail). cbn [valids] in H. destruct b.
  - destruct H as [<-|H]; [now left|right; now apply IH].
  - right. now apply IH.
Qed.
Lemma finite_no_nan (p : list C) : has_nan (map Some p) = false.
Proof. induction p as [|x p IH]; [reflexivity|exact IH]. Qed.
Lemma rows_finite (ps : list (list C)) : existsb has_nan (map (map Some) ps) = false.
Proof. induction ps as [|p ps IH]; [reflexivity|]. cbn. rewrite IH. now rewrite finite_no_nan. Qed.
Lemma valids_some valid : forall {A} (l : list A), valids valid l <> [] -> existsb (fun b => b) valid = true.
Proof. induction valid as [|b valid IH]; intros A [|x l] H; try easy. cbn in *. destruct b; [reflexivity|]. now apply (IH A l). Qed.
Lemma rows_1d_ok valid ps : valids valid ps <> [] -> rows_1d valid (map (map Some) ps) = Ok (map (map Some) (valids valid ps)).
Proof.
  intros H. unfold rows_1d. rewrite (valids_some valid ps H). cbn [negb]. rewrite kept_valids, valids_map, rows_finite. reflexivity.
Qed.

(** what a column of values gives *)
Lemma column_result (v : list C) : v <> [] ->
  exists x, nanmean (map Some v) = Some x /\ is_mean (map fst v) (fst x) /\ is_mean (map snd v) (snd x) /\
  ((2 <= length v)%nat -> exists e, nan_std (map Some v) = Some e /\ is_sample_std (map fst v) (fst e) /\ is_sample_std (map snd v) (snd e)) /\
  ((length v <= 1)%nat -> nan_std (map Some v) = None).
Proof.
  intros N. unfold nanmean, nan_std. rewrite nonan_Some.
  assert (P : (0 < INR (length v))%R) by now apply len_pos.
  exists (csum v / RtoC (INR (length v))). split; [destruct v; [easy|reflexivity]|].
  assert (E : csum v / RtoC (INR (length v)) = ((total (map fst v) / INR (length v))%R, (total (map snd v) / INR (length v))%R)).
  { rewrite <- csum_fst, <- csum_snd. destruct (csum v) as [a b]. apply C_ext; cbn; field; apply Rgt_not_eq; assumption. }
  rewrite E. cbn [fst snd].
  assert (N1 : map fst v <> []) by (destruct v; [easy|discriminate]).
  assert (N2 : map snd v <> []) by (destruct v; [easy|discriminate]).
  split; [|split; [|split]].
  - assert (X := mean_ok _ N1). now rewrite map_length in X.
  - assert (X := mean_ok _ N2). now rewrite map_length in X.
  - intros H. destruct (std1_ok (map fst v)) as (s & Es & Hs). { now rewrite map_length. }
    destruct (std1_ok (map snd v)) as (t & Et & Ht). { now rewrite map_length. }
    rewrite Es, Et. exists (s, t). auto.
  - intros H. rewrite (std1_none (map fst v)); [reflexivity|]. now rewrite map_length.
Qed.

Lemma mean_err_ok (rows : list row) m (v : nat -> list C) :
  (exists r rs, rows = r :: rs /\ length r = m) -> (forall j, (j < m)%nat -> v j <> []) ->
  (forall j, (j < m)%nat -> nonan (column j rows) = v j) ->
  exists res, mean_err rows = Ok res /\ length res = m /\ forall j xe, nth_error res j = Some xe -> column_spec (v j) xe.
Proof.
  intros (r & rs & -> & Hr) Hv Hc. unfold mean_err. rewrite Hr. eexists. split; [reflexivity|].
  rewrite map_length, seq_length. split; [reflexivity|]. intros j xe Hj.
  assert (Lj : (j < m)%nat). { rewrite <- (seq_length m 0), <- (map_length (fun j => (nanmean (column j (r :: rs)), nan_std (column j (r :: rs))))). apply nth_error_Some. congruence. }
  rewrite (map_nth_error (fun j => (nanmean (column j (r :: rs)), nan_std (column j (r :: rs)))) j (seq 0 m) (d := j)) in Hj.
  2: { rewrite nth_error_nth' with (d := 0%nat) by (rewrite seq_length; exact Lj). now rewrite seq_nth. }
  injection Hj as <-. 
  destruct (column_result (v j) (Hv j Lj)) as (x & E1 & M1 & M2 & S1 & S2).
  assert (En : nanmean (column j (r :: rs)) = nanmean (map Some (v j))). { unfold nanmean. rewrite Hc, nonan_Some by exact Lj. reflexivity. }
  assert (Es : nan_std (column j (r :: rs)) = nan_std (map Some (v j))). { unfold nan_std. rewrite Hc, nonan_Some by exact Lj. reflexivity. }
  exists x. cbn [fst snd]. change (nth j r None :: column j rs) with (column j (r :: rs)). rewrite En, Es. auto.
Qed.

(** ** One mask for all *)
Theorem mod_average_spec (mod_fct : row -> row) (g : list C -> list C) m valid ps :
  (forall p, In p (valids valid ps) -> mod_fct (map Some p) = map Some (g p) /\ length (g p) = m) -> valids valid ps <> [] ->
  exists res, mod_average mod_fct valid (map (map Some) ps) = Ok res /\ length res = m /\
    forall j xe, nth_error res j = Some xe -> column_spec (map (fun p => nth j (g p) (RtoC 0)) (valids valid ps)) xe.
Proof.
  intros Hg Hn. unfold mod_average. rewrite rows_1d_ok by exact Hn. cbn [bind].
  destruct (valids valid ps) as [|p0 vp] eqn:Ev; [easy|].
  apply (mean_err_ok (map mod_fct (map (map Some) (p0 :: vp))) m (fun j => map (fun p => nth j (g p) (RtoC 0)) (p0 :: vp))).
  - exists (mod_fct (map Some p0)), (map mod_fct (map (map Some) vp)). split; [reflexivity|].
    destruct (Hg p0 (or_introl eq_refl)) as [-> L]. now rewrite map_length.
  - intros j _. discriminate.
  - intros j Hj. unfold column. rewrite !map_map. rewrite <- (nonan_Some (map (fun p => nth j (g p) (RtoC 0)) (p0 :: vp))), map_map.
    f_equal. apply map_ext_in. intros p Hp. destruct (Hg p Hp) as [-> L].
    rewrite (nth_indep _ None (Some (RtoC 0))) by (rewrite map_length, L; exact Hj). apply (map_nth Some).
Qed.
Lemma average_is_mod valid pades : average valid pades = mod_average (fun r => r) valid pades.
Proof. unfold average, mod_average. destruct (rows_1d valid pades); [|reflexivity]. cbn. now rewrite map_id. Qed.
Theorem average_spec m valid ps :
  (forall p, In p ps -> length p = m) -> valids valid ps <> [] ->
  exists res, average valid (map (map Some) ps) = Ok res /\ length res = m /\
    forall j xe, nth_error res j = Some xe -> column_spec (map (fun p => nth j p (RtoC 0)) (valids valid ps)) xe.
Proof.
  intros Hl Hn. rewrite average_is_mod. apply (mod_average_spec (fun r => r) (fun p => p) m valid ps); [|exact Hn].
  intros p Hp. split; [reflexivity|]. apply Hl. now apply (valids_In valid).
Qed.

(** ** Mask with further axes *)
Lemma masked_column (mod_fct : row -> row) (g : list C -> list C) m j : (j < m)%nat -> forall ps valid, length valid = length ps ->
  (forall p, In p ps -> mod_fct (map Some p) = map Some (g p) /\ length (g p) = m /\ nth j (mod_fct (map (fun _ => None) p)) None = None) ->
  nonan (column j (map mod_fct (masked_rows valid (map (map Some) ps)))) = map (fun p => nth j (g p) (RtoC 0)) (valids valid ps).
Proof.
  intros Hj. induction ps as [|p ps IH]; intros [|b valid] Hl Hg; try discriminate Hl; [reflexivity|]. injection Hl as Hl.
  destruct (Hg p (or_introl eq_refl)) as (E & L & N).
  assert (IH' := IH valid Hl (fun p Hp => Hg p (or_intror Hp))).
  unfold column, masked_rows in *. cbn [map combine fst snd valids]. destruct b.
  - rewrite E. rewrite (nth_indep _ None (Some (RtoC 0))) by (rewrite map_length, L; exact Hj). rewrite (map_nth Some).
    cbn [nonan flat_map app map]. f_equal. exact IH'.
  - rewrite map_map. rewrite N. cbn [nonan flat_map app]. exact IH'.
Qed.
Lemma all_ok_spec {A B} (f : A -> result B) (P : A -> B -> Prop) : forall l, (forall x, In x l -> exists y, f x = Ok y /\ P x y) ->
  exists r, all_ok f l = Ok r /\ Forall2 P l r.
Proof.
  induction l as [|x l IH]; intros H; [exists []; split; [reflexivity|constructor]|].
  destruct (H x (or_introl eq_refl)) as (y & E & Hy). destruct (IH (fun x Hx => H x (or_intror Hx))) as (r & Er & Hr).
  exists (y :: r). cbn. rewrite E. cbn. rewrite Er. cbn. split; [reflexivity|]. now constructor.
Qed.
Theorem mod_average_nd_spec (mod_fct : row -> row) (g : list C -> list C) m cols :
  (forall c, In c cols -> length (fst c) = length (snd c) /\ existsb (fun b => b) (fst c) = true) ->
  (forall c p, In c cols -> In p (snd c) -> mod_fct (map Some p) = map Some (g p) /\ length (g p) = m /\
     length (mod_fct (map (fun _ => None) p)) = m /\ forall j, nth j (mod_fct (map (fun _ => None) p)) None = None) ->
  exists res, mod_average_nd mod_fct (map lift_col cols) = Ok res /\
    Forall2 (fun c r => length r = m /\ forall j xe, nth_error r j = Some xe -> column_spec (map (fun p => nth j (g p) (RtoC 0)) (valids (fst c) (snd c))) xe) cols res.
Proof.
  intros Hc Hg. unfold mod_average_nd, rows_nd.
  assert (E1 : existsb (fun c : list bool * list row => negb (existsb (fun b => b) (fst c))) (map lift_col cols) = false).
  { clear Hg. induction cols as [|c cols IH]; [reflexivity|]. cbn [map existsb lift_col fst]. rewrite (proj2 (Hc c (or_introl eq_refl))). cbn. apply IH. intros; apply Hc; now right. }
  assert (E2 : existsb (fun c : list bool * list row => existsb has_nan (snd c)) (map lift_col cols) = false).
  { clear. induction cols as [|c cols IH]; [reflexivity|]. cbn [map existsb lift_col snd]. now rewrite rows_finite. }
  assert (E3 : existsb (fun c : list bool * list row => negb (length (fst c) =? length (snd c))%nat) (map lift_col cols) = false).
  { clear Hg E1 E2. induction cols as [|c cols IH]; [reflexivity|]. cbn [map existsb lift_col fst snd]. rewrite map_length, (proj1 (Hc c (or_introl eq_refl))), Nat.eqb_refl. cbn. apply IH. intros; apply Hc; now right. }
  rewrite E1, E2, E3. cbn [bind]. clear E1 E2 E3. rewrite map_map.
  assert (X : forall c, In c cols -> exists r, mean_err (map mod_fct (masked_rows (fst (lift_col c)) (snd (lift_col c)))) = Ok r /\
     (length r = m /\ forall j xe, nth_error r j = Some xe -> column_spec (map (fun p => nth j (g p) (RtoC 0)) (valids (fst c) (snd c))) xe)).
  { intros [valid ps] Hin. destruct (Hc _ Hin) as [L V]. cbn [fst snd lift_col] in *.
    apply (mean_err_ok _ m (fun j => map (fun p => nth j (g p) (RtoC 0)) (valids valid ps))).
    - destruct ps as [|p ps], valid as [|b valid]; try discriminate L; [discriminate V|].
      destruct (Hg _ p Hin (or_introl eq_refl)) as (G1 & G2 & G3 & _).
      unfold masked_rows. cbn [map combine fst snd]. eexists. eexists. split; [reflexivity|]. destruct b.
      + now rewrite G1, map_length.
      + now rewrite map_map.
    - intros j _ E. apply map_eq_nil in E. clear -L V E. revert ps L E. induction valid as [|b valid IH]; [discriminate|].
      intros [|p ps] L E; [discriminate|]. cbn in *. destruct b; [discriminate|]. apply (IH V ps); [now injection L|exact E].
    - intros j Hj. apply (masked_column mod_fct g m j Hj ps valid L). intros p Hp. destruct (Hg _ p Hin Hp) as (G1 & G2 & _ & G4). auto. }
  clear -X. induction cols as [|c cols IH]; [exists []; split; [reflexivity|constructor]|].
  destruct (X c (or_introl eq_refl)) as (r & E & Hr). destruct IH as (rs & Ers & Hrs). { intros; apply X; now right. }
  exists (r :: rs). cbn [map all_ok]. rewrite E. cbn [bind]. rewrite Ers. cbn [bind]. split; [reflexivity|]. now constructor.
Qed.

(** ** Linear functions commute with the average *)
Lemma dot_add (u v : nat -> C) : forall l a, dot a (map (fun k => u k + v k) l) = dot a (map u l) + dot a (map v l).
Proof. induction l as [|k l IH]; intros [|x a]; cbn [map dot]; try ring. rewrite IH. ring. Qed.
Lemma dot_scale (c : C) (u : nat -> C) : forall l a, dot a (map (fun k => u k * c) l) = dot a (map u l) * c.
Proof. induction l as [|k l IH]; intros [|x a]; cbn [map dot]; try ring. rewrite IH. ring. Qed.
Lemma dot_zero : forall l a, dot a (map (fun _ : nat => RtoC 0) l) = RtoC 0.
Proof. induction l as [|k l IH]; intros [|x a]; cbn [map dot]; try reflexivity. rewrite IH. ring. Qed.
Lemma nth_seq_id (p : list C) : map (fun k => nth k p (RtoC 0)) (seq 0 (length p)) = p.
Proof.
  apply nth_ext with (d := RtoC 0) (d' := RtoC 0); [now rewrite map_length, seq_length|]. intros n Hn. rewrite map_length, seq_length in Hn.
  rewrite (nth_indep _ (RtoC 0) ((fun k => nth k p (RtoC 0)) 0%nat)) by (now rewrite map_length, seq_length).
  rewrite (map_nth (fun k => nth k p (RtoC 0))). now rewrite seq_nth.
Qed.
Lemma dot_csum a m : forall vp : list (list C), (forall p, In p vp -> length p = m) ->
  dot a (map (fun k => csum (map (fun p => nth k p (RtoC 0)) vp)) (seq 0 m)) = csum (map (dot a) vp).
Proof.
  induction vp as [|p vp IH]; intros H; [apply dot_zero|]. cbn [map csum fold_right].
  rewrite (dot_add (fun k => nth k p (RtoC 0)) (fun k => csum (map (fun p => nth k p (RtoC 0)) vp))).
  rewrite IH by (intros; apply H; now right). rewrite <- (H p) by now left. rewrite nth_seq_id. reflexivity.
Qed.
Lemma nanmean_Some v : v <> [] -> nanmean (map Some v) = Some (csum v / RtoC (INR (length v))).
Proof. intros H. unfold nanmean. rewrite nonan_Some. destruct v; [easy|reflexivity]. Qed.

Theorem linear_commutes (A : list (list C)) m valid ps :
  (forall p, In p ps -> length p = m) -> valids valid ps <> [] ->
  exists res res' xbar, average valid (map (map Some) ps) = Ok res /\ map fst res = map Some xbar /\
    mod_average (fun r => map Some (mat_vec A (nonan r))) valid (map (map Some) ps) = Ok res' /\ map fst res' = map Some (mat_vec A xbar).
Proof.
  intros Hl Hn. unfold average, mod_average. rewrite rows_1d_ok by exact Hn. cbn [bind].
  assert (Hv : forall p, In p (valids valid ps) -> length p = m) by (intros p Hp; apply Hl; now apply (valids_In valid)).
  remember (valids valid ps) as vp eqn:Ev. clear Ev.
  destruct vp as [|p0 vp]; [easy|]. set (V := p0 :: vp) in *.
  set (n := RtoC (INR (length V))).
  exists (map (fun j => (nanmean (column j (map (map Some) V)), nan_std (column j (map (map Some) V)))) (seq 0 m)).
  set (rows' := map (fun r => map Some (mat_vec A (nonan r))) (map (map Some) V)).
  exists (map (fun j => (nanmean (column j rows'), nan_std (column j rows'))) (seq 0 (length A))).
  exists (map (fun k => csum (map (fun p => nth k p (RtoC 0)) V) * / n) (seq 0 m)).
  split; [|split; [|split]].
  - unfold mean_err, V. cbn [map]. rewrite map_length, Hv by now left. reflexivity.
  - rewrite !map_map. apply map_ext_in. intros j Hj. apply in_seq in Hj. cbn [fst].
    replace (column j (map (map Some) V)) with (map Some (map (fun p => nth j p (RtoC 0)) V)).
    { rewrite nanmean_Some by discriminate. rewrite map_length. reflexivity. }
    unfold column. rewrite !map_map. apply map_ext_in. intros p Hp.
    rewrite (nth_indep _ None (Some (RtoC 0))) by (rewrite map_length, Hv by exact Hp; lia). symmetry. apply (map_nth Some).
  - unfold mean_err, rows', V. cbn [map]. rewrite map_length. unfold mat_vec. rewrite map_length. reflexivity.
  - rewrite map_map. unfold mat_vec. rewrite map_map.

    apply nth_ext with (d := None) (d' := None); [now rewrite !map_length, seq_length|]. intros j Hj. rewrite map_length, seq_length in Hj.
    rewrite (nth_indep _ None ((fun j => fst (nanmean (column j rows'), nan_std (column j rows'))) 0%nat)) by now rewrite map_length, seq_length.
    rewrite (map_nth (fun j => fst (nanmean (column j rows'), nan_std (column j rows')))). rewrite seq_nth by exact Hj. cbn [fst Nat.add].
    rewrite (nth_indep _ None ((fun a => Some (dot a (map (fun k => csum (map (fun p => nth k p (RtoC 0)) V) * / n) (seq 0 m)))) [])) by now rewrite map_length.
    rewrite (map_nth (fun a => Some (dot a (map (fun k => csum (map (fun p => nth k p (RtoC 0)) V) * / n) (seq 0 m))))).
    replace (column j rows') with (map Some (map (dot (nth j A [])) V)).
    { rewrite nanmean_Some by discriminate. rewrite map_length. f_equal. rewrite dot_scale, (dot_csum _ m V Hv). reflexivity. }
    unfold column, rows'. rewrite !map_map. apply map_ext_in. intros p Hp. rewrite nonan_Some. unfold mat_vec. rewrite map_map.
    rewrite (nth_indep _ None ((fun a => Some (dot a p)) [])) by now rewrite map_length.
    now rewrite (map_nth (fun a => Some (dot a p))).
Qed.
