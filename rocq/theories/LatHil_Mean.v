(** * Averages over wave vectors in any dimension *)
From Coq Require Import Reals Lra Lia List.
From Coquelicot Require Import Coquelicot.
From Verif Require Import Base CBase CSqrt Bethe_Main Fourier_Filon LatInt_Spec LatInt_Proofs LatInt_Hilbert LatInt_Fubini LatInt_Square LatHil_Poisson LatHil_Main.
Local Open Scope R_scope.

Fixpoint K (n : nat) : Type := match n with O => unit | S n => (K n * R)%type end.
Fixpoint near (n : nat) (r : R) : K n -> K n -> Prop :=
  match n with O => fun _ _ => True | S n => fun k k' => near n r (fst k) (fst k') /\ Rabs (snd k' - snd k) < r end.
Definition uc (n : nat) (g : K n -> R) : Prop := forall t, 0 < t -> exists r, 0 < r /\ forall k k', near n r k k' -> Rabs (g k' - g k) <= t.
Definition avg (f : R -> R) : R := RInt f (- PI) PI / (2 * PI).
Fixpoint mean (n : nat) : (K n -> R) -> R := match n with O => fun g => g tt | S n => fun g => mean n (fun k => avg (fun s => g (k, s))) end.

Lemma near_refl n r k : 0 < r -> near n r k k.
Proof. intros Hr. induction n as [|n IH]; cbn; [exact Logic.I|]. split; [apply IH|]. rewrite Rminus_eq_0, Rabs_R0. exact Hr. Qed.
Lemma near_le n r r' k k' : r' <= r -> near n r' k k' -> near n r k k'.
Proof. intros Hr. induction n as [|n IH]; cbn; [trivial|]. intros [A B]. split; [apply IH, A|lra]. Qed.
Lemma uc_const n c : uc n (fun _ => c).
Proof. intros t Ht. exists 1. split; [lra|]. intros. rewrite Rminus_eq_0, Rabs_R0. lra. Qed.
Lemma uc_ext n f g : (forall k, f k = g k) -> uc n f -> uc n g.
Proof. intros E H t Ht. destruct (H t Ht) as (r & Hr & B). exists r. split; [exact Hr|]. intros k k' N. rewrite <- !E. apply B, N. Qed.
Lemma uc_plus n f g : uc n f -> uc n g -> uc n (fun k => f k + g k).
Proof.
  intros A B t Ht. destruct (A (t / 2) ltac:(lra)) as (r1 & H1 & B1). destruct (B (t / 2) ltac:(lra)) as (r2 & H2 & B2). exists (Rmin r1 r2). split; [apply Rmin_pos; assumption|]. intros k k' N.
  specialize (B1 k k' (near_le n _ _ _ _ (Rmin_l r1 r2) N)). specialize (B2 k k' (near_le n _ _ _ _ (Rmin_r r1 r2) N)). replace (f k' + g k' - (f k + g k)) with ((f k' - f k) + (g k' - g k)) by ring. eapply Rle_trans; [apply Rabs_triang|lra].
Qed.
Lemma uc_scal n c f : uc n f -> uc n (fun k => c * f k).
Proof.
  intros A t Ht. assert (P := Rabs_pos c). destruct (A (t / (Rabs c + 1))) as (r & Hr & B); [apply Rdiv_lt_0_compat; lra|]. exists r. split; [exact Hr|]. intros k k' N. rewrite <- Rmult_minus_distr_l, Rabs_mult.
  apply Rle_trans with ((Rabs c + 1) * (t / (Rabs c + 1))); [|right; field; lra]. apply Rmult_le_compat; try apply Rabs_pos; [lra|apply B, N].
Qed.
Lemma uc_mult n f g Bf Bg : uc n f -> uc n g -> (forall k, Rabs (f k) <= Bf) -> (forall k, Rabs (g k) <= Bg) -> uc n (fun k => f k * g k).
Proof.
  intros A B Hf Hg t Ht. assert (Pf : 0 <= Rabs Bf) by apply Rabs_pos. assert (Pg : 0 <= Rabs Bg) by apply Rabs_pos. assert (Lf := Rle_abs Bf). assert (Lg := Rle_abs Bg).
  destruct (A (t / 2 / (Rabs Bg + 1))) as (r1 & H1 & B1); [apply Rdiv_lt_0_compat; lra|]. destruct (B (t / 2 / (Rabs Bf + 1))) as (r2 & H2 & B2); [apply Rdiv_lt_0_compat; lra|]. exists (Rmin r1 r2). split; [apply Rmin_pos; assumption|]. intros k k' N.
  specialize (B1 k k' (near_le n _ _ _ _ (Rmin_l r1 r2) N)). specialize (B2 k k' (near_le n _ _ _ _ (Rmin_r r1 r2) N)). replace (f k' * g k' - f k * g k) with ((f k' - f k) * g k' + f k * (g k' - g k)) by ring. eapply Rle_trans; [apply Rabs_triang|]. rewrite !Rabs_mult.
  replace t with (t / 2 / (Rabs Bg + 1) * (Rabs Bg + 1) + (Rabs Bf + 1) * (t / 2 / (Rabs Bf + 1))) by (field; lra). apply Rplus_le_compat; apply Rmult_le_compat; try apply Rabs_pos; try assumption; [specialize (Hg k')|specialize (Hf k)]; lra.
Qed.
Lemma uc_comp n f g a b : uc n g -> (forall k, a <= g k <= b) -> (forall x, a <= x <= b -> continuous f x) -> uc n (fun k => f (g k)).
Proof.
  intros G R0 F t Ht. destruct (Rle_dec a b) as [Hab|N].
  - destruct (cover a b (fun u r => forall y, Rabs (y - u) < r -> Rabs (f y - f u) <= t)) as (d & Hd & B).
    + exact Hab.
    + intros u r r' Hr Q y Hy. apply Q. lra.
    + intros e He. destruct (eps_cont f e (F e He) (t / 2) ltac:(lra)) as (r & Hr & B). exists (r / 2). split; [lra|]. intros u _ Hu y Hy. assert (B1 := B u ltac:(lra)). assert (B2 : Rabs (f y - f e) < t / 2). { apply B. replace (y - e) with ((y - u) + (u - e)) by ring. eapply Rle_lt_trans; [apply Rabs_triang|lra]. }
      replace (f y - f u) with ((f y - f e) - (f u - f e)) by ring. eapply Rle_trans; [apply Rabs_triang|]. rewrite Rabs_Ropp. lra.
    + destruct (G (d / 2) ltac:(lra)) as (r & Hr & Q). exists r. split; [exact Hr|]. intros k k' Nk. apply (B (g k) (R0 k)). specialize (Q k k' Nk). lra.
  - exists 1. split; [lra|]. intros k. exfalso. specialize (R0 k). lra.
Qed.
Lemma uc_fst n g : uc n g -> uc (S n) (fun k => g (fst k)).
Proof. intros G t Ht. destruct (G t Ht) as (r & Hr & B). exists r. split; [exact Hr|]. intros k k' [A _]. apply B, A. Qed.
Lemma uc_snd n (f : R -> R) c : (forall x y, Rabs (f x - f y) <= c * Rabs (x - y)) -> uc (S n) (fun k => f (snd k)).
Proof.
  intros F t Ht. assert (P := Rabs_pos c). assert (Lc := Rle_abs c). exists (t / (Rabs c + 1)). split; [apply Rdiv_lt_0_compat; lra|]. intros k k' [_ A]. eapply Rle_trans; [apply F|]. assert (Y := Rabs_pos (snd k' - snd k)).
  apply Rle_trans with ((Rabs c + 1) * (t / (Rabs c + 1))); [|right; field; lra]. apply Rle_trans with ((Rabs c + 1) * Rabs (snd k' - snd k)); [apply Rmult_le_compat_r; lra|apply Rmult_le_compat_l; lra].
Qed.

Lemma uc_cont n g k : uc (S n) g -> cont (fun s => g (k, s)).
Proof. intros G s. apply cont_eps. intros t Ht. destruct (G t Ht) as (r & Hr & B). exists r. split; [exact Hr|]. intros y Hy. apply B. split; [apply near_refl, Hr|exact Hy]. Qed.
Lemma pi2 : 0 < 2 * PI. Proof. assert (P := PI_RGT_0). lra. Qed.
Lemma avg_plus f g : cont f -> cont g -> avg (fun s => f s + g s) = avg f + avg g.
Proof.
  intros A B. unfold avg. replace (RInt (fun s => f s + g s) (- PI) PI) with (RInt f (- PI) PI + RInt g (- PI) PI) by (symmetry; apply (RInt_plus (V := R_CompleteNormedModule) f g); apply cont_int; assumption). field. assert (P := pi2). lra.
Qed.
Lemma avg_scal c f : cont f -> avg (fun s => c * f s) = c * avg f.
Proof. intros A. unfold avg. replace (RInt (fun s => c * f s) (- PI) PI) with (c * RInt f (- PI) PI) by (symmetry; apply (RInt_scal (V := R_CompleteNormedModule) f); apply cont_int; assumption). field. assert (P := pi2). lra. Qed.
Lemma avg_const c : avg (fun _ => c) = c.
Proof. unfold avg. rewrite RInt_const. unfold scal; cbn; unfold mult; cbn. field. assert (P := pi2). lra. Qed.
Lemma avg_mono f g : cont f -> cont g -> (forall s, f s <= g s) -> avg f <= avg g.
Proof. intros A B H. assert (P := pi2). unfold avg. apply Rmult_le_compat_r; [left; apply Rinv_0_lt_compat, P|]. apply RInt_le; [lra|apply cont_int, A|apply cont_int, B|intros; apply H]. Qed.
Lemma avg_ext f g : (forall s, f s = g s) -> avg f = avg g.
Proof. intros E. unfold avg. f_equal. apply RInt_ext. intros; apply E. Qed.
Lemma avg_diff f g t : cont f -> cont g -> (forall s, Rabs (f s - g s) <= t) -> Rabs (avg f - avg g) <= t.
Proof.
  intros A B H. apply Rabs_le. assert (H1 : avg f <= avg (fun s => g s + t)) by (apply avg_mono; [exact A|apply cont_plus; [exact B|apply cont_const]|intros s; specialize (H s); apply Rabs_le_between in H; lra]).
  assert (H2 : avg g <= avg (fun s => f s + t)) by (apply avg_mono; [exact B|apply cont_plus; [exact A|apply cont_const]|intros s; specialize (H s); apply Rabs_le_between in H; lra]).
  rewrite avg_plus, avg_const in H1, H2 by (assumption || apply cont_const). lra.
Qed.
Lemma uc_avg n g : uc (S n) g -> uc n (fun k => avg (fun s => g (k, s))).
Proof.
  intros G t Ht. destruct (G t Ht) as (r & Hr & B). exists r. split; [exact Hr|]. intros k k' N. apply avg_diff; try (apply uc_cont, G). intros s. apply B. split; [exact N|]. cbn. rewrite Rminus_eq_0, Rabs_R0. exact Hr.
Qed.
Lemma mean_ext n : forall f g, (forall k, f k = g k) -> mean n f = mean n g.
Proof. induction n as [|n IH]; cbn; intros f g E; [apply E|]. apply IH. intros k. apply avg_ext. intros s. apply E. Qed.
Lemma mean_plus n : forall f g, uc n f -> uc n g -> mean n (fun k => f k + g k) = mean n f + mean n g.
Proof.
  induction n as [|n IH]; cbn [mean]; intros f g A B; [reflexivity|]. rewrite <- IH by (apply uc_avg; assumption). apply mean_ext. intros k. apply avg_plus; apply uc_cont; assumption.
Qed.
Lemma mean_scal n c : forall f, uc n f -> mean n (fun k => c * f k) = c * mean n f.
Proof. induction n as [|n IH]; cbn [mean]; intros f A; [reflexivity|]. rewrite <- IH by (apply uc_avg; assumption). apply mean_ext. intros k. apply avg_scal, uc_cont, A. Qed.
Lemma mean_const n c : mean n (fun _ => c) = c.
Proof. induction n as [|n IH]; cbn [mean]; [reflexivity|]. transitivity (mean n (fun _ => c)); [apply mean_ext; intros; apply avg_const|exact IH]. Qed.
Lemma mean_mono n : forall f g, uc n f -> uc n g -> (forall k, f k <= g k) -> mean n f <= mean n g.
Proof.
  induction n as [|n IH]; cbn [mean]; intros f g A B H; [apply H|]. apply IH; [apply uc_avg, A|apply uc_avg, B|]. intros k. apply avg_mono; [apply uc_cont, A|apply uc_cont, B|intros s; apply H].
Qed.
(** the average of functions of a band energy *)
Lemma mean_meanl n eps M : uc n eps -> (forall k, - M <= eps k <= M) -> meanl (fun f => mean n (fun k => f (eps k))) M.
Proof.
  intros U B. assert (Uf : forall f, cont f -> uc n (fun k => f (eps k))) by (intros f Cf; apply (uc_comp n f eps (- M) M); [exact U|exact B|intros x _; apply Cf]). split.
  - intros f g A C. apply mean_plus; apply Uf; assumption.
  - intros c f A. apply mean_scal, Uf, A.
  - intros f g A C H. apply mean_mono; try (apply Uf; assumption). intros k. apply H, B.
Qed.
Lemma meanl_comb L1 L2 M a b : 0 <= a -> 0 <= b -> meanl L1 M -> meanl L2 M -> meanl (fun f => a * L1 f + b * L2 f) M.
Proof.
  intros Ha Hb [P1 S1 M1] [P2 S2 M2]. split.
  - intros f g A B. rewrite P1, P2 by assumption. ring.
  - intros c f A. rewrite S1, S2 by assumption. ring.
  - intros f g A B H. apply Rplus_le_compat; apply Rmult_le_compat_l; try assumption; [apply M1|apply M2]; assumption.
Qed.

(** ** no weight at single energies *)
Definition lor (d x : R) : R := d * d / (x * x + d * d).
Lemma lor_den d x : 0 < d -> 0 < x * x + d * d.
Proof. intros Hd. assert (X := Rle_0_sqr x). unfold Rsqr in X. assert (0 < d * d) by (apply Rmult_lt_0_compat; lra). lra. Qed.
Lemma lor_pos d x : 0 < d -> 0 <= lor d x <= 1.
Proof.
  intros Hd. assert (A := lor_den d x Hd). assert (X := Rle_0_sqr x). unfold Rsqr in X. assert (D2 := Rle_0_sqr d). unfold Rsqr in D2. unfold lor. split; [apply Rdiv_le_0_compat; lra|]. apply Rmult_le_reg_r with (x * x + d * d); [exact A|].
  unfold Rdiv. rewrite Rmult_assoc, Rinv_l by lra. lra.
Qed.
Lemma lor_c d : 0 < d -> cont (lor d).
Proof. intros Hd x. apply (ex_derive_continuous (V := R_NormedModule)). assert (A := lor_den d x Hd). unfold lor. auto_derive. lra. Qed.
Definition bounded n (X : K n -> R) : Prop := exists B, forall k, - B <= X k <= B.
Lemma uc_lor n d X : 0 < d -> uc n X -> bounded n X -> uc n (fun k => lor d (X k)).
Proof. intros Hd U [B HB]. apply (uc_comp n (lor d) X (- B) B); [exact U|exact HB|intros x _; apply lor_c, Hd]. Qed.
Definition noatom n (X : K n -> R) : Prop := forall t, 0 < t -> exists r, 0 < r /\ forall d, 0 < d < r -> mean n (fun k => lor d (X k)) <= t.
Lemma noatom_const n c : c <> 0 -> noatom n (fun _ => c).
Proof.
  intros Hc t Ht. assert (C2 : 0 < c * c) by nra. exists (Rmin 1 (t * (c * c))). split; [apply Rmin_pos; [lra|apply Rmult_lt_0_compat; lra]|]. intros d Hd. rewrite mean_const. assert (m1 := Rmin_l 1 (t * (c * c))). assert (m2 := Rmin_r 1 (t * (c * c))).
  unfold lor. assert (A := lor_den d c ltac:(lra)). apply Rmult_le_reg_r with (c * c + d * d); [exact A|]. unfold Rdiv. rewrite Rmult_assoc, Rinv_l, Rmult_1_r by lra. assert (d * d <= d) by nra. assert (0 <= t * (d * d)) by (apply Rmult_le_pos; nra). nra.
Qed.
Lemma noatom_ext n X Y : (forall k, X k = Y k) -> noatom n X -> noatom n Y.
Proof. intros E H t Ht. destruct (H t Ht) as (r & Hr & B). exists r. split; [exact Hr|]. intros d Hd. rewrite <- (mean_ext n (fun k => lor d (X k))) by (intros; now rewrite E). apply B, Hd. Qed.
Lemma noatom_scal n a X : a <> 0 -> uc n X -> bounded n X -> noatom n X -> noatom n (fun k => a * X k).
Proof.
  intros Ha U BX H t Ht. assert (Ap := Rabs_pos_lt a Ha). destruct (H t Ht) as (r & Hr & B). exists (r * Rabs a). split; [apply Rmult_lt_0_compat; assumption|]. intros d Hd.
  assert (E : forall k, lor d (a * X k) = lor (d / Rabs a) (X k)). { intros k. unfold lor. assert (Q : Rabs a * Rabs a = a * a) by (unfold Rabs; destruct (Rcase_abs a); ring). assert (A := lor_den d (a * X k) ltac:(lra)). assert (A' := lor_den (d / Rabs a) (X k) ltac:(apply Rdiv_lt_0_compat; lra)).
    replace (d / Rabs a * (d / Rabs a)) with (d * d / (Rabs a * Rabs a)) in * by (field; lra). rewrite Q in *. replace (a * X k * (a * X k)) with (a * a * (X k * X k)) in * by ring. assert (a2 : 0 < a * a) by nra. revert A a2. generalize (a * a) (X k * X k) (d * d). intros b y e A b2. field. split; lra. }
  rewrite (mean_ext n _ _ E). apply B. split; [apply Rdiv_lt_0_compat; lra|]. apply Rmult_lt_reg_r with (Rabs a); [exact Ap|]. unfold Rdiv. rewrite Rmult_assoc, Rinv_l by lra. lra.
Qed.

Section Chain.
Local Open Scope C_scope.
Lemma chain_cint (A phi : R) (z : C) : A <> 0%R -> snd z <> 0%R -> is_CInt (fun a => 1 / (z - RtoC (A * cos (a + phi)))) (- PI) PI (RtoC (2 * PI) / (z * csqrt (1 - (RtoC (Rabs A) / z) * (RtoC (Rabs A) / z)))).
Proof.
  intros HA Hz. assert (Dp := Rabs_pos_lt A HA). assert (Off : off_band (Rabs A) z) by (left; exact Hz). set (s := (A / Rabs A)%R).
  assert (Es : (Rabs A * s = A)%R) by (unfold s; field; lra). assert (Ss : (s * s = 1)%R). { unfold s. assert (Q : (Rabs A * Rabs A = A * A)%R) by (unfold Rabs; destruct (Rcase_abs A); ring). replace (A / Rabs A * (A / Rabs A))%R with (A * A / (Rabs A * Rabs A))%R by (field; lra). rewrite Q. field. exact HA. }
  assert (I := chain_int (Rabs A) Dp z Off s ltac:(nra)). rewrite Ss in I. change (RtoC 1) with (1 : C) in I. replace (RtoC (Rabs A) / z * (RtoC (Rabs A) / z) * 1) with (RtoC (Rabs A) / z * (RtoC (Rabs A) / z)) in I by ring.
  apply (is_CInt_shift _ _ _ _ (- phi)) in I. replace PI with (- PI + 2 * PI)%R at 2 by ring. apply (periodic_any _ (2 * PI) (- PI + - phi) (- PI)).
  - intros x. apply (ccont_ext (fun a => 1 * / (z - RtoC (A * cos (a + phi))))); [reflexivity|]. apply ccont_mult; [apply ccont_const|]. apply ccont_inv.
    + apply ccont_minus; [apply ccont_const|]. apply ccont_R. apply (ex_derive_continuous (fun a => A * cos (a + phi))%R). auto_derive. trivial.
    + intros E. apply Hz. assert (E2 := f_equal snd E). cbn in E2. lra.
  - intros x. replace (cos (x + 2 * PI + phi)) with (cos (x + phi)); [reflexivity|]. symmetry. replace (x + 2 * PI + phi)%R with (x + phi + 2 * INR 1 * PI)%R by (cbn; ring). apply cos_period.
  - replace (- PI + - phi + 2 * PI)%R with (PI + - phi)%R by ring. apply is_CInt_ext with (2 := I). intros a _. replace (Rabs A * (s * cos (a - - phi)))%R with (A * cos (a + phi))%R; [reflexivity|]. rewrite <- Rmult_assoc, Es. do 2 f_equal. ring.
Qed.
Lemma res_im (d x : R) : (0 < d)%R -> snd (1 / ((- x)%R, d))%C = (- (d / (x * x + d * d)))%R.
Proof. intros Hd. assert (A := lor_den d x Hd). cbn. field. assert (Y := lor_den d (- x) Hd). repeat split; try lra; intros Z; nra. Qed.
End Chain.
Lemma chain_bound c A phi d : 0 < d -> 0 <= avg (fun s => lor d (c + A * cos (s + phi))) <= 1 /\ avg (fun s => lor d (c + A * cos (s + phi))) * avg (fun s => lor d (c + A * cos (s + phi))) * Rabs A <= d.
Proof.
  intros Hd. assert (Cc : cont (fun s => lor d (c + A * cos (s + phi)))). { intros x. apply (continuous_comp (fun s => c + A * cos (s + phi)) (lor d)); [|apply lor_c, Hd]. apply (ex_derive_continuous (V := R_NormedModule)). auto_derive. trivial. }
  split. { assert (E0 := avg_const 0). assert (E1 := avg_const 1). split; [apply Rle_trans with (avg (fun _ => 0)); [lra|]|apply Rle_trans with (avg (fun _ => 1)); [|lra]]; apply avg_mono; try apply cont_const; try exact Cc; intros s; apply lor_pos, Hd. }
  destruct (Req_dec A 0) as [->|HA]; [rewrite Rabs_R0; lra|]. set (z := ((- c)%R, d) : C). assert (I := chain_cint A phi z HA ltac:(cbn; lra)). set (S := csqrt (1 - RtoC (Rabs A) / z * (RtoC (Rabs A) / z))%C) in *.
  assert (z0 : z <> RtoC 0) by (intros E; assert (E2 := f_equal snd E); cbn in E2; lra).
  assert (S2 : ((z * S) * (z * S) = (z - RtoC A) * (z + RtoC A))%C). { transitivity (z * z * (S * S))%C; [ring|]. unfold S. rewrite csqrt_sqr. assert (Q : (RtoC (Rabs A) * RtoC (Rabs A) = RtoC A * RtoC A)%C) by (rewrite <- !RtoC_mult; f_equal; unfold Rabs; destruct (Rcase_abs A); ring).
    transitivity (z * z - RtoC (Rabs A) * RtoC (Rabs A))%C; [field; exact z0|]. rewrite Q. ring. }
  set (m := Cmod (z * S)%C). assert (Hm : m * m = Cmod (z - RtoC A)%C * Cmod (z + RtoC A)%C) by (unfold m; rewrite <- !Cmod_mult, S2; reflexivity).
  assert (B1 : d <= Cmod (z - RtoC A)%C). { eapply Rle_trans; [|apply im_le_Cmod || apply Cmod_ge_im || (eapply Rle_trans; [|apply Rmax_Cmod]; apply Rmax_r)]. cbn. rewrite Rabs_pos_eq; lra. }
  assert (B2 : d <= Cmod (z + RtoC A)%C). { eapply Rle_trans; [|apply im_le_Cmod || apply Cmod_ge_im || (eapply Rle_trans; [|apply Rmax_Cmod]; apply Rmax_r)]. cbn. rewrite Rabs_pos_eq; lra. }
  assert (B3 : 2 * Rabs A <= Cmod (z - RtoC A)%C + Cmod (z + RtoC A)%C).
  { assert (T := Cmod_triangle (- (z - RtoC A))%C (z + RtoC A)%C). rewrite Cmod_opp in T. replace (- (z - RtoC A) + (z + RtoC A))%C with (RtoC (2 * A)) in T by (apply C_ext; cbn; ring). rewrite Cmod_R, Rabs_mult, (Rabs_pos_eq 2) in T by lra. exact T. }
  assert (Mm : d * Rabs A <= m * m). { rewrite Hm. set (x := Cmod (z - RtoC A)%C) in *. set (y := Cmod (z + RtoC A)%C) in *. clearbody x y. destruct (Rle_dec (Rabs A) x); nra. }
  assert (Ap := Rabs_pos_lt A HA). assert (mp : 0 < m). { assert (0 <= m) by apply Cmod_ge_0. assert (0 < d * Rabs A) by (apply Rmult_lt_0_compat; lra). nra. }
  assert (zS : (z * S)%C <> RtoC 0) by (intros E; unfold m in mp; rewrite E, Cmod_0 in mp; lra).
  assert (V : avg (fun s => lor d (c + A * cos (s + phi))) = - d * snd (1 / (z * S))%C).
  { destruct I as [_ I2]. unfold avg. assert (P := pi2). assert (J : is_RInt (fun s => lor d (c + A * cos (s + phi))) (- PI) PI (- d * snd (RtoC (2 * PI) / (z * S))%C)).
    { apply is_RInt_ext with (2 := is_RInt_scal (V := R_NormedModule) _ _ _ (- d) _ I2). intros s _. unfold scal; cbn [AbsRing.Ring]; cbn -[Cdiv Cminus RtoC]. unfold mult; cbn -[Cdiv Cminus RtoC].
      replace (z - RtoC (A * cos (s + phi)))%C with (((- (c + A * cos (s + phi)))%R, d) : C) by (unfold z; apply C_ext; cbn; ring). rewrite res_im by exact Hd. unfold lor. assert (Q := lor_den d (c + A * cos (s + phi)) Hd). field. lra. }
    rewrite (is_RInt_unique _ _ _ _ J). replace (RtoC (2 * PI) / (z * S))%C with (RtoC (2 * PI) * (1 / (z * S)))%C by (field; split; intros E; apply zS; rewrite E; ring). rewrite (surjective_pairing (1 / (z * S))%C). cbn [fst snd Cmult RtoC]. field. lra. }
  rewrite V. set (y := snd (1 / (z * S))%C). assert (Y : Rabs y <= / m). { eapply Rle_trans; [eapply Rle_trans; [|apply Rmax_Cmod]; apply Rmax_r|]. unfold Cdiv. rewrite Cmult_1_l, Cmod_inv by exact zS. fold m. lra. }
  assert (Y2 : y * y * (m * m) <= 1). { assert (Q : Rabs y * Rabs y = y * y) by (unfold Rabs; destruct (Rcase_abs y); ring). rewrite <- Q. assert (Rabs y * m <= 1). { apply Rle_trans with (/ m * m); [apply Rmult_le_compat_r; lra|right; field; lra]. } assert (0 <= Rabs y * m) by (apply Rmult_le_pos; [apply Rabs_pos|lra]). nra. }
  replace (- d * y * (- d * y) * Rabs A) with (d * (y * y * (d * Rabs A))) by ring. assert (0 <= y * y) by nra. assert (y * y * (d * Rabs A) <= y * y * (m * m)) by (apply Rmult_le_compat_l; lra). nra.
Qed.
Lemma fourth v q tau : 0 <= v -> 0 < tau -> v * v * (v * v) <= q -> v <= tau + q / (tau * tau * tau).
Proof.
  intros Hv Ht H. assert (t3 : 0 < tau * tau * tau) by (repeat apply Rmult_lt_0_compat; assumption). assert (q0 : 0 <= q) by nra. destruct (Rle_dec v tau) as [L|L].
  - assert (0 <= q / (tau * tau * tau)) by (apply Rdiv_le_0_compat; lra). lra.
  - assert (v <= q / (tau * tau * tau)); [|lra]. apply Rmult_le_reg_r with (tau * tau * tau); [exact t3|]. replace (q / (tau * tau * tau) * (tau * tau * tau)) with q by (field; lra). eapply Rle_trans; [|exact H].
    replace (v * v * (v * v)) with (v * (v * v * v)) by ring. apply Rmult_le_compat_l; [exact Hv|]. apply Rmult_le_compat; try nra.
Qed.
Lemma noatom_step n c A phi X : uc n A -> bounded n A -> uc (S n) X -> bounded (S n) X -> (forall k s, X (k, s) = c k + A k * cos (s + phi k)) -> noatom n A -> noatom (S n) X.
Proof.
  intros UA BA UX BX E NA t Ht. set (tau := t / 2). assert (Htau : 0 < tau) by (unfold tau; lra). assert (t3 : 0 < tau * tau * tau) by (apply Rmult_lt_0_compat; [apply Rmult_lt_0_compat; exact Htau|exact Htau]).
  destruct (NA (t / 4 * (tau * tau * tau))) as (r & Hr & B); [apply Rmult_lt_0_compat; lra|]. exists r. split; [exact Hr|]. intros d Hd. specialize (B d Hd). cbn [mean].
  assert (U1 := uc_lor n d A ltac:(lra) UA BA). assert (U2 := uc_lor (S n) d X ltac:(lra) UX BX).
  apply Rle_trans with (mean n (fun k => tau + 2 / (tau * tau * tau) * lor d (A k))).
  - apply mean_mono; [apply (uc_avg n (fun k => lor d (X k))), U2|apply uc_plus; [apply uc_const|apply uc_scal, U1]|]. intros k.
    assert (Ev : avg (fun s => lor d (X (k, s))) = avg (fun s => lor d (c k + A k * cos (s + phi k)))) by (apply avg_ext; intros s; now rewrite E). rewrite Ev. destruct (chain_bound (c k) (A k) (phi k) d ltac:(lra)) as [V1 V2]. set (v := avg (fun s => lor d (c k + A k * cos (s + phi k)))) in *.
    replace (2 / (tau * tau * tau) * lor d (A k)) with (2 * lor d (A k) / (tau * tau * tau)) by (field; lra). apply fourth; [lra|exact Htau|]. unfold lor. assert (Q := lor_den d (A k) ltac:(lra)).
    apply Rmult_le_reg_r with (A k * A k + d * d); [exact Q|]. replace (2 * (d * d / (A k * A k + d * d)) * (A k * A k + d * d)) with (2 * (d * d)) by (field; lra).
    assert (Qa : A k * A k = Rabs (A k) * Rabs (A k)) by (unfold Rabs; destruct (Rcase_abs (A k)); ring). rewrite Qa. assert (Ap := Rabs_pos (A k)). set (a := Rabs (A k)) in *. clearbody a v. clear - V1 V2 Ap Hd. assert (W : 0 <= v * v <= 1) by nra. set (w := v * v) in *. clearbody w.
    assert (w * a * (w * a) <= d * d) by (apply Rmult_le_compat; try assumption; apply Rmult_le_pos; lra). assert (w * w <= 1) by nra. assert (0 <= d * d) by nra. nra.
  - rewrite mean_plus by (apply uc_const || exact (uc_scal n _ _ U1)). rewrite mean_const, (mean_scal n _ _ U1). apply Rle_trans with (tau + 2 / (tau * tau * tau) * (t / 4 * (tau * tau * tau))).
    + apply Rplus_le_compat_l, Rmult_le_compat_l; [apply Rdiv_le_0_compat; lra|exact B].
    + right. unfold tau. field. lra.
Qed.
