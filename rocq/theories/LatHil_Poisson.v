(** * Stieltjes inversion: integrals with a density of states from averages of the resolvent *)
From Coq Require Import Reals Lra Lia List.
From Coquelicot Require Import Coquelicot.
Local Open Scope R_scope.

Definition cont (f : R -> R) : Prop := forall x, continuous f x.
(** positive linear functionals on the continuous functions, concentrated on [-M, M] *)
Record meanl (L : (R -> R) -> R) (M : R) : Prop := {
  ml_plus : forall f g, cont f -> cont g -> L (fun x => f x + g x) = L f + L g;
  ml_scal : forall c f, cont f -> L (fun x => c * f x) = c * L f;
  ml_mono : forall f g, cont f -> cont g -> (forall x, - M <= x <= M -> f x <= g x) -> L f <= L g }.

Lemma cont_const c : cont (fun _ => c).
Proof. intros x. apply continuous_const. Qed.
Lemma cont_plus f g : cont f -> cont g -> cont (fun x => f x + g x).
Proof. intros A B x. exact (continuous_plus f g x (A x) (B x)). Qed.
Lemma cont_minus f g : cont f -> cont g -> cont (fun x => f x - g x).
Proof. intros A B x. exact (continuous_minus f g x (A x) (B x)). Qed.
Lemma cont_mult f g : cont f -> cont g -> cont (fun x => f x * g x).
Proof. intros A B x. exact (continuous_mult f g x (A x) (B x)). Qed.
Lemma cont_eps (f : R -> R) x : (forall t, 0 < t -> exists r, 0 < r /\ forall y, Rabs (y - x) < r -> Rabs (f y - f x) <= t) -> continuous f x.
Proof.
  intros H. apply continuity_pt_filterlim. intros e He. destruct (H (e / 2) ltac:(lra)) as (r & Hr & B). exists r. split; [exact Hr|].
  intros y [_ Hy]. cbn in *. unfold R_dist in *. specialize (B y Hy). lra.
Qed.
Lemma eps_cont (f : R -> R) x : continuous f x -> forall t, 0 < t -> exists r, 0 < r /\ forall y, Rabs (y - x) < r -> Rabs (f y - f x) < t.
Proof.
  intros H t Ht. apply continuity_pt_filterlim in H. destruct (H t Ht) as (r & Hr & B). exists r. split; [exact Hr|]. intros y Hy. destruct (Req_dec x y) as [<-|N]; [rewrite Rminus_eq_0, Rabs_R0; exact Ht|].
  apply (B y). split; [split; [exact Logic.I|exact N]|exact Hy].
Qed.
Lemma cont_int f a b : cont f -> ex_RInt f a b.
Proof. intros H. apply (ex_RInt_continuous (V := R_CompleteNormedModule)). intros x _. apply H. Qed.

Section L.
Variables (L : (R -> R) -> R) (M : R).
Hypothesis HL : meanl L M.
Let W := L (fun _ => 1).
Lemma L_const c : L (fun _ => c) = c * W.
Proof.
  unfold W. rewrite <- (ml_scal L M HL) by apply cont_const. apply Rle_antisym; apply (ml_mono L M HL); try apply cont_const; intros; lra.
Qed.
Lemma W_pos : 0 <= W.
Proof. apply Rle_trans with (L (fun _ => 0)); [rewrite L_const; lra|]. apply (ml_mono L M HL); try apply cont_const. intros; lra. Qed.
Lemma L_abs f t : cont f -> (forall x, - M <= x <= M -> Rabs (f x) <= t) -> Rabs (L f) <= t * W.
Proof.
  intros Cf B. rewrite <- L_const. assert (A : L f <= L (fun _ => t)). { apply (ml_mono L M HL); [exact Cf|apply cont_const|]. intros x Hx. specialize (B x Hx). apply Rabs_le_between in B. lra. }
  assert (A' : L (fun _ => - t) <= L f). { apply (ml_mono L M HL); [apply cont_const|exact Cf|]. intros x Hx. specialize (B x Hx). apply Rabs_le_between in B. lra. }
  rewrite L_const in A'. rewrite L_const in *. apply Rabs_le. lra.
Qed.
Lemma L_minus f g : cont f -> cont g -> L (fun x => f x - g x) = L f - L g.
Proof.
  intros A B. assert (B' : cont (fun x => -1 * g x)) by (apply cont_mult; [apply cont_const|exact B]).
  transitivity (L (fun x => f x + -1 * g x)); [|rewrite (ml_plus L M HL), (ml_scal L M HL) by assumption; ring].
  apply Rle_antisym; apply (ml_mono L M HL); try (apply cont_minus; assumption); try (apply cont_plus; assumption); intros; lra.
Qed.
Lemma L_ext f g : cont f -> cont g -> (forall x, - M <= x <= M -> f x = g x) -> L f = L g.
Proof. intros A B E. apply Rle_antisym; apply (ml_mono L M HL); try assumption; intros x Hx; rewrite (E x Hx); lra. Qed.
Lemma L_diff f g t : cont f -> cont g -> (forall x, - M <= x <= M -> Rabs (f x - g x) <= t) -> Rabs (L f - L g) <= t * W.
Proof. intros A B H. rewrite <- L_minus by assumption. apply L_abs; [apply cont_minus; assumption|exact H]. Qed.

(** ** exchange with an integral *)
Section Fub.
Variables (F : R -> R -> R) (a : R).
Hypothesis Fx : forall e, cont (F e).
Hypothesis Fu : forall e t, 0 < t -> exists r, 0 < r /\ forall e', Rabs (e' - e) < r -> forall x, Rabs (F e' x - F e x) <= t.
Hypothesis Fi : forall b, cont (fun x => RInt (fun e => F e x) a b).
Lemma Fe x : cont (fun e => F e x).
Proof. intros e. apply cont_eps. intros t Ht. destruct (Fu e t Ht) as (r & Hr & B). exists r. split; [exact Hr|]. intros y Hy. apply B, Hy. Qed.
Lemma fub_step b t : 0 < t -> exists r, 0 < r /\ forall b', Rabs (b' - b) < r -> forall x, Rabs (RInt (fun e => F e x) a b' - RInt (fun e => F e x) a b - (b' - b) * F b x) <= t * Rabs (b' - b).
Proof.
  intros Ht. destruct (Fu b t Ht) as (r & Hr & B). exists r. split; [exact Hr|]. intros b' Hb x.
  assert (I := fun u v => cont_int (fun e => F e x) u v (Fe x)).
  replace (RInt (fun e => F e x) a b') with (RInt (fun e => F e x) a b + RInt (fun e => F e x) b b') by exact (RInt_Chasles (fun e => F e x) a b b' (I _ _) (I _ _)).
  replace (RInt (fun e => F e x) a b + RInt (fun e => F e x) b b' - RInt (fun e => F e x) a b - (b' - b) * F b x) with (RInt (fun e => F e x) b b' - RInt (fun _ => F b x) b b') by (rewrite RInt_const; change (scal (b' - b) (F b x)) with ((b' - b) * F b x); ring).
  replace (RInt (fun e => F e x) b b' - RInt (fun _ => F b x) b b') with (RInt (fun e => minus (F e x) (F b x)) b b') by (apply (RInt_minus (V := R_CompleteNormedModule) (fun e => F e x) (fun _ => F b x) b b'); [apply I|apply ex_RInt_const]).
  assert (G : forall u v, u <= v -> (forall e, u <= e <= v -> Rabs (e - b) < r) -> Rabs (RInt (fun e => minus (F e x) (F b x)) u v) <= t * (v - u)).
  { intros u v Huv Hin. rewrite Rmult_comm. apply (norm_RInt_le_const (V := R_NormedModule) (fun e => minus (F e x) (F b x)) u v); [exact Huv|intros e He; apply (B e (Hin e He))|].
    apply (RInt_correct (V := R_CompleteNormedModule)). apply (ex_RInt_minus (V := R_NormedModule)); [apply I|apply ex_RInt_const]. }
  destruct (Rle_dec b b') as [Q|Q].
  - rewrite (Rabs_pos_eq (b' - b)) in * by lra. apply G; [exact Q|]. intros e He. rewrite Rabs_pos_eq; lra.
  - rewrite (Rabs_left (b' - b)) in * by lra. rewrite <- (opp_RInt_swap (fun e => minus (F e x) (F b x)) b' b); [|apply (ex_RInt_minus (V := R_NormedModule)); [apply I|apply ex_RInt_const]].
    unfold opp; cbn. rewrite Rabs_Ropp. replace (- (b' - b)) with (b - b') by ring. apply G; [lra|]. intros e He. apply Rabs_lt_between. lra.
Qed.
Lemma L_fubini b : is_RInt (fun e => L (F e)) a b (L (fun x => RInt (fun e => F e x) a b)).
Proof.
  assert (Wp := W_pos). set (O := fun b => L (fun x => RInt (fun e => F e x) a b)).
  assert (Dv : forall c, is_derive O c (L (F c))).
  { intros c. apply is_derive_Reals. intros e He. set (t := e / (2 * (W + 1))). assert (Ht : 0 < t) by (unfold t; apply Rdiv_lt_0_compat; lra). assert (tW : t * W < e).
    { unfold t. apply Rlt_le_trans with (e / (2 * (W + 1)) * (2 * (W + 1))); [|right; field; lra]. apply Rmult_lt_compat_l; [apply Rdiv_lt_0_compat; lra|lra]. }
    destruct (fub_step c t Ht) as (r & Hr & B). exists (mkposreal r Hr). intros h Hh0 Hh. cbn in Hh. unfold O.
    assert (CF : cont (fun x => h * F c x)) by (apply cont_mult; [apply cont_const|apply Fx]).
    assert (E : Rabs (L (fun x => RInt (fun e => F e x) a (c + h) - RInt (fun e => F e x) a c - h * F c x)) <= t * Rabs h * W).
    { apply L_abs; [apply cont_minus; [apply cont_minus; apply Fi|exact CF]|]. intros x _. specialize (B (c + h)). replace (c + h - c) with h in B by ring. apply B. exact Hh. }
    rewrite L_minus, L_minus, (ml_scal L M HL) in E by (try apply Fi; try apply Fx; try exact CF; apply cont_minus; apply Fi).
    assert (Hp := Rabs_pos_lt h Hh0). replace ((L (fun x => RInt (fun e0 => F e0 x) a (c + h)) - L (fun x => RInt (fun e0 => F e0 x) a c)) / h - L (F c)) with ((L (fun x => RInt (fun e0 => F e0 x) a (c + h)) - L (fun x => RInt (fun e0 => F e0 x) a c) - h * L (F c)) / h) by (field; exact Hh0).
    unfold Rdiv. rewrite Rabs_mult, Rabs_inv. apply Rmult_lt_reg_r with (Rabs h); [exact Hp|]. rewrite Rmult_assoc, Rinv_l, Rmult_1_r by lra. eapply Rle_lt_trans; [exact E|].
    replace (t * Rabs h * W) with (t * W * Rabs h) by ring. apply Rmult_lt_compat_r; assumption. }
  assert (H : is_RInt (fun e => L (F e)) a b (minus (O b) (O a))).
  { apply (is_RInt_derive (V := R_CompleteNormedModule) O); intros x _; [apply Dv|]. apply cont_eps. intros t Ht.
    assert (Ht' : 0 < t / (W + 1)) by (apply Rdiv_lt_0_compat; lra). destruct (Fu x _ Ht') as (r & Hr & B). exists r. split; [exact Hr|]. intros y Hy.
    apply Rle_trans with (t / (W + 1) * W); [apply L_diff; try apply Fx; intros z _; apply B, Hy|]. apply Rle_trans with (t / (W + 1) * (W + 1)); [apply Rmult_le_compat_l; lra|right; field; lra]. }
  replace (L (fun x => RInt (fun e => F e x) a b)) with (minus (O b) (O a)); [exact H|]. change (O b - O a = O b). cut (O a = 0); [intros ->; ring|]. unfold O.
  transitivity (L (fun _ => 0)); [|rewrite L_const; ring]. apply L_ext; [apply Fi|apply cont_const|]. intros x _. apply (RInt_point (V := R_CompleteNormedModule)).
Qed.
End Fub.
End L.
