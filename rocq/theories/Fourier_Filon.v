(** * Exact integrals of piecewise linear functions times exponentials *)
From Coq Require Import List Arith ZArith Reals Lia Lra Bool String Field.
From Coquelicot Require Import Coquelicot.
From Verif Require Import Base FSum CBase CExp Herm_Proofs LinPred_Burg Matrix_Time Stat_Model Linalg_Model Pole_Model Fourier_Model Fourier_Dft.
Import ListNotations.
Local Open Scope C_scope.

(** the Riemann integral of a complex function of a real variable, component by component *)
Definition is_CInt (f : R -> C) (a b : R) (l : C) : Prop :=
  is_RInt (V := R_NormedModule) (fun t => fst (f t)) a b (fst l) /\ is_RInt (V := R_NormedModule) (fun t => snd (f t)) a b (snd l).
Lemma is_CInt_point f a : is_CInt f a a (RtoC 0).
Proof. split; apply (is_RInt_point (V := R_NormedModule)). Qed.
Lemma is_CInt_chasles f a b c l1 l2 : is_CInt f a b l1 -> is_CInt f b c l2 -> is_CInt f a c (l1 + l2).
Proof. intros [H1 H2] [H3 H4]. split; cbn [fst snd Cplus]; eapply (is_RInt_Chasles (V := R_NormedModule)); eauto. Qed.
Lemma is_CInt_unique f a b l1 l2 : is_CInt f a b l1 -> is_CInt f a b l2 -> l1 = l2.
Proof.
  intros [H1 H2] [H3 H4]. apply C_ext.
  - now rewrite <- (is_RInt_unique (V := R_CompleteNormedModule) _ _ _ _ H1), <- (is_RInt_unique (V := R_CompleteNormedModule) _ _ _ _ H3).
  - now rewrite <- (is_RInt_unique (V := R_CompleteNormedModule) _ _ _ _ H2), <- (is_RInt_unique (V := R_CompleteNormedModule) _ _ _ _ H4).
Qed.
Lemma is_CInt_ext f g a b l : (forall t, (Rmin a b < t < Rmax a b)%R -> f t = g t) -> is_CInt f a b l -> is_CInt g a b l.
Proof.
  intros E [H1 H2]. split; [revert H1|revert H2]; apply (is_RInt_ext (V := R_NormedModule)); intros t Ht; now rewrite E.
Qed.
Lemma is_CInt_swap f a b l : is_CInt f a b l -> is_CInt f b a (- l).
Proof. intros [H1 H2]. split; cbn [fst snd Copp]; now apply (is_RInt_swap (V := R_NormedModule)). Qed.
Lemma is_CInt_eq f a b l l' : is_CInt f a b l -> l = l' -> is_CInt f a b l'.
Proof. now intros H <-. Qed.
Lemma is_CInt_scal c f a b l : is_CInt f a b l -> is_CInt (fun t => c * f t) a b (c * l).
Proof.
  intros [H1 H2]. split; cbn [fst snd Cmult].
  - apply (is_RInt_minus (V := R_NormedModule)); now apply (is_RInt_scal (V := R_NormedModule)).
  - apply (is_RInt_plus (V := R_NormedModule)); now apply (is_RInt_scal (V := R_NormedModule)).
Qed.
Lemma is_CInt_plus f g a b l m : is_CInt f a b l -> is_CInt g a b m -> is_CInt (fun t => f t + g t) a b (l + m).
Proof. intros [H1 H2] [H3 H4]. split; cbn [fst snd Cplus]; now apply (is_RInt_plus (V := R_NormedModule)). Qed.

(** the fundamental theorem for e^{st} (A + B t) *)
Lemma RInt_deriv (F f : R -> R) a b : (forall t, is_derive F t (f t)) -> (forall t, ex_derive f t) -> is_RInt (V := R_NormedModule) f a b (F b - F a)%R.
Proof.
  intros H H2. apply (is_RInt_derive (V := R_CompleteNormedModule) F f); [intros; apply H|].
  intros t _. apply (ex_derive_continuous (V := R_NormedModule)). apply H2.
Qed.
Lemma ftc_explin (s A B : C) (a b : R) :
  is_CInt (fun t => cexp (s * RtoC t) * (s * (A + B * RtoC t) + B)) a b
    (cexp (s * RtoC b) * (A + B * RtoC b) - cexp (s * RtoC a) * (A + B * RtoC a)).
Proof.
  destruct s as [x y], A as [a1 a2], B as [b1 b2].
  split.
  - refine (RInt_deriv (fun t => fst (cexp ((x, y) * RtoC t) * ((a1, a2) + (b1, b2) * RtoC t))) _ a b _ _);
      intros t; unfold cexp, Cmult, Cplus, RtoC, fst, snd; auto_derive; try exact I. unfold Rminus. ring.
  - refine (RInt_deriv (fun t => snd (cexp ((x, y) * RtoC t) * ((a1, a2) + (b1, b2) * RtoC t))) _ a b _ _);
      intros t; unfold cexp, Cmult, Cplus, RtoC, fst, snd; auto_derive; try exact I. unfold Rminus. ring.
Qed.
Lemma ftc_quad (A B : C) (a b : R) :
  is_CInt (fun t => A + B * RtoC t) a b (A * RtoC (b - a) + B * RtoC ((b * b - a * a) / 2)).
Proof.
  destruct A as [a1 a2], B as [b1 b2].
  assert (P : forall u v : R, is_RInt (V := R_NormedModule) (fun t => u + v * t)%R a b (u * (b - a) + v * ((b * b - a * a) / 2))%R).
  { intros u v. replace (u * (b - a) + v * ((b * b - a * a) / 2))%R with ((fun t => u * t + v * (t * t) / 2) b - (fun t => u * t + v * (t * t) / 2) a)%R by field.
    apply (is_RInt_derive (V := R_CompleteNormedModule) (fun t => u * t + v * (t * t) / 2)%R).
    - intros t _. auto_derive; [exact I|]. field.
    - intros t _. apply (ex_derive_continuous (V := R_NormedModule)). auto_derive. exact I. }
  split; cbn [fst snd Cplus Cmult RtoC].
  - eapply (is_RInt_ext (V := R_NormedModule) (fun t => a1 + b1 * t)%R); [intros; match goal with |- @eq _ ?a ?b => change (@eq R a b) end; ring|]. match goal with |- is_RInt _ _ _ ?l => replace l with (a1 * (b - a) + b1 * ((b * b - a * a) / 2))%R by ring end. apply P.
  - eapply (is_RInt_ext (V := R_NormedModule) (fun t => a2 + b2 * t)%R); [intros; match goal with |- @eq _ ?a ?b => change (@eq R a b) end; ring|]. match goal with |- is_RInt _ _ _ ?l => replace l with (a2 * (b - a) + b2 * ((b * b - a * a) / 2))%R by ring end. apply P.
Qed.

(** f is the straight line from (a, p) to (b, q) between a and b *)
Definition line_on (f : R -> C) (a b : R) (p q : C) : Prop :=
  forall t, (Rmin a b <= t <= Rmax a b)%R -> f t = p + (q - p) * RtoC ((t - a) / (b - a)).

Lemma filon_step (s : C) f a h p q : h <> 0%R -> s <> 0 -> line_on f a (a + h) p q ->
  is_CInt (fun t => cexp (s * RtoC t) * f t) a (a + h)
    (RtoC h * (weight1 (s * RtoC h) * (cexp (s * RtoC a) * p) + weight2 (s * RtoC h) * (cexp (s * RtoC a) * (q - p)))).
Proof.
  intros Hh Hs Hf. assert (HhC : RtoC h <> 0) by (intros E; apply Hh; now apply RtoC_inj).
  set (B := (q - p) / (RtoC h * s)). set (A := (p - B) / s - B * RtoC a).
  refine (is_CInt_eq _ _ _ _ _ (is_CInt_ext (fun t => cexp (s * RtoC t) * (s * (A + B * RtoC t) + B)) _ _ _ _ _ (ftc_explin s A B a (a + h))) _).
  - intros t Ht. rewrite Hf by lra. f_equal. unfold A, B. replace (a + h - a)%R with h by ring. rewrite RtoC_div, RtoC_minus by exact Hh. field. split; assumption.
  - unfold weight2, weight1. rewrite RtoC_plus. rewrite !Cmult_plus_distr_l, cexp_add. unfold A, B. set (E := cexp (s * RtoC h)). set (F := cexp (s * RtoC a)).
    match goal with |- @eq _ ?a ?b => change (@eq C a b) end. field. split; assumption.
Qed.
Lemma trapz_step f a b p q : a <> b -> line_on f a b p q ->
  is_CInt f a b (RtoC (b - a) * (q + p) / RtoC 2).
Proof.
  intros Hab Hf. assert (Hd : (b - a <> 0)%R) by lra. assert (HdC : RtoC (b - a) <> 0) by (intros E; apply Hd; now apply RtoC_inj).
  assert (H2 : RtoC 2 <> 0) by (intros E; apply RtoC_inj in E; lra).
  set (B := (q - p) / RtoC (b - a)). set (A := p - B * RtoC a).
  refine (is_CInt_eq _ _ _ _ _ (is_CInt_ext (fun t => A + B * RtoC t) _ _ _ _ _ (ftc_quad A B a b)) _).
  - intros t Ht. rewrite Hf by lra. unfold A, B. rewrite RtoC_div, (RtoC_minus t) by exact Hd. field. assumption.
  - unfold A, B. rewrite RtoC_div by lra. replace (b * b - a * a)%R with ((b - a) * ((b - a) + a + a))%R by ring. rewrite RtoC_mult, !RtoC_plus.
    set (D := RtoC (b - a)) in *. replace (RtoC 2) with (RtoC 1 + RtoC 1) in * by (rewrite <- RtoC_plus; f_equal; ring). field. split; assumption.
Qed.

(** ** summing up *)
Lemma CInt_sum F (t : nat -> R) (v : nat -> C) n : (forall k, (k < n)%nat -> is_CInt F (t k) (t (S k)) (v k)) -> is_CInt F (t 0%nat) (t n) (nsum (K := CF) n v).
Proof.
  induction n as [|n IH]; intros H; cbn [nsum]; [apply is_CInt_point|].
  eapply is_CInt_chasles; [apply IH; intros k Hk; apply H; lia|apply H; lia].
Qed.

(** a function that interpolates the points (t k, g k), k <= n, linearly *)
Definition interpolates (f : R -> C) (t : nat -> R) (g : nat -> C) (n : nat) : Prop :=
  forall k, (k < n)%nat -> line_on f (t k) (t (S k)) (g k) (g (S k)).

Lemma filon_sum (s : C) f (t : nat -> R) g h n : h <> 0%R -> s <> 0 -> (forall k, (k < n)%nat -> t (S k) = (t k + h)%R) -> interpolates f t g n ->
  is_CInt (fun u => cexp (s * RtoC u) * f u) (t 0%nat) (t n)
    (RtoC h * (weight1 (s * RtoC h) * nsum (K := CF) n (fun k => cexp (s * RtoC (t k)) * g k)
               + weight2 (s * RtoC h) * nsum (K := CF) n (fun k => cexp (s * RtoC (t k)) * (g (S k) - g k)))).
Proof.
  intros Hh Hs Ht Hf. eapply is_CInt_eq.
  - apply (CInt_sum _ t (fun k => RtoC h * (weight1 (s * RtoC h) * (cexp (s * RtoC (t k)) * g k) + weight2 (s * RtoC h) * (cexp (s * RtoC (t k)) * (g (S k) - g k))))).
    intros k Hk. assert (L := Hf k Hk). rewrite (Ht k Hk) in L |- *. apply filon_step; assumption.
  - assert (TL := nsum_mul_l CF n). assert (TA := nsum_add CF n). cbn [Fmul Fadd CF] in TL, TA. now rewrite TL, TA, !TL.
Qed.
Lemma trapz_sum f (t : nat -> R) g n : (forall k, (k < n)%nat -> t k <> t (S k)) -> interpolates f t g n ->
  is_CInt f (t 0%nat) (t n) (nsum (K := CF) n (fun k => RtoC (t (S k) - t k) * (g (S k) + g k) / RtoC 2)).
Proof. intros Ht Hf. apply (CInt_sum _ t). intros k Hk. apply trapz_step; [now apply Ht|now apply Hf]. Qed.

(** interpolating functions exist on strictly increasing grids *)
Fixpoint pl (t : nat -> R) (g : nat -> C) (n : nat) (u : R) : C :=
  match n with
  | O => g 0%nat
  | S m => if Rle_dec u (t m) then pl t g m u else g m + (g (S m) - g m) * RtoC ((u - t m) / (t (S m) - t m))
  end.
Lemma incr_le t n : (forall k, (k < n)%nat -> (t k < t (S k))%R) -> forall i j, (i <= j)%nat -> (j <= n)%nat -> (t i <= t j)%R.
Proof. intros H i j Hij. induction Hij as [|j Hij IH]; intros Hj; [lra|]. assert (t j < t (S j))%R by (apply H; lia). assert (t i <= t j)%R by (apply IH; lia). lra. Qed.
Lemma pl_node t g n i : (forall k, (k < n)%nat -> (t k < t (S k))%R) -> (i <= n)%nat -> pl t g n (t i) = g i.
Proof.
  revert i. induction n as [|n IH]; intros i H Hi; [assert (i = 0)%nat by lia; now subst|]. cbn [pl].
  destruct (Nat.eq_dec i (S n)) as [->|N].
  - assert (L := H n ltac:(lia)). destruct (Rle_dec (t (S n)) (t n)); [lra|]. replace ((t (S n) - t n) / (t (S n) - t n))%R with 1%R by (field; lra). ring.
  - assert (L : (t i <= t n)%R) by (apply (incr_le t (S n) H); lia). destruct (Rle_dec (t i) (t n)); [|lra]. apply IH; [|lia]. intros k Hk. apply H. lia.
Qed.
Lemma pl_interpolates t g n : (forall k, (k < n)%nat -> (t k < t (S k))%R) -> interpolates (pl t g n) t g n.
Proof.
  induction n as [|n IH]; intros H k Hk; [lia|]. assert (Hk' := H k Hk). intros u Hu. rewrite Rmin_left, Rmax_right in Hu by lra. cbn [pl].
  destruct (Nat.eq_dec k n) as [->|N].
  - destruct (Rle_dec u (t n)) as [L|L]; [|reflexivity]. assert (u = t n) by lra. subst u. rewrite pl_node; [|intros i Hi; apply H; lia|lia].
    replace ((t n - t n) / (t (S n) - t n))%R with 0%R by (field; lra). ring.
  - assert (L : (t (S k) <= t n)%R) by (apply (incr_le t (S n) H); lia). destruct (Rle_dec u (t n)) as [_|B]; [|lra].
    apply IH; [intros i Hi; apply H; lia|lia|]. rewrite Rmin_left, Rmax_right by lra. exact Hu.
Qed.
