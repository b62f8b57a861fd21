(** * Averages of the powers of Bloch Hamiltonians count closed walks *)
From Coq Require Import Reals Lra Lia List ZArith Bool FunctionalExtensionality.
From Coquelicot Require Import Coquelicot.
From Verif Require Import Base FSum CBase CExp Fourier_Filon LatMom_Spec LatDer_Spec LatInt_Spec LatBz_Spec LatMm_Spec LatMm_Trace.
Import ListNotations.
Local Open Scope C_scope.

Definition shift (a b c : Z) (n : site) : site := let '(a', b', c', s) := n in (a + a', b + b', c + c', s)%Z.

Section Av.
Variables (T : Type) (av : (T -> C) -> C -> Prop) (ph : T -> site -> C) (gd : Z -> Prop) (N : nat) (nbrs : site -> list site) (t : R).
Hypothesis Av0 : av (fun _ => 0) 0.
Hypothesis AvP : forall f g a b, av f a -> av g b -> av (fun k => f k + g k) (a + b).
Hypothesis AvS : forall f c a, av f a -> av (fun k => c * f k) (c * a).
Hypothesis PhS : forall k a b c s n, ph k (shift a b c n) = ph k (a, b, c, s) * ph k n.
Hypothesis Av1 : forall a b c s s', gd c -> av (fun k => ph k (a, b, c, s)) (if site_eqb (a, b, c, s') (0, 0, 0, s')%Z then 1 else 0).
Hypothesis TI : forall a b c s, nbrs (a, b, c, s) = map (shift a b c) (nbrs (origin s)).
Hypothesis Cl : forall s a b c s', (s < N)%nat -> In (a, b, c, s') (nbrs (origin s)) -> (s' < N)%nat /\ (forall d, gd d -> gd (d + c)%Z).
Definition blo (k : T) (i j : nat) : C := RtoC t * fold_right Cplus 0 (map (fun n => if Nat.eqb (snd n) j then ph k n else 0) (nbrs (origin i))).
Lemma av_ext f g a : (forall k, f k = g k) -> av f a -> av g a.
Proof. intros E H. replace g with f by (apply functional_extensionality; exact E). exact H. Qed.
Lemma av_list {A} (f : A -> T -> C) (g : A -> C) l : (forall n, In n l -> av (f n) (g n)) -> av (fun k => fold_right Cplus 0 (map (fun n => f n k) l)) (fold_right Cplus 0 (map g l)).
Proof. induction l as [|n l IH]; cbn [map fold_right]; intros H; [exact Av0|]. apply AvP; [apply H; left; reflexivity|]. apply IH. intros; apply H; right; assumption. Qed.
Lemma pick (f : site -> C) (g : nat -> C) l : (forall n, In n l -> (snd n < N)%nat) ->
  nsum (K := CF) N (fun j => fold_right Cplus 0 (map (fun n => if Nat.eqb (snd n) j then f n else 0) l) * g j) = fold_right Cplus 0 (map (fun n => f n * g (snd n)) l).
Proof.
  induction l as [|n l IH]; intros Hl.
  - cbn [map fold_right]. transitivity (nsum (K := CF) N (fun j => 0 * g j)); [reflexivity|]. rewrite csum_scal. apply Cmult_0_l.
  - cbn [map fold_right]. rewrite <- IH by (intros; apply Hl; right; assumption).
    transitivity (nsum (K := CF) N (fun j => (if Nat.eqb (snd n) j then RtoC 1 else RtoC 0) * (f n * g j) + fold_right Cplus 0 (map (fun n => if Nat.eqb (snd n) j then f n else 0) l) * g j)).
    + apply csum_ext; intros j Hj. destruct (Nat.eqb (snd n) j); ring.
    + rewrite csum_plus. f_equal. apply (csum_delta N (snd n) (fun j => f n * g j)). apply Hl; left; reflexivity.
Qed.
Lemma fold_scal {A} c (f : A -> C) l : c * fold_right Cplus 0 (map f l) = fold_right Cplus 0 (map (fun n => c * f n) l).
Proof. induction l as [|n l IH]; cbn [map fold_right]; [ring|]. rewrite <- IH. ring. Qed.
Lemma fold_RtoC {A} (f : A -> R) l : fold_right Cplus 0 (map (fun n => RtoC (f n)) l) = RtoC (fold_right Rplus 0%R (map f l)).
Proof. induction l as [|n l IH]; cbn [map fold_right]; [reflexivity|]. rewrite IH, RtoC_plus. reflexivity. Qed.
Lemma fold_IZR {A} (f : A -> Z) c l : fold_right Rplus 0%R (map (fun n => (c * IZR (f n))%R) l) = (c * IZR (fold_right Z.add 0%Z (map f l)))%R.
Proof. induction l as [|n l IH]; cbn [map fold_right]; [cbn; ring|]. rewrite IH, plus_IZR. ring. Qed.
Theorem walk_avg m j : forall a b c s, (s < N)%nat -> (j < N)%nat -> gd c ->
  av (fun k => ph k (a, b, c, s) * mpow N (blo k) m s j) (RtoC (t ^ m * IZR (walks nbrs m (a, b, c, s) (0, 0, 0, j)%Z))).
Proof.
  induction m as [|m IH]; intros a b c s Hs Hj Hc.
  - cbn [mpow walks pow]. destruct (Nat.eqb_spec s j) as [->|Ne].
    + apply (av_ext (fun k => ph k (a, b, c, j))); [intros; ring|]. assert (A := Av1 a b c j j Hc). match type of A with av _ ?x => match goal with |- av _ ?y => replace y with x; [exact A|] end end.
      destruct (site_eqb _ _); apply C_ext; cbn; ring.
    + apply (av_ext (fun k => 0 * ph k (a, b, c, s))); [intros; ring|]. assert (A := AvS _ 0 _ (Av1 a b c s s Hc)). match type of A with av _ ?x => match goal with |- av _ ?y => replace y with x; [exact A|] end end.
      replace (site_eqb (a, b, c, s) (0, 0, 0, j)%Z) with false; [rewrite Cmult_0_l; apply C_ext; cbn; ring|].
      cbn [site_eqb]. apply Nat.eqb_neq in Ne. rewrite Ne, andb_false_r. reflexivity.
  - cbn [walks]. rewrite TI, map_map.
    apply (av_ext (fun k => fold_right Cplus 0 (map (fun n => RtoC t * (ph k (shift a b c n) * mpow N (blo k) m (snd n) j)) (nbrs (origin s))))).
    { intros k. cbn [mpow]. unfold blo at 2.
      transitivity (ph k (a, b, c, s) * (RtoC t * nsum (K := CF) N (fun l => fold_right Cplus 0 (map (fun n => if Nat.eqb (snd n) l then ph k n else 0) (nbrs (origin s))) * mpow N (blo k) m l j))).
      - rewrite pick by (intros [[[a' b'] c'] s'] Hn; exact (proj1 (Cl s a' b' c' s' Hs Hn))). rewrite !fold_scal. f_equal. apply map_ext. intros n. rewrite (PhS k a b c s n). ring.
      - f_equal. rewrite <- csum_scal. apply csum_ext; intros l Hl. ring. }
    replace (RtoC (t ^ S m * IZR (fold_right Z.add 0%Z (map (fun x => walks nbrs m (shift a b c x) (0, 0, 0, j)%Z) (nbrs (origin s))))))
      with (fold_right Cplus 0 (map (fun n => RtoC t * RtoC (t ^ m * IZR (walks nbrs m (shift a b c n) (0, 0, 0, j)%Z))) (nbrs (origin s)))).
    2: { rewrite <- fold_scal, fold_RtoC, fold_IZR, <- RtoC_mult. f_equal. cbn [pow]. ring. }
    apply (av_list (fun n k => RtoC t * (ph k (shift a b c n) * mpow N (blo k) m (snd n) j))). intros [[[a' b'] c'] s'] Hn. destruct (Cl s a' b' c' s' Hs Hn) as [H1 H2]. apply AvS. apply IH; [exact H1|exact Hj|apply H2; exact Hc].
Qed.
Lemma trace_avg m : (forall k s, ph k (0, 0, 0, s)%Z = 1) -> gd 0%Z -> av (fun k => trace N (mpow N (blo k) m)) (RtoC (t ^ m * IZR (closed_walks nbrs (map origin (seq 0 N)) m))).
Proof.
  intros P0 G0. unfold trace, closed_walks. assert (E : forall M, (M <= N)%nat -> av (fun k => nsum (K := CF) M (fun i => mpow N (blo k) m i i)) (RtoC (t ^ m * IZR (fold_right Z.add 0%Z (map (fun x => walks nbrs m x x) (map origin (seq 0 M))))))).
  - induction M as [|M IHM]; intros HM; [cbn; replace (t ^ m * 0)%R with 0%R by ring; exact Av0|].
    rewrite seq_S, !map_app, fold_right_app. cbn [Nat.add map fold_right]. cbn [nsum].
    assert (F : forall l x, fold_right Z.add (x + 0)%Z l = (fold_right Z.add 0 l + x)%Z) by (clear; induction l as [|y l IH]; intros x; cbn [fold_right]; [lia|rewrite IH; lia]).
    rewrite F, plus_IZR, Rmult_plus_distr_l, RtoC_plus. apply AvP; [apply IHM; lia|]. apply (av_ext (fun k => ph k (0, 0, 0, M)%Z * mpow N (blo k) m M M)); [intros k; rewrite P0; ring|].
    exact (walk_avg m M 0 0 0 M ltac:(lia) ltac:(lia) G0)%Z.
  - apply E. lia.
Qed.
End Av.

(** the averages of the phases *)
Lemma osc (b : Z) : is_CInt (fun k => cexp (Ci * RtoC (IZR b * k))) (- PI) PI (if Z.eqb b 0 then RtoC (2 * PI) else 0).
Proof.
  assert (Ex : forall k, cexp (Ci * RtoC (IZR b * k)) = (cos (IZR b * k), sin (IZR b * k))) by (intros k; unfold cexp; cbn; replace (0 * (IZR b * k) - 1 * 0)%R with 0%R by ring; replace (0 * 0 + 1 * (IZR b * k))%R with (IZR b * k)%R by ring; rewrite exp_0; apply C_ext; cbn; ring).
  split.
  - apply (is_RInt_ext (fun k => cos (IZR b * k))); [intros k _; rewrite Ex; reflexivity|]. destruct (Z.eqb_spec b 0) as [->|Nb].
    + apply (is_RInt_ext (fun _ => 1%R)); [intros; rewrite Rmult_0_l, cos_0; reflexivity|]. cbn [fst RtoC]. replace (2 * PI)%R with (scal (PI - - PI)%R 1%R) by (unfold scal; cbn; unfold mult; cbn; ring). apply @is_RInt_const.
    + cbn [fst RtoC]. replace 0%R with (sin (IZR b * PI) / IZR b - sin (IZR b * - PI) / IZR b)%R by (replace (IZR b * - PI)%R with (- (IZR b * PI))%R by ring; rewrite sin_neg, sin_Zpi; unfold Rdiv; ring).
      assert (NB : IZR b <> 0%R) by (apply not_0_IZR; exact Nb). apply (RInt_deriv (fun k => sin (IZR b * k) / IZR b)%R).
      * intros k. auto_derive; [exact Logic.I|]. field. exact NB.
      * intros k. auto_derive. exact Logic.I.
  - apply (is_RInt_ext (fun k => sin (IZR b * k))); [intros k _; rewrite Ex; reflexivity|].
    destruct (Z.eqb_spec b 0) as [->|Nb]; cbn [snd RtoC].
    + apply (is_RInt_ext (fun _ => 0%R)); [intros; rewrite Rmult_0_l, sin_0; reflexivity|]. assert (X := is_RInt_const (V := R_NormedModule) (- PI) PI 0%R). replace (scal (PI - - PI)%R (0%R : R_NormedModule)) with 0%R in X by (unfold scal; cbn; unfold mult; cbn; ring). exact X.
    + replace 0%R with (- cos (IZR b * PI) / IZR b - - cos (IZR b * - PI) / IZR b)%R by (replace (IZR b * - PI)%R with (- (IZR b * PI))%R by ring; rewrite cos_neg; unfold Rdiv; ring).
      assert (NB : IZR b <> 0%R) by (apply not_0_IZR; exact Nb). apply (RInt_deriv (fun k => - cos (IZR b * k) / IZR b)%R).
      * intros k. auto_derive; [exact Logic.I|]. field. exact NB.
      * intros k. auto_derive. exact Logic.I.
Qed.
Lemma bz_plus f g a b : is_bz_average f a -> is_bz_average g b -> is_bz_average (fun k => f k + g k) (a + b).
Proof.
  intros (i & I1 & I2) (j & J1 & J2). exists (fun k => i k + j k). split; [intros k; exact (is_CInt_plus _ _ _ _ _ _ (I1 k) (J1 k))|]. rewrite Cmult_plus_distr_l. exact (is_CInt_plus _ _ _ _ _ _ I2 J2).
Qed.
Lemma bz_scal f c a : is_bz_average f a -> is_bz_average (fun k => c * f k) (c * a).
Proof.
  intros (i & I1 & I2). exists (fun k => c * i k). split; [intros k; exact (is_CInt_scal c _ _ _ _ (I1 k))|]. apply (is_CInt_eq _ _ _ (c * (RtoC (4 * (PI * PI)) * a))); [exact (is_CInt_scal c _ _ _ _ I2)|ring].
Qed.
Lemma bz3_plus f g a b : is_bz_average3 f a -> is_bz_average3 g b -> is_bz_average3 (fun k => f k + g k) (a + b).
Proof.
  intros (i & i' & I1 & I2 & I3) (j & j' & J1 & J2 & J3). exists (fun k l => i k l + j k l), (fun k => i' k + j' k). split; [intros k l; exact (is_CInt_plus _ _ _ _ _ _ (I1 k l) (J1 k l))|]. split; [intros k; exact (is_CInt_plus _ _ _ _ _ _ (I2 k) (J2 k))|].
  rewrite Cmult_plus_distr_l. exact (is_CInt_plus _ _ _ _ _ _ I3 J3).
Qed.
Lemma bz3_scal f c a : is_bz_average3 f a -> is_bz_average3 (fun k => c * f k) (c * a).
Proof.
  intros (i & i' & I1 & I2 & I3). exists (fun k l => c * i k l), (fun k => c * i' k). split; [intros k l; exact (is_CInt_scal c _ _ _ _ (I1 k l))|]. split; [intros k; exact (is_CInt_scal c _ _ _ _ (I2 k))|].
  apply (is_CInt_eq _ _ _ (c * (RtoC (8 * (PI * PI * PI)) * a))); [exact (is_CInt_scal c _ _ _ _ I3)|ring].
Qed.
Definition dl (b : Z) : C := if Z.eqb b 0 then RtoC (2 * PI) else 0.
Lemma osc' b : is_CInt (fun k => cexp (Ci * RtoC (IZR b * k))) (- PI) PI (dl b).
Proof. exact (osc b). Qed.
Lemma phase_avg a b c s s' : c = 0%Z -> is_bz_average (fun k => phase k (a, b, c, s)) (if site_eqb (a, b, c, s') (0, 0, 0, s')%Z then 1 else 0).
Proof.
  intros ->. exists (fun k1 => dl b * cexp (Ci * RtoC (IZR a * k1))). split.
  - intros k1. apply (is_CInt_ext (fun k2 => cexp (Ci * RtoC (IZR a * k1)) * cexp (Ci * RtoC (IZR b * k2)))).
    + intros k2 _. cbn [phase fst snd]. rewrite RtoC_plus, Cmult_plus_distr_l, cexp_add. reflexivity.
    + apply (is_CInt_eq _ _ _ (cexp (Ci * RtoC (IZR a * k1)) * dl b)); [|ring]. apply is_CInt_scal, osc'.
  - apply (is_CInt_eq _ _ _ (dl b * dl a)); [apply is_CInt_scal, osc'|]. unfold dl. cbn [site_eqb]. rewrite Nat.eqb_refl. destruct (Z.eqb a 0), (Z.eqb b 0); cbn [andb Z.eqb]; apply C_ext; cbn; ring.
Qed.
Lemma phase3_avg a b c s s' : is_bz_average3 (fun k => phase3 k (a, b, c, s)) (if site_eqb (a, b, c, s') (0, 0, 0, s')%Z then 1 else 0).
Proof.
  exists (fun k1 k2 => dl c * cexp (Ci * RtoC (IZR a * k1)) * cexp (Ci * RtoC (IZR b * k2))), (fun k1 => dl c * dl b * cexp (Ci * RtoC (IZR a * k1))). split; [|split].
  - intros k1 k2. apply (is_CInt_ext (fun k3 => cexp (Ci * RtoC (IZR a * k1)) * cexp (Ci * RtoC (IZR b * k2)) * cexp (Ci * RtoC (IZR c * k3)))).
    + intros k3 _. cbn [phase3]. rewrite !RtoC_plus, !Cmult_plus_distr_l, !cexp_add. reflexivity.
    + apply (is_CInt_eq _ _ _ (cexp (Ci * RtoC (IZR a * k1)) * cexp (Ci * RtoC (IZR b * k2)) * dl c)); [|ring]. apply is_CInt_scal, osc'.
  - intros k1. apply (is_CInt_eq _ _ _ (dl c * cexp (Ci * RtoC (IZR a * k1)) * dl b)); [|ring]. apply is_CInt_scal, osc'.
  - apply (is_CInt_eq _ _ _ (dl c * dl b * dl a)); [apply is_CInt_scal, osc'|]. unfold dl. cbn [site_eqb]. rewrite Nat.eqb_refl. destruct (Z.eqb a 0), (Z.eqb b 0), (Z.eqb c 0); cbn [andb]; apply C_ext; cbn; ring.
Qed.
