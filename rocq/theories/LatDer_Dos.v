(** * Densities of states of the derived lattices, scaling with the half-bandwidth *)
From Coq Require Import Reals List ZArith Bool Lia Lra FunctionalExtensionality.
From Coquelicot Require Import Coquelicot.
From Verif Require Import Base CBase CExp CSqrt Lattice_Model Bethe_Proofs LatDer_Spec LatDer_Model.
Local Open Scope C_scope.

(** ** limits from the upper half plane *)
Section Lim.
  Variable x : R.
  Definition ulim (f : C -> C) (l : C) : Prop :=
    forall t, (0 < t)%R -> exists r, (0 < r)%R /\ forall w : C, (0 < snd w)%R -> (Cmod (w - RtoC x)%C < r)%R -> (Cmod (f w - l)%C < t)%R.
  Lemma ulim_const l : ulim (fun _ => l) l.
  Proof. intros t Ht. exists 1%R. split; [lra|]. intros w _ _. replace (l - l) with (RtoC 0) by ring. now rewrite Cmod_0. Qed.
  Lemma ulim_id : ulim (fun w => w) (RtoC x).
  Proof. intros t Ht. exists t. split; [exact Ht|]. intros w _ H. exact H. Qed.
  Lemma ulim_add f g a b : ulim f a -> ulim g b -> ulim (fun w => f w + g w) (a + b).
  Proof.
    intros Hf Hg t Ht. destruct (Hf (t / 2)%R ltac:(lra)) as (d1 & P1 & B1). destruct (Hg (t / 2)%R ltac:(lra)) as (d2 & P2 & B2).
    exists (Rmin d1 d2). split; [now apply Rmin_glb_lt|]. intros w Hw Hr. assert (M1 := Rmin_l d1 d2). assert (M2 := Rmin_r d1 d2).
    replace (f w + g w - (a + b)) with ((f w - a) + (g w - b)) by ring. eapply Rle_lt_trans; [apply Cmod_triangle|].
    specialize (B1 w Hw ltac:(lra)). specialize (B2 w Hw ltac:(lra)). lra.
  Qed.
  Lemma ulim_mul f g a b : ulim f a -> ulim g b -> ulim (fun w => f w * g w) (a * b).
  Proof.
    intros Hf Hg t Ht. assert (Ha := Cmod_ge_0 a). assert (Hb := Cmod_ge_0 b).
    destruct (Hf (Rmin 1 (t / (2 * (Cmod b + 1))))%R) as (d1 & P1 & B1). { apply Rmin_glb_lt; [lra|apply Rdiv_lt_0_compat; lra]. }
    destruct (Hg (t / (2 * (Cmod a + 1)))%R) as (d2 & P2 & B2). { apply Rdiv_lt_0_compat; lra. }
    exists (Rmin d1 d2). split; [now apply Rmin_glb_lt|]. intros h Hw Hr. assert (M1 := Rmin_l d1 d2). assert (M2 := Rmin_r d1 d2).
    specialize (B1 h Hw ltac:(lra)). specialize (B2 h Hw ltac:(lra)).
    assert (Q1 := Rmin_l 1 (t / (2 * (Cmod b + 1)))). assert (Q2 := Rmin_r 1 (t / (2 * (Cmod b + 1)))).
    replace (f h * g h - a * b) with (f h * (g h - b) + (f h - a) * b) by ring. eapply Rle_lt_trans; [apply Cmod_triangle|]. rewrite !Cmod_mult.
    assert (Hfh : (Cmod (f h)%C <= Cmod a + 1)%R). { assert (T := Cmod_triangle a (f h - a)). replace (a + (f h - a)) with (f h) in T by ring. lra. }
    assert (X1 : (Cmod (f h)%C * Cmod (g h - b)%C <= (Cmod a + 1) * (t / (2 * (Cmod a + 1))))%R) by (apply Rmult_le_compat; try apply Cmod_ge_0; lra).
    assert (X2 : (Cmod (f h - a)%C * (Cmod b + 1) < t / (2 * (Cmod b + 1)) * (Cmod b + 1))%R) by (apply Rmult_lt_compat_r; lra).
    replace ((Cmod a + 1) * (t / (2 * (Cmod a + 1))))%R with (t / 2)%R in X1 by (field; lra). replace (t / (2 * (Cmod b + 1)) * (Cmod b + 1))%R with (t / 2)%R in X2 by (field; lra).
    assert (H0 := Cmod_ge_0 (f h - a)%C). assert (H1 := Rmult_le_compat_l _ (Cmod b) (Cmod b + 1) H0 ltac:(lra)). lra.
  Qed.
  Lemma ulim_inv f a : ulim f a -> a <> 0 -> ulim (fun h => / f h) (/ a).
  Proof.
    intros Hf Ha eps He. assert (P := proj1 (Cmod_gt_0 a) Ha). destruct (Hf (Cmod a / 2)%R ltac:(lra)) as (d0 & Hd0 & B0).
    assert (PP : (0 < Cmod a * Cmod a)%R) by (apply Rmult_lt_0_compat; exact P).
    destruct (Hf (eps * (Cmod a * Cmod a) / 2)%R) as (d1 & Hd1 & B1). { assert (0 < eps * (Cmod a * Cmod a))%R by (apply Rmult_lt_0_compat; assumption). lra. }
    exists (Rmin d0 d1). split; [now apply Rmin_glb_lt|]. intros h Hw Hh. assert (M1 := Rmin_l d0 d1). assert (M2 := Rmin_r d0 d1).
    specialize (B0 h Hw ltac:(lra)). specialize (B1 h Hw ltac:(lra)).
    assert (Bl : (Cmod a / 2 <= Cmod (f h)%C)%R).
    { assert (T := Cmod_triangle (f h) (a - f h)). replace (f h + (a - f h)) with a in T by ring. replace (a - f h) with (- (f h - a)) in T by ring. rewrite Cmod_opp in T. lra. }
    assert (Hn : f h <> 0) by (apply Cmod_gt_0; lra).
    replace (/ f h - / a) with (- ((f h - a) / (f h * a))) by (field; now split). rewrite Cmod_opp, Cmod_div, Cmod_mult by now apply Cmult_neq_0.
    assert (Q : (0 < Cmod (f h)%C)%R) by lra. assert (QP := Rmult_lt_0_compat _ _ Q P).
    apply (Rmult_lt_reg_r (Cmod (f h)%C * Cmod a)%R); [exact QP|]. unfold Rdiv. rewrite Rmult_assoc, Rinv_l, Rmult_1_r by lra.
    assert (X : (Cmod a / 2 * Cmod a <= Cmod (f h)%C * Cmod a)%R) by (apply Rmult_le_compat_r; lra). assert (X2 := Rmult_le_compat_l eps _ _ ltac:(lra) X). lra.
  Qed.
  (** eventually *)
  Definition uev (P : C -> Prop) : Prop := exists r, (0 < r)%R /\ forall w : C, (0 < snd w)%R -> (Cmod (w - RtoC x)%C < r)%R -> P w.
  Lemma uev_re a b : (a < x < b)%R -> uev (fun w => (a < fst w < b)%R).
  Proof.
    intros H. exists (Rmin (x - a) (b - x)). split; [apply Rmin_glb_lt; lra|]. intros w _ Hr.
    assert (M1 := Rmin_l (x - a) (b - x)). assert (M2 := Rmin_r (x - a) (b - x)). assert (E := Cmod_ge_re (w - RtoC x)). cbn in E.
    assert (Hb := Rle_lt_trans _ _ _ E Hr). apply Rabs_def2 in Hb. lra.
  Qed.
  Lemma uev_lt f l : ulim f l -> forall t, (0 < t)%R -> uev (fun w => (Cmod (f w - l)%C < t)%R).
  Proof. intros H t Ht. exact (H t Ht). Qed.
  Lemma uev_and P Q : uev P -> uev Q -> uev (fun w => P w /\ Q w).
  Proof.
    intros (r1 & H1 & A) (r2 & H2 & B). exists (Rmin r1 r2). split; [now apply Rmin_glb_lt|]. intros w Hw Hr.
    assert (M1 := Rmin_l r1 r2). assert (M2 := Rmin_r r1 r2). split; [apply A|apply B]; lra.
  Qed.
  (** F w = P w + A w * parent (X w) with X w in the upper (or lower) half plane *)
  Variables (parent : C -> R -> result C) (y P0 : R) (g : C).
  Hypothesis Hpar : boundary parent y P0 g.
  Lemma compose_up X : ulim X (RtoC y) -> uev (fun w => (0 < snd (X w))%R) ->
    forall F p a P A, ulim P p -> ulim A a -> uev (fun w => forall G, parent (X w) P0 = Ok G -> F w = Ok (P w + A w * G)) ->
    forall t, (0 < t)%R -> uev (fun w => exists G, F w = Ok G /\ (Cmod (G - (p + a * g))%C < t)%R).
  Proof.
    intros HX HU F p a P A HP HA HF t Ht.
    (* a total version of the parent *)
    set (T := fun w => match parent (X w) P0 with Ok G => G | Err _ => g end).
    assert (HT : ulim T g /\ uev (fun w => parent (X w) P0 = Ok (T w))).
    { assert (Q : forall e, (0 < e)%R -> uev (fun w => parent (X w) P0 = Ok (T w) /\ (Cmod (T w - g)%C < e)%R)).
      { intros e He. destruct (Hpar e He) as (r & Hr & B). destruct (uev_and _ _ HU (uev_lt _ _ HX r Hr)) as (r' & Hr' & B'). exists r'. split; [exact Hr'|].
        intros w Hw Hx. destruct (B' w Hw Hx) as [U V]. destruct (B (X w) U V) as (G & EG & BG). unfold T. rewrite EG. split; [reflexivity|exact BG]. }
      split.
      - intros e He. destruct (Q e He) as (r & Hr & B). exists r. split; [exact Hr|]. intros w Hw Hx. exact (proj2 (B w Hw Hx)).
      - destruct (Q 1%R ltac:(lra)) as (r & Hr & B). exists r. split; [exact Hr|]. intros w Hw Hx. exact (proj1 (B w Hw Hx)). }
    destruct HT as [HT HE].
    destruct (uev_and _ _ (uev_and _ _ HE HF) (uev_lt _ _ (ulim_add _ _ _ _ HP (ulim_mul _ _ _ _ HA HT)) t Ht)) as (r & Hr & B). exists r. split; [exact Hr|].
    intros w Hw Hx. destruct (B w Hw Hx) as [[E F'] L]. exists (P w + A w * T w). split; [apply F', E|exact L].
  Qed.
End Lim.
Lemma Cmod_conj (z : C) : Cmod (Cconj z) = Cmod z.
Proof. unfold Cmod, Cconj. cbn. f_equal. ring. Qed.
(** the parent lattice in the lower half plane *)
Definition reflects (parent : C -> R -> result C) (D : R) : Prop := forall w G, (0 < snd w)%R -> parent w D = Ok G -> parent (Cconj w) D = Ok (Cconj G).

Section Quad.
  (** w -> c (w/d)^2 - k: real part of the frequency positive or negative *)
  Variables (parent : C -> R -> result C) (P0 : R).
  Hypothesis Hrefl : reflects parent P0.
  Variables (c d k e0 : R) (g : C).
  Hypotheses (Hc : (0 < c)%R) (Hd : (0 < d)%R) (He : e0 <> 0%R).
  Let x0 : R := (c * ((e0 / d) * (e0 / d)) - k)%R.
  Hypothesis Hpar : boundary parent x0 P0 g.
  Definition X (w : C) : C := RtoC c * ((w / RtoC d) * (w / RtoC d)) - RtoC k.
  Lemma X_lim : ulim e0 X (RtoC x0).
  Proof.
    unfold X, x0. rewrite RtoC_minus, !RtoC_mult, RtoC_div by lra.
    apply (ulim_add e0 (fun w => RtoC c * (w / RtoC d * (w / RtoC d))) (fun _ => - RtoC k)); [|apply ulim_const].
    apply ulim_mul; [apply ulim_const|]. apply ulim_mul; (apply ulim_mul; [apply ulim_id|apply ulim_const]).
  Qed.
  Lemma X_im w : snd (X w) = (2 * c / (d * d) * (fst w * snd w))%R.
  Proof. unfold X. destruct w as [a b]. unfold Cdiv. rewrite <- RtoC_inv by lra. cbn. field. lra. Qed.
  Definition gq : C := if Rlt_dec 0 e0 then g else Cconj g.
  Lemma quad_compose F p a P A : ulim e0 P p -> ulim e0 A a -> uev e0 (fun w => forall G, parent (X w) P0 = Ok G -> F w = Ok (P w + A w * G)) ->
    forall t, (0 < t)%R -> uev e0 (fun w => exists G, F w = Ok G /\ (Cmod (G - (p + a * gq))%C < t)%R).
  Proof.
    intros HP HA HF. assert (K : (0 < 2 * c / (d * d))%R) by (apply Rdiv_lt_0_compat; [lra|apply Rmult_lt_0_compat; lra]).
    unfold gq. destruct (Rlt_dec 0 e0) as [Hp|Hn].
    - eapply compose_up; [exact Hpar|exact X_lim| |exact HP|exact HA|exact HF].
      destruct (uev_re e0 (e0 / 2) (2 * e0) ltac:(lra)) as (r & Hr & B). exists r. split; [exact Hr|]. intros w Hw Hx. specialize (B w Hw Hx). cbv beta in B.
      rewrite X_im. apply Rmult_lt_0_compat; [exact K|]. apply Rmult_lt_0_compat; lra.
    - assert (HX : ulim e0 (fun w => Cconj (X w)) (RtoC x0)).
      { intros t Ht. destruct (X_lim t Ht) as (r & Hr & B). exists r. split; [exact Hr|]. intros w Hw Hx. specialize (B w Hw Hx).
        replace (Cconj (X w) - RtoC x0) with (Cconj (X w - RtoC x0)) by (apply C_ext; cbn; ring). rewrite Cmod_conj. exact B. }
      assert (HB : boundary (fun z D => match parent z D with Ok G => Ok (Cconj G) | Err e => Err e end) x0 P0 (Cconj g)).
      { intros t Ht. destruct (Hpar t Ht) as (r & Hr & B). exists r. split; [exact Hr|]. intros w Hw Hx. destruct (B w Hw Hx) as (G & E & L).
        exists (Cconj G). rewrite E. split; [reflexivity|]. replace (Cconj G - Cconj g) with (Cconj (G - g)) by (apply C_ext; cbn; ring). rewrite Cmod_conj. exact L. }
      eapply compose_up; [exact HB|exact HX| |exact HP|exact HA|].
      + destruct (uev_re e0 (2 * e0) (e0 / 2) ltac:(lra)) as (r & Hr & B). exists r. split; [exact Hr|]. intros w Hw Hx. specialize (B w Hw Hx). cbv beta in B.
        change (snd (Cconj (X w))) with (- snd (X w))%R. rewrite X_im. replace (- (2 * c / (d * d) * (fst w * snd w)))%R with (2 * c / (d * d) * (- fst w * snd w))%R by ring.
        apply Rmult_lt_0_compat; [exact K|]. apply Rmult_lt_0_compat; lra.
      + destruct (uev_and _ _ _ HF (uev_re e0 (2 * e0) (e0 / 2) ltac:(lra))) as (r & Hr & B). exists r. split; [exact Hr|]. intros w Hw Hx G EG. destruct (B w Hw Hx) as [Bw Rw]. apply Bw.
        destruct (parent (Cconj (X w)) P0) as [G'|] eqn:E; [|discriminate]. injection EG as <-. apply Hrefl in E.
        2:{ change (snd (Cconj (X w))) with (- snd (X w))%R. rewrite X_im. replace (- (2 * c / (d * d) * (fst w * snd w)))%R with (2 * c / (d * d) * (- fst w * snd w))%R by ring.
            apply Rmult_lt_0_compat; [exact K|]. apply Rmult_lt_0_compat; lra. }
        replace (Cconj (Cconj (X w))) with (X w) in E by (apply C_ext; cbn; ring). exact E.
  Qed.
  Lemma gq_im : (e0 / d * snd gq = Rabs (e0 / d) * snd g)%R.
  Proof.
    unfold gq. assert (D := Rinv_0_lt_compat d Hd). unfold Rdiv. rewrite Rabs_mult, (Rabs_pos_eq (/ d)) by lra. destruct (Rlt_dec 0 e0).
    - rewrite Rabs_pos_eq by lra. reflexivity.
    - rewrite Rabs_left by lra. cbn. ring.
  Qed.
End Quad.
Lemma upper_neq0 (w : C) : (0 < snd w)%R -> w <> 0.
Proof. intros H ->. cbn in H. lra. Qed.
Lemma rdiv_ok' x y : y <> 0%R -> rdiv x y = Ok (x / y)%R.
Proof. unfold rdiv. destruct (Req_EM_T y 0); congruence. Qed.

Theorem honeycomb_boundary (tri : C -> R -> result C) (trid : R -> R -> result R) (D e : R) (g : C) : (0 < D)%R -> e <> 0%R -> reflects tri (9 / 4) ->
  let x0 := (2 * ((e / (D / (3 / 2))) * (e / (D / (3 / 2)))) - 3 / 2)%R in
  boundary tri x0 (9 / 4) g -> trid x0 (9 / 4)%R = Ok (- snd g / PI)%R ->
  exists g', boundary (honeycomb_gf_z tri) e D g' /\ honeycomb_dos trid e D = Ok (- snd g' / PI)%R.
Proof.
  intros HD He Hr x0 Hb Hd. set (d := (D / (3 / 2))%R) in *. assert (Dp : (0 < d)%R) by (unfold d; lra). assert (PI0 := PI_RGT_0).
  exists (0 + 2 / RtoC d * (RtoC e / RtoC d) * gq e g). split.
  - unfold boundary. 
    assert (Hq := quad_compose tri (9 / 4) Hr 2 d (3 / 2) e g ltac:(lra) Dp He Hb (fun w => honeycomb_gf_z tri w D) 0 (2 / RtoC d * (RtoC e / RtoC d)) (fun _ => 0) (fun w => 2 / RtoC d * (w / RtoC d))
      (ulim_const e 0)).
    apply Hq.
    + apply ulim_mul; [apply ulim_const|]. apply ulim_mul; [apply ulim_id|apply ulim_const].
    + exists 1%R. split; [lra|]. intros w _ _ G EG. unfold honeycomb_gf_z. fold d. rewrite !cdiv_ok by (apply RtoC_neq0; lra). cbn [bind].
      unfold X in EG. rewrite EG. cbn [bind]. f_equal. ring.
  - unfold honeycomb_dos. fold d. rewrite !rdiv_ok' by lra. cbn [bind]. fold x0. rewrite Hd. cbn [bind]. f_equal.
    rewrite <- !RtoC_div by lra. rewrite <- RtoC_mult. 
    replace (snd (0 + RtoC (2 / d * (e / d)) * gq e g)) with (2 / d * (e / d * snd (gq e g)))%R by (cbn; ring).
    rewrite (gq_im d e g Dp He). field. lra.
Qed.

(** ** scaling with the half-bandwidth *)
Definition cscales (f : C -> R -> result C) : Prop :=
  forall s z D, (0 < s)%R -> f (RtoC s * z) (s * D)%R = do g <- f z D; Ok (g / RtoC s).
Definition rscales (f : R -> R -> result R) : Prop :=
  forall s x D, (0 < s)%R -> f (s * x)%R (s * D)%R = do g <- f x D; Ok (g / s)%R.
Lemma cdiv_scale s x y : (0 < s)%R -> cdiv (RtoC s * x) (RtoC s * y) = cdiv x y.
Proof.
  intros H. assert (S := RtoC_neq0 s ltac:(lra)). unfold cdiv. destruct (Ceq_dec y 0) as [->|E].
  - destruct (Ceq_dec (RtoC s * 0) 0) as [|n]; [reflexivity|]. exfalso. apply n. ring.
  - destruct (Ceq_dec (RtoC s * y) 0) as [E'|_]; [exfalso; exact (Cmult_neq_0 _ _ S E E')|]. f_equal. field. split; assumption.
Qed.
Lemma cdiv_scale_D s x D : (0 < s)%R -> cdiv x (RtoC (s * D)) = do q <- cdiv x (RtoC D); Ok (q / RtoC s).
Proof.
  intros H. assert (S := RtoC_neq0 s ltac:(lra)). unfold cdiv. rewrite RtoC_mult. destruct (Ceq_dec (RtoC D) 0) as [->|E].
  - destruct (Ceq_dec (RtoC s * 0) 0) as [|n]; [reflexivity|]. exfalso. apply n. ring.
  - destruct (Ceq_dec (RtoC s * RtoC D) 0) as [E'|_]; [exfalso; exact (Cmult_neq_0 _ _ S E E')|]. cbn [bind]. f_equal. field. split; assumption.
Qed.
Lemma rdiv_scale s x y : (0 < s)%R -> rdiv (s * x) (s * y) = rdiv x y.
Proof.
  intros H. unfold rdiv. destruct (Req_EM_T y 0) as [->|E].
  - destruct (Req_EM_T (s * 0) 0) as [|n]; [reflexivity|]. exfalso. apply n. ring.
  - destruct (Req_EM_T (s * y) 0) as [E'|_]; [apply Rmult_integral in E'; exfalso; destruct E'; [lra|contradiction]|]. f_equal. field. split; lra.
Qed.
Lemma rdiv_scale_D s x D : (0 < s)%R -> rdiv x (s * D) = do q <- rdiv x D; Ok (q / s)%R.
Proof.
  intros H. unfold rdiv. destruct (Req_EM_T D 0) as [->|E].
  - destruct (Req_EM_T (s * 0) 0) as [|n]; [reflexivity|]. exfalso. apply n. ring.
  - destruct (Req_EM_T (s * D) 0) as [E'|_]; [apply Rmult_integral in E'; exfalso; destruct E'; [lra|contradiction]|]. cbn [bind]. f_equal. field. split; lra.
Qed.
Ltac steps := repeat (match goal with
  | |- context [bind (cdiv ?a ?b) _] => destruct (cdiv a b); cbn [bind]; [|reflexivity]
  | |- context [bind (rdiv ?a ?b) _] => destruct (rdiv a b); cbn [bind]; [|reflexivity]
  end).
Section Scales.
  Variables (ellipk : C -> result C) (ellipkm1 : R -> result R).
  Lemma square_scales : cscales (square_gf_z ellipk).
  Proof.
    intros s z D H. assert (S := RtoC_neq0 s ltac:(lra)). unfold square_gf_z. rewrite cdiv_scale_D, (RtoC_mult s D), cdiv_scale by exact H.
    destruct (cdiv (RtoC D) z) as [r|]; cbn [bind]; [|reflexivity]. destruct (ellipk (r * r)) as [k|]; cbn [bind]; [|reflexivity].
    destruct (cdiv (RtoC (2 / PI)) (RtoC D)) as [p|]; cbn [bind]; [|reflexivity]. f_equal. field. exact S.
  Qed.
  Lemma square_dos_scales : rscales (square_dos ellipkm1).
  Proof.
    intros s x D H. unfold square_dos. rewrite rdiv_scale, rdiv_scale_D by exact H.
    destruct (rdiv x D) as [r|]; cbn [bind]; [|reflexivity]. destruct (Rle_dec (Rabs r) 1); [|cbn [bind]; f_equal; field; lra].
    destruct (ellipkm1 (r * r)%R) as [k|]; cbn [bind]; [|reflexivity]. destruct (rdiv (2 / (PI * PI)) D) as [p|]; cbn [bind]; [|reflexivity]. f_equal. field. lra.
  Qed.
  Lemma rectangular_scales scale : cscales (fun z D => rectangular_gf_z ellipk z D scale).
  Proof.
    intros s z D H. assert (S := RtoC_neq0 s ltac:(lra)). unfold rectangular_gf_z.
    assert (E : rdiv (s * D) (1 + scale) = do q <- rdiv D (1 + scale); Ok (s * q)%R).
    { unfold rdiv. destruct (Req_EM_T (1 + scale) 0); [reflexivity|]. cbn [bind]. f_equal. field. assumption. }
    rewrite E. destruct (rdiv D (1 + scale)) as [d|]; cbn [bind]; [|reflexivity].
    rewrite (cdiv_scale_D s (RtoC (2 / PI))) by exact H. rewrite (RtoC_mult s d), cdiv_scale by exact H. destruct (cdiv z (RtoC d)) as [r|]; cbn [bind]; [|reflexivity].
    destruct (cdiv (RtoC (4 * scale)) _) as [k1|]; cbn [bind]; [|reflexivity]. destruct (ellipk k1) as [k|]; cbn [bind]; [|reflexivity].
    destruct (cdiv 1 r) as [zi|]; cbn [bind]; [|reflexivity]. destruct (cdiv 1 (csqrt _)) as [ks|]; cbn [bind]; [|reflexivity].
    destruct (cdiv (RtoC (2 / PI)) (RtoC d)) as [p|]; cbn [bind]; [|reflexivity]. f_equal. field. exact S.
  Qed.
  (** the square lattice is the isotropic rectangular one *)
  Lemma rectangular_square z D : D <> 0%R -> rectangular_gf_z ellipk z D 1 = square_gf_z ellipk z D.
  Proof.
    intros HD. assert (Dc := RtoC_neq0 D HD). unfold rectangular_gf_z, square_gf_z. rewrite rdiv_ok' by lra. cbn [bind].
    assert (H2 : RtoC (D / (1 + 1)) <> 0) by (apply RtoC_neq0; intros E; apply HD; lra). rewrite (cdiv_ok _ _ H2). cbn [bind].
    assert (H2' : RtoC 2 <> 0) by (apply RtoC_neq0; lra).
    replace (RtoC (D / (1 + 1))) with (RtoC D / 2) by (replace (1 + 1)%R with 2%R by ring; rewrite RtoC_div by lra; reflexivity).
    replace (RtoC ((1 - 1) * (1 - 1))) with (RtoC 0) by (f_equal; ring).
    destruct (Ceq_dec z 0) as [->|Hz].
    - replace (0 / (RtoC D / 2)) with (RtoC 0) by (field; split; assumption). unfold cdiv. destruct (Ceq_dec (0 * 0 - 0) 0) as [|n]; [|exfalso; apply n; ring]. destruct (Ceq_dec 0 0) as [|n]; [|congruence]. reflexivity.
    - assert (Hw : z / (RtoC D / 2) <> 0). { intros E. apply Hz. replace z with (z / (RtoC D / 2) * (RtoC D / 2)) by (field; split; assumption). rewrite E. ring. }
      assert (E4 : RtoC (4 * 1) / (z / (RtoC D / 2) * (z / (RtoC D / 2)) - 0) = RtoC D / z * (RtoC D / z)).
      { replace (z / (RtoC D / 2) * (z / (RtoC D / 2)) - 0) with (z / (RtoC D / 2) * (z / (RtoC D / 2))) by ring.
        replace (RtoC (4 * 1)) with (2 * 2) by (rewrite <- RtoC_mult; f_equal; ring). rewrite C2_eq in *. field. repeat split; try assumption; exact C11_neq0. }
      assert (Ew : 1 / (z / (RtoC D / 2)) = RtoC D / z / 2). { rewrite C2_eq in *. field. repeat split; try assumption; exact C11_neq0. }
      rewrite (cdiv_ok _ (_ - 0)) by (replace (z / (RtoC D / 2) * (z / (RtoC D / 2)) - 0) with (z / (RtoC D / 2) * (z / (RtoC D / 2))) by ring; apply Cmult_neq_0; exact Hw). cbn [bind].
      rewrite E4. rewrite !(cdiv_ok _ _ Hz), (cdiv_ok _ _ Hw), Ew. cbn [bind].
      destruct (ellipk (RtoC D / z * (RtoC D / z))) as [k|]; cbn [bind]; [|reflexivity].
      replace (1 - 0 * (RtoC D / z / 2 * (RtoC D / z / 2))) with (RtoC 1) by ring. rewrite csqrt_R, sqrt_1 by lra.
      rewrite (cdiv_ok 1 1) by (apply RtoC_neq0; lra). cbn [bind]. rewrite !cdiv_ok by (assumption || (intros E; apply Dc; replace (RtoC D) with (RtoC D / 2 * 2) by (field; exact H2'); rewrite E; ring)).
      cbn [bind]. f_equal. rewrite C2_eq in *. field. repeat split; try assumption; try exact C11_neq0; intros E0; apply (f_equal fst) in E0; cbn in E0; lra.
  Qed.
End Scales.
Lemma half_scale s D c : (s * D / c = s * (D / c))%R. Proof. unfold Rdiv. ring. Qed.
Lemma lieb_scales sqr : cscales (lieb_gf_z sqr).
Proof.
  intros s z D H. assert (S := RtoC_neq0 s ltac:(lra)). unfold lieb_gf_z. rewrite half_scale. set (d := (D / (2 * sqrt 2))%R).
  replace (3 * RtoC (s * d)) with (RtoC (s * (3 * d))) by (rewrite !RtoC_mult; ring). rewrite (cdiv_scale_D s 2) by exact H.
  rewrite (RtoC_mult s d), cdiv_scale by exact H. rewrite (RtoC_mult 3 d).
  destruct (cdiv z (RtoC d)) as [r|]; cbn [bind]; [|reflexivity].
  assert (E : cdiv (RtoC (1 / 3)) (RtoC s * z) = do q <- cdiv (RtoC (1 / 3)) z; Ok (q / RtoC s)).
  { unfold cdiv. destruct (Ceq_dec z 0) as [->|N].
    - destruct (Ceq_dec (RtoC s * 0) 0) as [|n]; [reflexivity|]. exfalso. apply n. ring.
    - destruct (Ceq_dec (RtoC s * z) 0) as [E'|_]; [exfalso; exact (Cmult_neq_0 _ _ S N E')|]. cbn [bind]. f_equal. field. split; assumption. }
  rewrite E. destruct (cdiv (RtoC (1 / 3)) z) as [p|]; cbn [bind]; [|reflexivity].
  destruct (cdiv 2 (3 * RtoC d)) as [q|]; cbn [bind]; [|reflexivity]. destruct (sqr _ _) as [g|]; cbn [bind]; [|reflexivity]. f_equal. field. exact S.
Qed.
Lemma lieb_dos_scales sqr : rscales (lieb_dos sqr).
Proof.
  intros s x D H. unfold lieb_dos. cbv zeta. rewrite rdiv_scale by exact H. replace (3 * (s * D))%R with (s * (3 * D))%R by ring. rewrite rdiv_scale_D by exact H.
  destruct (rdiv x D) as [r|]; cbn [bind]; [|reflexivity]. destruct (rdiv 4 (3 * D)) as [p|]; cbn [bind]; [|reflexivity].
  destruct (sqr _ _) as [d|]; cbn [bind]; [|reflexivity]. f_equal. field. lra.
Qed.
Lemma honeycomb_scales tri : cscales (honeycomb_gf_z tri).
Proof.
  intros s z D H. assert (S := RtoC_neq0 s ltac:(lra)). unfold honeycomb_gf_z. cbv zeta. rewrite half_scale. set (d := (D / (3 / 2))%R).
  rewrite (cdiv_scale_D s 2) by exact H. rewrite (RtoC_mult s d), cdiv_scale by exact H.
  destruct (cdiv z (RtoC d)) as [r|]; cbn [bind]; [|reflexivity]. destruct (cdiv 2 (RtoC d)) as [p|]; cbn [bind]; [|reflexivity].
  destruct (tri _ _) as [g|]; cbn [bind]; [|reflexivity]. f_equal. field. exact S.
Qed.
Lemma honeycomb_dos_scales tri : rscales (honeycomb_dos tri).
Proof.
  intros s x D H. unfold honeycomb_dos. cbv zeta. rewrite half_scale. set (d := (D / (3 / 2))%R). rewrite rdiv_scale, rdiv_scale_D by exact H.
  destruct (rdiv x d) as [r|]; cbn [bind]; [|reflexivity]. destruct (rdiv 2 d) as [p|]; cbn [bind]; [|reflexivity].
  destruct (tri _ _) as [g|]; cbn [bind]; [|reflexivity]. f_equal. field. lra.
Qed.
Lemma kagome_scales tri : cscales (kagome_gf_z tri).
Proof.
  intros s z D H. assert (S := RtoC_neq0 s ltac:(lra)). unfold kagome_gf_z. cbv zeta.
  replace (3 * (RtoC s * z) + 2 * RtoC (s * D)) with (RtoC s * (3 * z + 2 * RtoC D)) by (rewrite RtoC_mult; ring).
  assert (E : cdiv 1 (RtoC s * (3 * z + 2 * RtoC D)) = do q <- cdiv 1 (3 * z + 2 * RtoC D); Ok (q / RtoC s)).
  { unfold cdiv. destruct (Ceq_dec (3 * z + 2 * RtoC D) 0) as [->|N].
    - destruct (Ceq_dec (RtoC s * 0) 0) as [|n]; [reflexivity|]. exfalso. apply n. ring.
    - destruct (Ceq_dec (RtoC s * (3 * z + 2 * RtoC D)) 0) as [E'|_]; [exfalso; exact (Cmult_neq_0 _ _ S N E')|]. cbn [bind]. f_equal. field. split; assumption. }
  rewrite E. destruct (cdiv 1 (3 * z + 2 * RtoC D)) as [p|]; cbn [bind]; [|reflexivity].
  replace (RtoC s * z - RtoC (s * D / 3)) with (RtoC s * (z - RtoC (D / 3))) by (rewrite half_scale, RtoC_mult; ring).
  rewrite (honeycomb_scales tri s _ D H). destruct (honeycomb_gf_z tri _ D) as [g|]; cbn [bind]; [|reflexivity]. f_equal. field. exact S.
Qed.
Lemma kagome_dos_scales tri : rscales (kagome_dos tri).
Proof.
  intros s x D H. unfold kagome_dos. cbv zeta. replace (3 * (s * x) - s * D)%R with (s * (3 * x - D))%R by ring. replace (3 * (s * D))%R with (s * (3 * D))%R by ring.
  rewrite (honeycomb_dos_scales tri s _ _ H). destruct (honeycomb_dos tri _ _) as [g|]; cbn [bind]; [|reflexivity]. f_equal. field. lra.
Qed.
Lemma bethe_scales : cscales bethe_gf_z.
Proof.
  intros s z D H. assert (S := RtoC_neq0 s ltac:(lra)). unfold bethe_gf_z. rewrite (RtoC_mult s D), cdiv_scale by exact H.
  destruct (Ceq_dec (RtoC D) 0) as [E|N]; [rewrite E; unfold cdiv; destruct (Ceq_dec 0 0); [reflexivity|congruence]|]. rewrite (cdiv_ok z _ N). cbn [bind]. destruct (cdiv 1 _) as [m|]; cbn [bind]; [|reflexivity]. f_equal. field. split; assumption.
Qed.
Lemma bethe_dos_scales : rscales bethe_dos.
Proof.
  intros s x D H. assert (PP := PI_RGT_0). unfold bethe_dos. rewrite rdiv_scale by exact H. unfold rdiv. destruct (Req_EM_T D 0) as [|N]; [reflexivity|]. cbn [bind]. f_equal.
  destruct (Rlt_dec _ 1); field; repeat split; lra.
Qed.
Lemma bethez_scales Z : cscales (fun z D => bethez_gf_z z D Z).
Proof.
  intros s z D H. assert (S := RtoC_neq0 s ltac:(lra)). unfold bethez_gf_z. destruct (Rlt_dec 1 Z); [|reflexivity].
  rewrite (cdiv_scale_D s (2 * _)) by exact H. rewrite (RtoC_mult s D), cdiv_scale by exact H. destruct (cdiv (RtoC D) z) as [r'|]; cbn [bind]; [|reflexivity].
  destruct (cdiv (2 * (RtoC Z - 1)) (RtoC D)) as [p|]; cbn [bind]; [|reflexivity]. unfold cdiv. destruct (Ceq_dec _ 0) as [|N]; [reflexivity|]. cbn [bind]. f_equal. field. split; assumption.
Qed.
Lemma bethez_dos_scales Z : rscales (fun x D => bethez_dos x D Z).
Proof.
  intros s x D H. assert (PP := PI_RGT_0). unfold bethez_dos. destruct (Rlt_dec 1 Z); [|reflexivity]. rewrite rdiv_scale by exact H. replace (s * D * PI)%R with (s * (D * PI))%R by ring. rewrite rdiv_scale_D by exact H.
  destruct (rdiv x D) as [e|]; cbn [bind]; [|reflexivity]. destruct (Rle_dec (Rabs e) 1); [|cbn [bind]; f_equal; field; lra].
  destruct (rdiv _ (D * PI)) as [f|]; cbn [bind]; [|reflexivity]. unfold rdiv. destruct (Req_EM_T _ 0) as [|N]; [reflexivity|]. cbn [bind]. f_equal. field. split; first [exact N|lra].
Qed.
Lemma onedim_scales : cscales onedim_gf_z.
Proof.
  intros s z D H. assert (S := RtoC_neq0 s ltac:(lra)). unfold onedim_gf_z. rewrite (cdiv_scale_D s 1) by exact H. rewrite (RtoC_mult s D), cdiv_scale by exact H.
  destruct (cdiv (RtoC D) z) as [r|]; cbn [bind]; [|reflexivity]. destruct (cdiv 1 (RtoC D)) as [p|]; cbn [bind]; [|reflexivity].
  unfold cdiv. destruct (Ceq_dec _ 0) as [|N]; [reflexivity|]. cbn [bind]. f_equal. field. split; assumption.
Qed.
Lemma onedim_dos_scales : rscales onedim_dos.
Proof.
  intros s x D H. unfold onedim_dos. rewrite rdiv_scale by exact H. replace (PI * (s * D))%R with (s * (PI * D))%R by ring. rewrite rdiv_scale_D by exact H.
  destruct (rdiv x D) as [e|]; cbn [bind]; [|reflexivity]. destruct (Rle_dec (Rabs e) 1); [|cbn [bind]; f_equal; field; lra].
  destruct (rdiv 1 (PI * D)) as [p|]; cbn [bind]; [|reflexivity]. unfold rdiv. destruct (Req_EM_T _ 0) as [|N]; [reflexivity|]. cbn [bind]. f_equal. field. split; first [exact N|lra].
Qed.
Lemma box_scales : cscales box_gf_z.
Proof.
  intros s z D H. assert (S := RtoC_neq0 s ltac:(lra)). unfold box_gf_z. rewrite (cdiv_scale_D s (RtoC (1 / 2))) by exact H. rewrite (RtoC_mult s D), cdiv_scale by exact H.
  destruct (cdiv z (RtoC D)) as [r|]; cbn [bind]; [|reflexivity]. destruct (cdiv (r + 1) (r - 1)) as [p|]; cbn [bind]; [|reflexivity].
  destruct (Ceq_dec p 0); [reflexivity|]. destruct (cdiv (RtoC (1 / 2)) (RtoC D)) as [q|]; cbn [bind]; [|reflexivity]. f_equal. field. exact S.
Qed.
Lemma box_dos_scales : rscales box_dos.
Proof.
  intros s x D H. unfold box_dos. rewrite rdiv_scale_D by exact H. destruct (rdiv (1 / 2) D) as [h|]; cbn [bind]; [|reflexivity]. f_equal.
  rewrite Rabs_mult, (Rabs_pos_eq s) by lra. destruct (Rlt_dec (s * Rabs x) (s * D)) as [A|A], (Rlt_dec (Rabs x) D) as [B|B]; try reflexivity; try (field; lra).
  - exfalso. apply B. apply (Rmult_lt_reg_l s); assumption.
  - exfalso. apply A. apply Rmult_lt_compat_l; assumption.
Qed.

Theorem kagome_boundary (tri : C -> R -> result C) (trid : R -> R -> result R) (D e : R) (g : C) : (0 < D)%R -> e <> (D / 3)%R -> (3 * e + 2 * D <> 0)%R -> reflects tri (9 / 4) ->
  let x0 := (2 * (((e - D / 3) / (D / (3 / 2))) * ((e - D / 3) / (D / (3 / 2)))) - 3 / 2)%R in
  boundary tri x0 (9 / 4) g -> trid x0 (9 / 4)%R = Ok (- snd g / PI)%R ->
  exists g', boundary (kagome_gf_z tri) e D g' /\ kagome_dos trid e D = Ok (- snd g' / PI)%R.
Proof.
  intros HD He Hp Hr x0 Hb Hd. assert (PP := PI_RGT_0). assert (He' : (e - D / 3 <> 0)%R) by lra.
  destruct (honeycomb_boundary tri trid D (e - D / 3) g HD He' Hr Hb Hd) as (h & Hh & Hhd).
  assert (Pc : RtoC (3 * e + 2 * D) <> 0) by (apply RtoC_neq0; exact Hp).
  exists (RtoC (/ (3 * e + 2 * D)) + RtoC (2 / 3) * h). split.
  - assert (Q := compose_up e (honeycomb_gf_z tri) (e - D / 3) D h Hh (fun w => w - RtoC (D / 3))).
    assert (HX : ulim e (fun w => w - RtoC (D / 3)) (RtoC (e - D / 3))).
    { rewrite RtoC_minus. apply (ulim_add e (fun w => w) (fun _ => - RtoC (D / 3))); [apply ulim_id|apply ulim_const]. }
    assert (HU : uev e (fun w : C => (0 < snd (w - RtoC (D / 3))%C)%R)) by (exists 1%R; split; [lra|]; intros w Hw _; cbn; lra).
    assert (HP : ulim e (fun w => / (3 * w + 2 * RtoC D)) (RtoC (/ (3 * e + 2 * D)))).
    { rewrite RtoC_inv by exact Hp. apply ulim_inv; [|exact Pc]. rewrite RtoC_plus, !RtoC_mult. apply ulim_add; [|apply ulim_const]. apply ulim_mul; [apply ulim_const|apply ulim_id]. }
    refine (Q HX HU (fun w => kagome_gf_z tri w D) _ (RtoC (2 / 3)) _ (fun _ => RtoC (2 / 3)) HP (ulim_const e _) _).
    exists 1%R. split; [lra|]. intros w Hw _ G EG. unfold kagome_gf_z. cbv zeta.
    rewrite cdiv_ok by (intros E; apply (f_equal snd) in E; cbn in E; lra). cbn [bind]. rewrite EG. cbn [bind]. f_equal. unfold Cdiv. ring.
  - unfold kagome_dos. cbv zeta. replace (3 * e - D)%R with (3 * (e - D / 3))%R by field. rewrite honeycomb_dos_scales by lra. rewrite Hhd. cbn [bind]. f_equal. cbn. field. lra.
Qed.
Theorem lieb_boundary (sqr : C -> R -> result C) (sqrd : R -> R -> result R) (D e : R) (g : C) : (0 < D)%R -> e <> 0%R -> reflects sqr 4 -> rscales sqrd ->
  let x0 := (8 * ((e / D) * (e / D)) - 4)%R in
  boundary sqr x0 4 g -> sqrd x0 4%R = Ok (- snd g / PI)%R ->
  exists g', boundary (lieb_gf_z sqr) e D g' /\ lieb_dos sqrd e D = Ok (- snd g' / PI)%R.
Proof.
  intros HD He Hr Hs x0 Hb Hd. assert (PP := PI_RGT_0). set (d := (D / (2 * sqrt 2))%R). assert (S2 : (0 < sqrt 2)%R) by (apply sqrt_lt_R0; lra).
  assert (SS : (sqrt 2 * sqrt 2 = 2)%R) by (apply sqrt_sqrt; lra).
  assert (Dp : (0 < d)%R) by (unfold d; apply Rdiv_lt_0_compat; lra).
  assert (Dd : (d * d = D * D / 8)%R). { unfold d. replace (D / (2 * sqrt 2) * (D / (2 * sqrt 2)))%R with (D * D / (4 * (sqrt 2 * sqrt 2)))%R by (field; lra). rewrite SS. field. }
  assert (X0 : x0 = (1 * (e / d * (e / d)) - 4)%R). { unfold x0. replace (e / d * (e / d))%R with (e * e / (d * d))%R by (field; lra). rewrite Dd. field. lra. }
  rewrite X0 in Hb.
  assert (Hpeak : ulim e (fun w => RtoC (1 / 3) / w) (RtoC (1 / 3 / e))).
  { rewrite (RtoC_div (1 / 3) e He). apply ulim_mul; [apply ulim_const|]. apply ulim_inv; [apply ulim_id|apply RtoC_neq0; exact He]. }
  exists (RtoC (1 / 3 / e) + RtoC 2 / (3 * RtoC d) * (RtoC e / RtoC d) * gq e g). split.
  - assert (Hq := quad_compose sqr 4 Hr 1 d 4 e g ltac:(lra) Dp He Hb (fun w => lieb_gf_z sqr w D) _ (RtoC 2 / (3 * RtoC d) * (RtoC e / RtoC d)) _ (fun w => RtoC 2 / (3 * RtoC d) * (w / RtoC d)) Hpeak).
    refine (Hq _ _).
    + apply ulim_mul; [apply ulim_const|]. apply ulim_mul; [apply ulim_id|apply ulim_const].
    + exists 1%R. split; [lra|]. intros w Hw _ G EG. unfold lieb_gf_z. fold d. assert (W := upper_neq0 w Hw). assert (Dc := RtoC_neq0 d ltac:(lra)).
      rewrite !cdiv_ok by (assumption || (rewrite <- RtoC_mult; apply RtoC_neq0; lra)). cbn [bind].
      unfold X in EG. rewrite Cmult_1_l in EG. rewrite EG. cbn [bind]. reflexivity.
  - unfold lieb_dos. cbv zeta. rewrite !rdiv_ok' by lra. cbn [bind].
    assert (E4 := Hs 4%R (2 * (e / D * (e / D)) - 1)%R 1%R ltac:(lra)). replace (4 * (2 * (e / D * (e / D)) - 1))%R with x0 in E4 by (unfold x0; ring). rewrite Rmult_1_r, Hd in E4.
    destruct (sqrd _ 1%R) as [v|]; [|discriminate]. cbn [bind] in *. injection E4 as E4. f_equal.
    rewrite <- RtoC_mult, <- !RtoC_div by lra. rewrite <- RtoC_mult.
    replace (snd (RtoC (1 / 3 / e) + RtoC (2 / (3 * d) * (e / d)) * gq e g)) with (2 / (3 * d) * (e / d * snd (gq e g)))%R by (cbn; ring).
    rewrite (gq_im d e g Dp He).
    replace (Rabs (e / d)) with (Rabs (e / D) * D / d)%R by (unfold Rdiv; rewrite !Rabs_mult, !Rabs_inv, (Rabs_pos_eq D), (Rabs_pos_eq d) by lra; field; lra).
    replace (- (2 / (3 * d) * (Rabs (e / D) * D / d * snd g)) / PI)%R with (2 / 3 * (Rabs (e / D) * D / (d * d)) * (- snd g / PI))%R by (field; lra).
    rewrite Dd, E4. field. lra.
Qed.
