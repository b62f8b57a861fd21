(** * What masked_coefficients does with the value of one kept point *)
From Coq Require Import Reals List Lia Lra.
From Coquelicot Require Import Coquelicot.
From Verif Require Import Base CBase Lattice_Model Bethe_Proofs Pade_Model Pade_Spec Pade_Proofs Masked_Model Masked_Spec Masked_Proofs.
Import ListNotations.
Local Open Scope C_scope.

(** the continued fraction with points and coefficients [pts] and the last coefficient aj *)
Fixpoint frac (zj : C) (pts : list (C * C)) (aj : C) : C * C :=
  match pts with [] => (aj, RtoC 1) | (zm, am) :: r => let '(n, d) := frac zj r aj in (am * d, d + (zj - zm) * n) end.
Lemma frac_cf (zj aj : C) : forall pts, frac zj pts aj = cf_frac (K := CF) zj (map snd pts ++ [aj]) (map fst pts).
Proof.
  induction pts as [|[zm am] pts IH]; [reflexivity|]. cbn [frac map app fst snd]. rewrite IH.
  change (cf_frac (K := CF) zj (am :: map snd pts ++ [aj]) (zm :: map fst pts))
    with (let '(n, d) := cf_frac (K := CF) zj (map snd pts ++ [aj]) (map fst pts) in ((am * d)%C, (d + (zj - zm) * n)%C)). reflexivity.
Qed.
Definition pre (j : nat) (cs zs : list C) : list (C * C) := kept_before j cs (combine zs cs).
Lemma pre_S j c cs z zs : pre (S j) (c :: cs) (z :: zs) = if Ceq_dec c 0 then pre j cs zs else (z, c) :: pre j cs zs.
Proof. reflexivity. Qed.

(** numerator and denominator do not vanish together *)
Lemma frac_nz (zj aj : C) : forall pts : list (C * C), (forall p, In p pts -> snd p <> 0 /\ fst p <> zj) ->
  ~ (fst (frac zj pts aj) = 0 /\ snd (frac zj pts aj) = 0).
Proof.
  induction pts as [|[zm am] pts IH]; intros H.
  - cbn. intros [_ E]. apply (f_equal fst) in E. cbn in E. lra.
  - cbn [frac]. assert (IH' := IH (fun p Hp => H p (or_intror Hp))). destruct (frac zj pts aj) as [n d]. cbn [fst snd] in *.
    destruct (H (zm, am) (or_introl eq_refl)) as [Ha Hz]. cbn [fst snd] in *. intros [E1 E2]. apply IH'.
    assert (D : d = 0). { replace d with (/ am * (am * d)) by (field; exact Ha). rewrite E1. ring. }
    split; [|exact D]. assert (N : zj - zm <> 0) by (apply Csub_neq; congruence).
    replace n with (/ (zj - zm) * (d + (zj - zm) * n - d)) by (field; exact N). rewrite E2, D. ring.
Qed.

(** one kept step of the loop *)
Lemma step_inv (zl last z : C) zs e row (c : C) cs : masked_loop zl last (z :: zs) (e :: row) = Ok (c :: cs) ->
  (exists x r, e = Some x /\ x <> 0 /\ z - zl <> 0 /\ c = (last / x - 1) / (z - zl) /\ c <> 0 /\ update zl last zs row = Ok r /\ masked_loop z c zs r = Ok cs) \/
  (c = 0 /\ masked_loop zl last zs row = Ok cs).
Proof.
  cbn [masked_loop]. destruct (andb (signi_diff last e) (comparable_mag last e)) eqn:Ec.
  - apply andb_prop in Ec. destruct Ec as [Es Ec]. destruct e as [x|]; [|discriminate]. apply signi_spec in Es.
    destruct (regular zl last z x) as [a|] eqn:Ea; [|discriminate]. cbn [bind].
    destruct (update zl last zs row) as [r|] eqn:Er; [|discriminate]. cbn [bind].
    destruct (masked_loop z a zs r) as [cs'|] eqn:Em; [|discriminate]. cbn [bind]. intros [= <- <-]. left.
    apply regular_inv in Ea. destruct Ea as (Hx & Hz & ->). exists x, r. repeat match goal with |- _ /\ _ => split end; auto. now apply selected_neq0.
  - destruct (masked_loop zl last zs row) as [cs'|] eqn:Em; [|discriminate]. cbn [bind]. intros [= <- <-]. right. auto.
Qed.
Lemma update_nth zl last : forall zs row r j z e, update zl last zs row = Ok r -> nth_error zs j = Some z -> nth_error row j = Some e ->
  exists v, update1 zl last z e = Ok v /\ nth_error r j = Some v.
Proof.
  induction zs as [|z zs IH]; intros [|e row] r j w u Hu Hz He; try (destruct j; discriminate).
  cbn [update] in Hu. destruct (update1 zl last z e) as [v|] eqn:Ev; [|discriminate]. cbn [bind] in Hu.
  destruct (update zl last zs row) as [r'|] eqn:Er; [|discriminate]. injection Hu as <-. destruct j as [|j].
  - injection Hz as <-. injection He as <-. exists v. auto.
  - exact (IH row r' j w u Er Hz He).
Qed.
Lemma update1_regular (zl last z x : C) v : (cutoff * Cmod last < Cmod x < Cmod last / cutoff)%R -> update1 zl last z (Some x) = Ok v -> v = Some ((last / x - 1) / (z - zl)).
Proof.
  intros H. unfold update1. rewrite (proj2 (comparable_spec last x) H). destruct (regular zl last z x) as [w|] eqn:E; [|discriminate]. intros [= <-].
  apply regular_inv in E. destruct E as (_ & _ & ->). reflexivity.
Qed.
Definition huge (last : C) (e : option C) : Prop := match e with Some x => (Cmod last < Cmod x * cutoff)%R | None => True end.
Lemma huge_not_comparable (last x : C) : (Cmod last < Cmod x * cutoff)%R -> comparable_mag last (Some x) = false.
Proof.
  intros H. destruct (comparable_mag last (Some x)) eqn:E; [|reflexivity]. apply comparable_spec in E. destruct E as [_ E].
  assert (P := cutoff_pos). apply (Rmult_lt_compat_r cutoff) in E; [|exact P]. unfold Rdiv in E. rewrite Rmult_assoc, Rinv_l in E by lra. lra.
Qed.
Lemma update1_huge (zl last z : C) e v : huge last e -> update1 zl last z e = Ok v -> z - zl <> 0 /\ v = Some ((- (1)) / (z - zl)).
Proof.
  intros H. unfold update1. assert (Q : comparable_mag last e = false /\ tiny_quotient last e = true).
  { destruct e as [x|]; [|auto]. cbn [huge] in H. split; [now apply huge_not_comparable|]. cbn. destruct (Rlt_dec (Cmod last) (Cmod x * cutoff)); [reflexivity|contradiction]. }
  destruct Q as [-> ->]. destruct (cdiv (- (1)) (z - zl)) as [w|] eqn:E; [|discriminate]. intros [= <-]. apply cdiv_inv in E. destruct E as [N ->]. auto.
Qed.
Lemma update1_tiny (zl last z x : C) v : last <> 0 -> (Cmod x <= Cmod last * cutoff)%R -> update1 zl last z (Some x) = Ok v -> v = None.
Proof.
  intros Hl H. unfold update1. assert (P := cutoff_pos). assert (P1 := cutoff_lt_1). assert (L := proj1 (Cmod_gt_0 last) Hl).
  assert (Q : comparable_mag last (Some x) = false).
  { destruct (comparable_mag last (Some x)) eqn:E; [|reflexivity]. apply comparable_spec in E. lra. }
  rewrite Q. cbn. destruct (Rlt_dec (Cmod last) (Cmod x * cutoff)) as [B|]; [exfalso|now intros [= <-]].
  assert (Cmod x * cutoff <= Cmod last * cutoff * cutoff)%R by (apply Rmult_le_compat_r; lra). assert (cutoff * cutoff < 1)%R by nra. nra.
Qed.
Lemma cut_last zl last z zs row cs j aj : masked_loop zl last (z :: zs) row = Ok cs -> nth_error cs j = Some aj -> exists e row' c cs', row = e :: row' /\ cs = c :: cs'.
Proof.
  intros Hm Hj. destruct row as [|e row]; [cbn in Hm; injection Hm as <-; destruct j; discriminate|]. destruct cs as [|c cs]; [destruct j; discriminate|]. now exists e, row, c, cs.
Qed.

(** the value is interpolated if it is not extreme in any column *)
Lemma loop_regular : forall zs (zl last : C) row cs j (zj aj x : C), masked_loop zl last zs row = Ok cs ->
  nth_error zs j = Some zj -> nth_error cs j = Some aj -> aj <> 0 -> nth_error row j = Some (Some x) ->
  regular_path cutoff ((zl, last) :: pre j cs zs) zj x -> let '(n, d) := frac zj ((zl, last) :: pre j cs zs) aj in n = x * d.
Proof.
  induction zs as [|z zs IH]; intros zl last row cs j zj aj x Hm Hz Ha Na Hx Hp; [destruct j; discriminate|].
  destruct (cut_last _ _ _ _ _ _ _ _ Hm Ha) as (e & row' & c & cs' & -> & ->).
  destruct (step_inv _ _ _ _ _ _ _ _ Hm) as [(y & r & -> & Ny & Nz & Ec & Nc & Hu & Hm')|(-> & Hm')].
  - destruct j as [|j].
    + injection Hz as <-. injection Ha as <-. injection Hx as <-. cbn. rewrite Ec. field. split; assumption.
    + cbn [nth_error] in *. rewrite pre_S in *. destruct (Ceq_dec c 0) as [|_]; [contradiction|]. destruct Hp as [Hc Hp].
      destruct (update_nth _ _ _ _ _ _ _ _ Hu Hz Hx) as (v & Hv & Hr). assert (Ev := update1_regular _ _ _ _ _ Hc Hv). subst v.
      assert (R := IH z c r cs' j zj aj _ Hm' Hz Ha Na Hr Hp). change (frac zj ((zl, last) :: (z, c) :: pre j cs' zs) aj) with (let '(n, d) := frac zj ((z, c) :: pre j cs' zs) aj in (last * d, d + (zj - zl) * n)).
      destruct (frac zj ((z, c) :: pre j cs' zs) aj) as [n d]. rewrite R.
      assert (Nx : x <> 0) by (apply (above_neq last); lra).
      unfold update1 in Hv. rewrite (proj2 (comparable_spec last x) Hc) in Hv. destruct (regular zl last zj x) as [w|] eqn:E; [|discriminate]. apply regular_inv in E. destruct E as (_ & Nzz & _). field. split; assumption.
  - destruct j as [|j]; [injection Ha as <-; now elim Na|]. cbn [nth_error] in *. rewrite pre_S in *. destruct (Ceq_dec 0 0) as [_|N]; [|now elim N].
    exact (IH zl last row' cs' j zj aj x Hm' Hz Ha Na Hx Hp).
Qed.
(** a huge value becomes a pole *)
Lemma loop_huge : forall zs (zl last : C) row cs j (zj aj : C) e, masked_loop zl last zs row = Ok cs ->
  nth_error zs j = Some zj -> nth_error cs j = Some aj -> aj <> 0 -> nth_error row j = Some e -> huge last e ->
  regular_path cutoff (pre j cs zs) zj ((- (1)) / (zj - zl)) -> snd (frac zj ((zl, last) :: pre j cs zs) aj) = 0.
Proof.
  induction zs as [|z zs IH]; intros zl last row cs j zj aj e Hm Hz Ha Na Hx Hh Hp; [destruct j; discriminate|].
  destruct (cut_last _ _ _ _ _ _ _ _ Hm Ha) as (e0 & row' & c & cs' & -> & ->). assert (Hm0 := Hm).
  destruct (step_inv _ _ _ _ _ _ _ _ Hm) as [(y & r & -> & Ny & Nz & Ec & Nc & Hu & Hm')|(-> & Hm')].
  - destruct j as [|j].
    + exfalso. injection Hx as <-. cbn [huge] in Hh. cbn [masked_loop] in Hm0. rewrite (huge_not_comparable last y Hh), Bool.andb_false_r in Hm0.
      destruct (masked_loop zl last zs row') as [w|]; [|discriminate]. injection Hm0 as E _. now elim Nc.
    + cbn [nth_error] in *. rewrite pre_S in *. destruct (Ceq_dec c 0) as [|_]; [contradiction|].
      destruct (update_nth _ _ _ _ _ _ _ _ Hu Hz Hx) as (v & Hv & Hr). destruct (update1_huge _ _ _ _ _ Hh Hv) as [N ->].
      assert (R := loop_regular zs z c r cs' j zj aj _ Hm' Hz Ha Na Hr Hp). change (frac zj ((zl, last) :: (z, c) :: pre j cs' zs) aj) with (let '(n, d) := frac zj ((z, c) :: pre j cs' zs) aj in (last * d, d + (zj - zl) * n)).
      destruct (frac zj ((z, c) :: pre j cs' zs) aj) as [n d]. cbn [snd]. rewrite R. field. exact N.
  - destruct j as [|j]; [injection Ha as <-; now elim Na|]. cbn [nth_error] in *. rewrite pre_S in *. destruct (Ceq_dec 0 0) as [_|N]; [|now elim N].
    exact (IH zl last row' cs' j zj aj e Hm' Hz Ha Na Hx Hh Hp).
Qed.
(** a tiny value becomes a zero *)
Lemma loop_tiny : forall zs (zl last : C) row cs j (zj aj x z1 a1 : C) q, masked_loop zl last zs row = Ok cs -> last <> 0 ->
  nth_error zs j = Some zj -> nth_error cs j = Some aj -> aj <> 0 -> nth_error row j = Some (Some x) -> (Cmod x <= Cmod last * cutoff)%R ->
  pre j cs zs = (z1, a1) :: q -> regular_path cutoff q zj ((- (1)) / (zj - z1)) -> fst (frac zj ((zl, last) :: pre j cs zs) aj) = 0.
Proof.
  induction zs as [|z zs IH]; intros zl last row cs j zj aj x z1 a1 q Hm Hl Hz Ha Na Hx Hh Eq Hp; [destruct j; discriminate|].
  destruct (cut_last _ _ _ _ _ _ _ _ Hm Ha) as (e0 & row' & c & cs' & -> & ->).
  destruct (step_inv _ _ _ _ _ _ _ _ Hm) as [(y & r & -> & Ny & Nz & Ec & Nc & Hu & Hm')|(-> & Hm')].
  - destruct j as [|j]; [discriminate Eq|]. cbn [nth_error] in *. rewrite pre_S in *. destruct (Ceq_dec c 0) as [|_]; [contradiction|]. injection Eq as -> -> Eq.
    destruct (update_nth _ _ _ _ _ _ _ _ Hu Hz Hx) as (v & Hv & Hr). assert (Ev := update1_tiny _ _ _ _ _ Hl Hh Hv). subst v. rewrite <- Eq in Hp.
    assert (R := loop_huge zs z1 a1 r cs' j zj aj None Hm' Hz Ha Na Hr Logic.I Hp).
    change (frac zj ((zl, last) :: (z1, a1) :: pre j cs' zs) aj) with (let '(n, d) := frac zj ((z1, a1) :: pre j cs' zs) aj in (last * d, d + (zj - zl) * n)).
    destruct (frac zj ((z1, a1) :: pre j cs' zs) aj) as [n d]. cbn [fst snd] in *. rewrite R. ring.
  - destruct j as [|j]; [injection Ha as <-; now elim Na|]. cbn [nth_error] in *. rewrite pre_S in *. destruct (Ceq_dec 0 0) as [_|N]; [|now elim N].
    exact (IH zl last row' cs' j zj aj x z1 a1 q Hm' Hl Hz Ha Na Hx Hh Eq Hp).
Qed.

(** ** masked_coefficients *)
Lemma kept_in (a z : list C) : forall j p, In p (kept_before j a (combine z a)) -> snd p <> 0 /\ exists i, (i < j)%nat /\ nth_error z i = Some (fst p).
Proof.
  revert z. induction a as [|c a IH]; intros z j p H; [destruct j, z; destruct H|]. destruct z as [|w z]; [destruct j; cbn in H; [|destruct (Ceq_dec c 0)]; try destruct H; destruct (firstn j a); destruct H|]. destruct j as [|j]; [destruct H|].
  unfold kept_before in H. cbn [combine firstn kept] in H. destruct (Ceq_dec c 0) as [|N].
  - destruct (IH z j p H) as (H1 & i & Hi & Hz). split; [exact H1|]. exists (S i). split; [lia|exact Hz].
  - destruct H as [<-|H]; [split; [exact N|]; exists 0%nat; split; [lia|reflexivity]|].
    destruct (IH z j p H) as (H1 & i & Hi & Hz). split; [exact H1|]. exists (S i). split; [lia|exact Hz].
Qed.
Lemma kept_nz (z a : list C) j zj : NoDup z -> nth_error z j = Some zj -> forall p, In p (kept_before j a (combine z a)) -> snd p <> 0 /\ fst p <> zj.
Proof.
  intros ND Hz p Hp. destruct (kept_in a z j p Hp) as (H1 & i & Hi & Hzi). split; [exact H1|]. intros E. subst zj.
  assert (i = j); [|lia]. apply (proj1 (NoDup_nth_error z) ND); [apply nth_error_Some; congruence|congruence].
Qed.
Lemma unfold_masked z f a j zj fj aj : masked_coefficients z f = Ok a -> nth_error z (S j) = Some zj -> nth_error f (S j) = Some fj -> nth_error a (S j) = Some aj ->
  exists z0 f0 zs fs cs, z = z0 :: zs /\ f = f0 :: fs /\ a = f0 :: cs /\ f0 <> 0 /\ masked_loop z0 f0 zs (map Some fs) = Ok cs /\
    nth_error zs j = Some zj /\ nth_error (map Some fs) j = Some (Some fj) /\ nth_error cs j = Some aj /\
    kept_before (S j) a (combine z a) = (z0, f0) :: pre j cs zs.
Proof.
  unfold masked_coefficients. destruct (negb _); [discriminate|]. destruct z as [|z0 zs], f as [|f0 fs]; try discriminate.
  destruct (Rlt_dec cutoff (Cmod f0)) as [Hc|]; [|discriminate]. destruct (masked_loop z0 f0 zs (map Some fs)) as [cs|] eqn:E; [|discriminate]. intros [= <-] Hz Hf Ha.
  assert (N0 : f0 <> 0). { intros ->. rewrite Cmod_0 in Hc. pose proof cutoff_pos. lra. }
  exists z0, f0, zs, fs, cs. cbn [nth_error] in *. repeat match goal with |- _ /\ _ => split end; auto.
  - now apply map_nth_error.
  - unfold kept_before, pre, kept_before. cbn [combine firstn kept]. destruct (Ceq_dec f0 0); [contradiction|reflexivity].
Qed.
Theorem point_regular z f a j (zj fj aj : C) : masked_coefficients z f = Ok a -> NoDup z ->
  nth_error z (S j) = Some zj -> nth_error f (S j) = Some fj -> nth_error a (S j) = Some aj -> aj <> 0 ->
  let pts := kept_before (S j) a (combine z a) in regular_path cutoff pts zj fj ->
  let '(n, d) := cf_frac (K := CF) zj (map snd pts ++ [aj]) (map fst pts) in d <> RtoC 0 /\ n = fj * d.
Proof.
  intros Hm ND Hz Hf Ha Na pts Hp. assert (NZ := frac_nz zj aj pts (kept_nz z a (S j) zj ND Hz)). rewrite <- frac_cf.
  destruct (unfold_masked z f a j zj fj aj Hm Hz Hf Ha) as (z0 & f0 & zs & fs & cs & -> & -> & -> & N0 & Hl & Hz' & Hf' & Ha' & E). unfold pts in *. rewrite E in *.
  assert (R := loop_regular _ _ _ _ _ _ _ _ _ Hl Hz' Ha' Na Hf' Hp). destruct (frac zj _ aj) as [n d]. split; [|exact R].
  cbn [fst snd] in NZ. intros D. apply NZ. split; [rewrite R, D; ring|exact D].
Qed.
Theorem point_huge z f a j (zj fj aj z0 f0 : C) q : masked_coefficients z f = Ok a -> NoDup z ->
  nth_error z (S j) = Some zj -> nth_error f (S j) = Some fj -> nth_error a (S j) = Some aj -> aj <> 0 ->
  let pts := kept_before (S j) a (combine z a) in pts = (z0, f0) :: q -> (Cmod f0 < Cmod fj * cutoff)%R -> regular_path cutoff q zj ((- (1)) / (zj - z0)) ->
  let '(n, d) := cf_frac (K := CF) zj (map snd pts ++ [aj]) (map fst pts) in d = RtoC 0 /\ n <> RtoC 0.
Proof.
  intros Hm ND Hz Hf Ha Na pts Ep Hh Hp. assert (NZ := frac_nz zj aj pts (kept_nz z a (S j) zj ND Hz)). rewrite <- frac_cf.
  destruct (unfold_masked z f a j zj fj aj Hm Hz Hf Ha) as (z0' & f0' & zs & fs & cs & -> & -> & -> & N0 & Hl & Hz' & Hf' & Ha' & E). unfold pts in *. rewrite E in *. injection Ep as -> -> <-.
  assert (R := loop_huge _ _ _ _ _ _ _ _ (Some fj) Hl Hz' Ha' Na Hf' Hh Hp). destruct (frac zj _ aj) as [n d]. cbn [fst snd] in *. split; [exact R|]. intros N. now apply NZ.
Qed.
Theorem point_tiny z f a j (zj fj aj z0 f0 z1 a1 : C) q : masked_coefficients z f = Ok a -> NoDup z ->
  nth_error z (S j) = Some zj -> nth_error f (S j) = Some fj -> nth_error a (S j) = Some aj -> aj <> 0 ->
  let pts := kept_before (S j) a (combine z a) in pts = (z0, f0) :: (z1, a1) :: q -> (Cmod fj <= Cmod f0 * cutoff)%R -> regular_path cutoff q zj ((- (1)) / (zj - z1)) ->
  let '(n, d) := cf_frac (K := CF) zj (map snd pts ++ [aj]) (map fst pts) in n = RtoC 0 /\ d <> RtoC 0.
Proof.
  intros Hm ND Hz Hf Ha Na pts Ep Hh Hp. assert (NZ := frac_nz zj aj pts (kept_nz z a (S j) zj ND Hz)). rewrite <- frac_cf.
  destruct (unfold_masked z f a j zj fj aj Hm Hz Hf Ha) as (z0' & f0' & zs & fs & cs & -> & -> & -> & N0 & Hl & Hz' & Hf' & Ha' & E). unfold pts in *. rewrite E in *. injection Ep as -> -> Eq.
  assert (R := loop_tiny _ _ _ _ _ _ _ _ _ _ _ _ Hl N0 Hz' Ha' Na Hf' Hh Eq Hp). destruct (frac zj _ aj) as [n d]. cbn [fst snd] in *. split; [exact R|]. intros D. now apply NZ.
Qed.
