(** * The tabulated moments against the numbers of closed walks *)
From Coq Require Import Reals QArith Qreals Qabs List ZArith Bool Lia Lra.
From Verif Require Import Base LatMom_Model LatMom_Spec LatMom_Walks.
Import ListNotations.
Local Open Scope R_scope.

Lemma lookup_in t m q : lookup t m = Some q -> In (m, q) t.
Proof.
  induction t as [|[k p] t IH]; cbn; [discriminate|]. destruct (Z.eqb k m) eqn:E; intros H; [|right; auto].
  apply Z.eqb_eq in E. injection H as ->. subst. left. reflexivity.
Qed.
Definition exactQ (cs : list Z) (n : Z) (pw : nat -> Q) (m : nat) : Q := ((nth m cs 0%Z # 1) * pw m / (n # 1))%Q.
Definition tol : Q := (4 # 10 ^ 15)%Q.
Definition checkQ (cs : list Z) (n : Z) (pw : nat -> Q) (t : list (Z * Q)) : bool :=
  forallb (fun mq => let e := exactQ cs n pw (Z.to_nat (fst mq)) in
    Z.leb 0 (fst mq) && Z.leb (fst mq) 20 && Qle_bool (Qabs (snd mq - e)) (tol * e))%Q t.
Lemma Q2R_abs q : Q2R (Qabs q) = Rabs (Q2R q).
Proof.
  destruct q as [a b]. unfold Qabs, Q2R. cbn. rewrite Rabs_mult, <- abs_IZR. f_equal.
  rewrite Rabs_pos_eq; [reflexivity|]. apply Rlt_le, Rinv_0_lt_compat. apply IZR_lt. reflexivity.
Qed.
Lemma Q2R_tol : Q2R tol = 4 / 10 ^ 15.
Proof. unfold tol, Q2R. cbn [Qnum Qden]. unfold Rdiv. f_equal. f_equal. rewrite pow_IZR. f_equal. Qed.
Lemma Q2R_int k : Q2R (k # 1) = IZR k.
Proof. unfold Q2R. cbn. field. Qed.

Section Check.
  Variables (nbrs : site -> list site) (cell : list site) (t : list (Z * Q)) (pw : nat -> Q) (hop D : R).
  Hypothesis HD : 0 <= D.
  Hypothesis cell_ne : cell <> [].
  Hypothesis Hpw : forall m q, In (m, q) t -> hop ^ Z.to_nat m = Q2R (pw (Z.to_nat m)) * D ^ Z.to_nat m.
  Hypothesis Hrev : reversible nbrs.
  Lemma cell_length : (0 < Z.of_nat (length cell))%Z.
  Proof. destruct cell; [congruence|]. cbn. lia. Qed.
  Lemma exact_spec m q : In (m, q) t -> (0 <= m <= 20)%Z ->
    dos_moment_of nbrs cell hop (Z.to_nat m) = Q2R (exactQ (counts nbrs cell 10) (Z.of_nat (length cell)) pw (Z.to_nat m)) * D ^ Z.to_nat m.
  Proof.
    intros Hin Hm. unfold dos_moment_of, exactQ. rewrite (Hpw m q Hin), (counts_spec nbrs Hrev) by lia.
    assert (Hl := cell_length). assert (IZR (Z.of_nat (length cell)) <> 0) by (apply not_0_IZR; lia).
    rewrite Q2R_div by (unfold Qeq; cbn; lia).
    rewrite Q2R_mult, !Q2R_int, <- INR_IZR_INZ. unfold Rdiv. ring.
  Qed.
  Hypothesis Hcheck : checkQ (counts nbrs cell 10) (Z.of_nat (length cell)) pw t = true.
  Lemma general_ok m v : moment_general t m D = Ok v ->
    Rabs (v - dos_moment_of nbrs cell hop (Z.to_nat m)) <= 4 / 10 ^ 15 * dos_moment_of nbrs cell hop (Z.to_nat m).
  Proof.
    unfold moment_general. destruct (lookup t m) as [q|] eqn:E; [|discriminate]. intros [= <-].
    apply lookup_in in E. assert (C := Hcheck). unfold checkQ in C. rewrite forallb_forall in C. specialize (C _ E). cbn [fst snd] in C.
    rewrite !andb_true_iff in C. destruct C as [[C1 C2] C3]. apply Z.leb_le in C1, C2.
    rewrite (exact_spec m q E) by lia. set (e := exactQ _ _ _ _) in *.
    apply Qle_bool_iff, Qle_Rle in C3. rewrite Q2R_abs, Q2R_minus, Q2R_mult, Q2R_tol in C3.
    replace (Q2R q * D ^ Z.to_nat m - Q2R e * D ^ Z.to_nat m) with ((Q2R q - Q2R e) * D ^ Z.to_nat m) by ring.
    rewrite Rabs_mult, (Rabs_pos_eq (D ^ _)) by (apply pow_le; exact HD).
    rewrite <- Rmult_assoc. apply Rmult_le_compat_r; [apply pow_le; exact HD|exact C3].
  Qed.
  Lemma symmetric_ok m v : (forall k, Nat.odd k = true -> closed_walks nbrs cell k = 0%Z) -> (0 <= m)%Z ->
    moment_symmetric t m D = Ok v ->
    Rabs (v - dos_moment_of nbrs cell hop (Z.to_nat m)) <= 4 / 10 ^ 15 * dos_moment_of nbrs cell hop (Z.to_nat m).
  Proof.
    intros Hodd Hm. unfold moment_symmetric. destruct (Z.eqb (m mod 2) 0) eqn:E; [apply general_ok|].
    intros [= <-]. unfold dos_moment_of. rewrite Hodd.
    - replace (0 - hop ^ Z.to_nat m * 0 / INR (length cell)) with 0 by (unfold Rdiv; ring). rewrite Rabs_R0. unfold Rdiv. lra.
    - apply Z.eqb_neq in E. rewrite Nat.odd_spec. exists (Z.to_nat (m / 2)). assert (Hm2 := Z.mod_pos_bound m 2 ltac:(lia)).
      assert (Hd := Z.div_mod m 2 ltac:(lia)). assert (0 <= m / 2)%Z by (apply Z.div_pos; lia). lia.
  Qed.
End Check.

Lemma pow_scale k D m : (k * D) ^ m = k ^ m * D ^ m.
Proof. apply Rpow_mult_distr. Qed.
Fixpoint pw (kappa : Q) (m : nat) : Q := match m with O => 1%Q | S m => (kappa * pw kappa m)%Q end.
Lemma Q2R_pow q n : Q2R (pw q n) = Q2R q ^ n.
Proof. induction n as [|n IH]; cbn [pw pow]; [unfold Q2R; cbn; field|]. rewrite Q2R_mult, IH. reflexivity. Qed.
Lemma pw_ok kappa D m : (Q2R kappa * D) ^ m = Q2R (pw kappa m) * D ^ m.
Proof. rewrite pow_scale, Q2R_pow. reflexivity. Qed.

(** which orders are accepted *)
Definition keys (t : list (Z * Q)) : list Z := map fst t.
Lemma lookup_keys t m : lookup t m <> None <-> In m (keys t).
Proof.
  induction t as [|[k p] t IH]; cbn; [tauto|]. destruct (Z.eqb k m) eqn:E.
  - apply Z.eqb_eq in E. split; [auto|discriminate].
  - apply Z.eqb_neq in E. rewrite IH. tauto.
Qed.
Lemma general_accepts t m D : (exists v, moment_general t m D = Ok v) <-> In m (keys t).
Proof.
  rewrite <- lookup_keys. unfold moment_general. destruct (lookup t m); split; try congruence; eauto.
  intros [v H]; discriminate.
Qed.
Lemma general_rejects t m D : ~ In m (keys t) -> moment_general t m D = Err NotImplementedError.
Proof. rewrite <- lookup_keys. unfold moment_general. destruct (lookup t m); [|reflexivity]. intros H. exfalso. apply H. discriminate. Qed.

(** colourings *)
Ltac colour_tac :=
  let x := fresh "x" in let y := fresh "y" in let H := fresh "H" in
  intros x y H; destruct x as [[[a b] c] s]; cbn in H;
  repeat match type of H with _ \/ _ => destruct H as [H|H] end; try contradiction; subst y; cbn;
  rewrite ?Z.add_0_r, ?Z.odd_add; cbn; rewrite ?Z.odd_add; cbn;
  try (destruct (Z.odd a)); try (destruct (Z.odd b)); try (destruct (Z.odd c)); reflexivity.
Definition col1 (x : site) : bool := let '(a, b, c, s) := x in Z.odd a.
Definition col3 (x : site) : bool := let '(a, b, c, s) := x in xorb (xorb (Z.odd a) (Z.odd b)) (Z.odd c).
Definition cols (x : site) : bool := let '(a, b, c, s) := x in match s with O => true | _ => false end.
Lemma chain_col : forall x y, In y (chain x) -> col1 y = negb (col1 x). Proof. colour_tac. Qed.
Lemma square_col : forall x y, In y (square x) -> col3 y = negb (col3 x). Proof. colour_tac. Qed.
Lemma sc_col : forall x y, In y (simple_cubic x) -> col3 y = negb (col3 x). Proof. colour_tac. Qed.
Lemma bcc_col : forall x y, In y (body_centered x) -> col1 y = negb (col1 x). Proof. colour_tac. Qed.
Lemma honeycomb_col : forall x y, In y (honeycomb x) -> cols y = negb (cols x).
Proof.
  intros [[[a b] c] s] y H. destruct s as [|[|s]]; cbn in H; 
  repeat match type of H with _ \/ _ => destruct H as [H|H] end; try contradiction; subst y; reflexivity.
Qed.
Lemma lieb_col : forall x y, In y (lieb x) -> cols y = negb (cols x).
Proof.
  intros [[[a b] c] s] y H. destruct s as [|[|[|s]]]; cbn in H; 
  repeat match type of H with _ \/ _ => destruct H as [H|H] end; try contradiction; subst y; reflexivity.
Qed.

(** the checks *)
Lemma onedim_check : checkQ (counts chain [origin 0] 10) 1 (pw (1 # 2)) onedim_table = true. Proof. vm_compute. reflexivity. Qed.
Lemma square_check : checkQ (counts square [origin 0] 10) 1 (pw (1 # 4)) square_table = true. Proof. vm_compute. reflexivity. Qed.
Lemma sc_check : checkQ (counts simple_cubic [origin 0] 10) 1 (pw (1 # 6)) sc_table = true. Proof. vm_compute. reflexivity. Qed.
Lemma bcc_check : checkQ (counts body_centered [origin 0] 10) 1 (pw (1 # 8)) bcc_table = true. Proof. vm_compute. reflexivity. Qed.
Lemma fcc_check : checkQ (counts face_centered [origin 0] 10) 1 (pw (1 # 8)) fcc_table = true. Proof. vm_compute. reflexivity. Qed.
Lemma triangular_check : checkQ (counts triangular [origin 0] 10) 1 (pw (2 # 9)) triangular_table = true. Proof. vm_compute. reflexivity. Qed.
Lemma honeycomb_check : checkQ (counts honeycomb [origin 0; origin 1] 10) 2 (pw (1 # 3)) honeycomb_table = true. Proof. vm_compute. reflexivity. Qed.
Lemma kagome_check : checkQ (counts kagome [origin 0; origin 1; origin 2] 10) 3 (pw (1 # 3)) kagome_table = true. Proof. vm_compute. reflexivity. Qed.
Definition pw_lieb (m : nat) : Q := pw (1 # 8) (Nat.div m 2).
Lemma lieb_check : checkQ (counts lieb [origin 0; origin 1; origin 2] 10) 3 pw_lieb lieb_table = true. Proof. vm_compute. reflexivity. Qed.
