(** * The digits of the tabulated moments *)
From Coq Require Import Reals QArith Qreals Qabs List ZArith Bool Lia Lra.
From Verif Require Import Base LatMom_Model LatMom_Spec LatMom_Walks LatMom_Proofs.
Import ListNotations.
Local Open Scope R_scope.

Definition decades : list Q := [1 # 100; 1 # 10; 1 # 1; 10 # 1]%Q.
Definition digitsQ (h : Q) (cs : list Z) (n : Z) (pw : nat -> Q) (t : list (Z * Q)) : bool :=
  forallb (fun mq => let e := exactQ cs n pw (Z.to_nat (fst mq)) in
    Z.leb 0 (fst mq) && Z.leb (fst mq) 20 &&
    forallb (fun p => negb (Qle_bool e p) || Qle_bool (Qabs (snd mq - e)) (h * p))%Q decades) t.

Section Check.
  Variables (nbrs : site -> list site) (cell : list site) (t : list (Z * Q)) (pw : nat -> Q) (hop D : R) (h : Q).
  Hypothesis HD : 0 < D.
  Hypothesis Hh : 0 <= Q2R h.
  Hypothesis cell_ne : cell <> [].
  Hypothesis Hpw : forall m q, In (m, q) t -> hop ^ Z.to_nat m = Q2R (pw (Z.to_nat m)) * D ^ Z.to_nat m.
  Hypothesis Hrev : reversible nbrs.
  Hypothesis Hcheck : digitsQ h (counts nbrs cell 10) (Z.of_nat (length cell)) pw t = true.
  Lemma general_digits m v p : moment_general t m D = Ok v -> In p decades ->
    dos_moment_of nbrs cell hop (Z.to_nat m) <= Q2R p * D ^ Z.to_nat m ->
    Rabs (v - dos_moment_of nbrs cell hop (Z.to_nat m)) <= Q2R h * Q2R p * D ^ Z.to_nat m.
  Proof.
    unfold moment_general. destruct (lookup t m) as [q|] eqn:E; [|discriminate]. intros [= <-] Hp.
    apply lookup_in in E. assert (C := Hcheck). unfold digitsQ in C. rewrite forallb_forall in C. specialize (C _ E). cbn [fst snd] in C.
    rewrite !andb_true_iff in C. destruct C as [[C1 C2] C3]. apply Z.leb_le in C1, C2.
    rewrite (exact_spec nbrs cell t pw hop D cell_ne Hpw Hrev m q E) by lia. set (e := exactQ _ _ _ _) in *.
    rewrite forallb_forall in C3. specialize (C3 _ Hp). assert (HDm : 0 < D ^ Z.to_nat m) by (apply pow_lt; exact HD).
    intros He. apply Rmult_le_reg_r in He; [|exact HDm]. apply Rle_Qle, Qle_bool_iff in He. rewrite He in C3. cbn [negb orb] in C3.
    apply Qle_bool_iff, Qle_Rle in C3. rewrite Q2R_abs, Q2R_minus, Q2R_mult in C3.
    replace (Q2R q * D ^ Z.to_nat m - Q2R e * D ^ Z.to_nat m) with ((Q2R q - Q2R e) * D ^ Z.to_nat m) by ring.
    rewrite Rabs_mult, (Rabs_pos_eq (D ^ _)) by lra. apply Rmult_le_compat_r; [lra|exact C3].
  Qed.
  Lemma symmetric_digits m v p : (forall k, Nat.odd k = true -> closed_walks nbrs cell k = 0%Z) -> (0 <= m)%Z ->
    moment_symmetric t m D = Ok v -> In p decades ->
    dos_moment_of nbrs cell hop (Z.to_nat m) <= Q2R p * D ^ Z.to_nat m ->
    Rabs (v - dos_moment_of nbrs cell hop (Z.to_nat m)) <= Q2R h * Q2R p * D ^ Z.to_nat m.
  Proof.
    intros Hodd Hm. unfold moment_symmetric. destruct (Z.eqb (m mod 2) 0) eqn:E; [apply general_digits|].
    intros [= <-] Hp _. unfold dos_moment_of. rewrite Hodd.
    - replace (0 - hop ^ Z.to_nat m * 0 / INR (length cell)) with 0 by (unfold Rdiv; ring). rewrite Rabs_R0.
      apply Rmult_le_pos; [|apply pow_le; lra]. apply Rmult_le_pos; [exact Hh|].
      cbn in Hp. destruct Hp as [<-|[<-|[<-|[<-|[]]]]]; unfold Q2R; cbn; lra.
    - apply Z.eqb_neq in E. rewrite Nat.odd_spec. exists (Z.to_nat (m / 2)). assert (Hm2 := Z.mod_pos_bound m 2 ltac:(lia)).
      assert (Hd := Z.div_mod m 2 ltac:(lia)). assert (0 <= m / 2)%Z by (apply Z.div_pos; lia). lia.
  Qed.
End Check.

Definition half : Q := (5 # 10 ^ 16)%Q.
Definition unit1 : Q := (10 # 10 ^ 16)%Q.
Definition unit14 : Q := (14 # 10 ^ 16)%Q.
Lemma half_R : Q2R half = 1 / 2 / 10 ^ 15. Proof. unfold half, Q2R. cbn [Qnum Qden]. rewrite pow_IZR. cbn. lra. Qed.
Lemma unit1_R : Q2R unit1 = 1 / 10 ^ 15. Proof. unfold unit1, Q2R. cbn [Qnum Qden]. rewrite pow_IZR. cbn. lra. Qed.
Lemma unit14_R : Q2R unit14 = 14 / 10 / 10 ^ 15. Proof. unfold unit14, Q2R. cbn [Qnum Qden]. rewrite pow_IZR. cbn. lra. Qed.
Lemma onedim_digits : digitsQ half (counts chain [origin 0] 10) 1 (pw (1 # 2)) onedim_table = true. Proof. vm_compute. reflexivity. Qed.
Lemma square_digits : digitsQ half (counts square [origin 0] 10) 1 (pw (1 # 4)) square_table = true. Proof. vm_compute. reflexivity. Qed.
Lemma sc_digits : digitsQ half (counts simple_cubic [origin 0] 10) 1 (pw (1 # 6)) sc_table = true. Proof. vm_compute. reflexivity. Qed.
Lemma bcc_digits : digitsQ half (counts body_centered [origin 0] 10) 1 (pw (1 # 8)) bcc_table = true. Proof. vm_compute. reflexivity. Qed.
Lemma fcc_digits : digitsQ unit14 (counts face_centered [origin 0] 10) 1 (pw (1 # 8)) fcc_table = true. Proof. vm_compute. reflexivity. Qed.
Lemma triangular_digits : digitsQ unit1 (counts triangular [origin 0] 10) 1 (pw (2 # 9)) triangular_table = true. Proof. vm_compute. reflexivity. Qed.
Lemma honeycomb_digits : digitsQ half (counts honeycomb [origin 0; origin 1] 10) 2 (pw (1 # 3)) honeycomb_table = true. Proof. vm_compute. reflexivity. Qed.
Lemma kagome_digits : digitsQ unit1 (counts kagome [origin 0; origin 1; origin 2] 10) 3 (pw (1 # 3)) kagome_table = true. Proof. vm_compute. reflexivity. Qed.
Lemma lieb_digits : digitsQ half (counts lieb [origin 0; origin 1; origin 2] 10) 3 pw_lieb lieb_table = true. Proof. vm_compute. reflexivity. Qed.
