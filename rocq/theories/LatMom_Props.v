(** * C50: the tabulated moments of the density of states *)
From Coq Require Import Reals QArith Qreals List ZArith Bool Lia Lra.
From Coquelicot Require Import Coquelicot.
From Verif Require Import Base CBase CExp Lattice_Model LatMom_Model LatMom_Spec LatMom_Walks LatMom_Proofs LatMom_Digits LatMom_Int.
Import ListNotations.
Local Open Scope R_scope.

(** every accepted order gives the moment of the nearest-neighbour Hamiltonian with amplitude [hop D], up to the 15
    printed digits of the table *)
Definition gives_moments (f : Z -> R -> result R) (nbrs : site -> list site) (cell : list site) (hop : R -> R) : Prop :=
  forall m D v, (0 <= m)%Z -> 0 < D -> f m D = Ok v ->
    let exact := dos_moment_of nbrs cell (hop D) (Z.to_nat m) in Rabs (v - exact) <= 4 / 10 ^ 15 * exact.

Ltac by_check rev chk k tac :=
  intros m D v Hm HD H; cbv zeta; tac k D;
    [lra | discriminate | intros ? ? _; cbv beta; rewrite <- pw_ok; f_equal; unfold Q2R; cbn; lra | exact rev | exact chk | .. ]; try exact H; try exact Hm.
Ltac by_symmetric k D := eapply symmetric_ok with (pw := pw k) (D := D).
Ltac by_general k D := eapply general_ok with (pw := pw k) (D := D).
Ltac odd col := intros; eapply closed_walks_odd; [exact col|assumption].
Theorem C50_onedim : gives_moments onedim_dos_moment chain [origin 0] (fun D => D / 2).
Proof. by_check chain_rev onedim_check (1 # 2)%Q by_symmetric. odd chain_col. Qed.
Print Assumptions C50_onedim.
Theorem C50_square : gives_moments square_dos_moment square [origin 0] (fun D => D / 4).
Proof. by_check square_rev square_check (1 # 4)%Q by_symmetric. odd square_col. Qed.
Print Assumptions C50_square.
Theorem C50_sc : gives_moments sc_dos_moment simple_cubic [origin 0] (fun D => D / 6).
Proof. by_check sc_rev sc_check (1 # 6)%Q by_symmetric. odd sc_col. Qed.
Print Assumptions C50_sc.
Theorem C50_bcc : gives_moments bcc_dos_moment body_centered [origin 0] (fun D => D / 8).
Proof. by_check bcc_rev bcc_check (1 # 8)%Q by_symmetric. odd bcc_col. Qed.
Print Assumptions C50_bcc.
Theorem C50_fcc : gives_moments fcc_dos_moment face_centered [origin 0] (fun D => D / 8).
Proof. by_check fcc_rev fcc_check (1 # 8)%Q by_general. Qed.
Print Assumptions C50_fcc.
(** for the triangular, honeycomb and kagome lattices the documentation writes the amplitude as t/2 *)
Theorem C50_triangular : gives_moments triangular_dos_moment triangular [origin 0] (fun D => 4 * D / 9 / 2).
Proof. by_check triangular_rev triangular_check (2 # 9)%Q by_general. Qed.
Print Assumptions C50_triangular.
Theorem C50_honeycomb : gives_moments honeycomb_dos_moment honeycomb [origin 0; origin 1] (fun D => 2 * D / 3 / 2).
Proof. by_check honeycomb_rev honeycomb_check (1 # 3)%Q by_symmetric. odd honeycomb_col. Qed.
Print Assumptions C50_honeycomb.
Theorem C50_kagome : gives_moments kagome_dos_moment kagome [origin 0; origin 1; origin 2] (fun D => 2 * D / 3 / 2).
Proof. by_check kagome_rev kagome_check (1 # 3)%Q by_general. Qed.
Print Assumptions C50_kagome.
Lemma lieb_powers (D : R) : forall k q, In (k, q) lieb_table -> (D / sqrt 8) ^ Z.to_nat k = Q2R (pw_lieb (Z.to_nat k)) * D ^ Z.to_nat k.
Proof.
  assert (H8 : sqrt 8 * sqrt 8 = 8) by (apply sqrt_sqrt; lra). assert (0 < sqrt 8) by (apply sqrt_lt_R0; lra).
  intros k q Hk. assert (E : exists j, Z.to_nat k = (2 * j)%nat).
  { assert (C : forallb (fun mq => Nat.even (Z.to_nat (fst mq))) lieb_table = true) by (vm_compute; reflexivity).
    rewrite forallb_forall in C. specialize (C _ Hk). apply Nat.even_spec in C. exact C. }
  destruct E as [j ->]. unfold pw_lieb. rewrite (Nat.mul_comm 2 j), Nat.div_mul by lia. rewrite Q2R_pow, (Nat.mul_comm j 2), !pow_mult, <- Rpow_mult_distr.
  f_equal. replace ((D / sqrt 8) ^ 2) with (D * D / (sqrt 8 * sqrt 8)) by (field; lra). rewrite H8. unfold Q2R. cbn. field.
Qed.
Theorem C50_lieb : gives_moments lieb_dos_moment lieb [origin 0; origin 1; origin 2] (fun D => D / sqrt 8).
Proof.
  intros m D v Hm HD H. cbv zeta.
  eapply symmetric_ok with (pw := pw_lieb) (D := D); [lra|discriminate|apply lieb_powers|exact lieb_rev|exact lieb_check|intros; eapply closed_walks_odd; [exact lieb_col|assumption]|exact Hm|exact H].
Qed.
Print Assumptions C50_lieb.

(** The digits: the entries carry 15 significant decimal digits.  The moment lies within [h] units of the 15th digit, where the
    unit is read off from any power of ten [p] between 1/100 and 10 above the exact moment for D = 1.  The tables of [onedim],
    [square], [sc], [bcc], [honeycomb] and [lieb] are correctly rounded, the others are off by up to 1.4 units. *)
Definition correct_digits (h : R) (f : Z -> R -> result R) (nbrs : site -> list site) (cell : list site) (hop : R -> R) : Prop :=
  forall m D v p, (0 <= m)%Z -> 0 < D -> f m D = Ok v -> In p [1 / 100; 1 / 10; 1; 10] ->
    let exact := dos_moment_of nbrs cell (hop D) (Z.to_nat m) in
    exact <= p * D ^ Z.to_nat m -> Rabs (v - exact) <= h / 10 ^ 15 * p * D ^ Z.to_nat m.
Lemma decade p : In p [1 / 100; 1 / 10; 1; 10] -> exists q, In q decades /\ p = Q2R q.
Proof.
  cbn. intros [<-|[<-|[<-|[<-|[]]]]]; [exists (1 # 100)%Q|exists (1 # 10)%Q|exists (1 # 1)%Q|exists (10 # 1)%Q];
    (split; [unfold decades; cbn; tauto|unfold Q2R; cbn; lra]).
Qed.
Lemma div15 a : 0 <= a -> 0 <= a / 10 ^ 15.
Proof. intros H. apply Rmult_le_pos; [exact H|]. apply Rlt_le, Rinv_0_lt_compat, pow_lt. lra. Qed.
Ltac by_digits rev chk k hR tac :=
  let q := fresh "q" in let Hq := fresh "Hq" in let E := fresh "E" in
  intros m D v p Hm HD H Hp; cbv zeta; destruct (decade p Hp) as (q & Hq & ->); intros E; rewrite <- hR; tac k D;
    first [exact HD | exact H | exact Hm | exact Hq | exact E | discriminate | exact rev | exact chk | rewrite hR; apply div15; lra
          | intros ? ? _; cbv beta; rewrite <- pw_ok; f_equal; unfold Q2R; cbn; lra | idtac].
Ltac by_symmetric_d k D := eapply symmetric_digits with (pw := pw k) (D := D).
Ltac by_general_d k D := eapply general_digits with (pw := pw k) (D := D).
Theorem C50_digits :
  correct_digits (1 / 2) onedim_dos_moment chain [origin 0] (fun D => D / 2) /\
  correct_digits (1 / 2) square_dos_moment square [origin 0] (fun D => D / 4) /\
  correct_digits (1 / 2) sc_dos_moment simple_cubic [origin 0] (fun D => D / 6) /\
  correct_digits (1 / 2) bcc_dos_moment body_centered [origin 0] (fun D => D / 8) /\
  correct_digits (1 / 2) honeycomb_dos_moment honeycomb [origin 0; origin 1] (fun D => 2 * D / 3 / 2) /\
  correct_digits (1 / 2) lieb_dos_moment lieb [origin 0; origin 1; origin 2] (fun D => D / sqrt 8) /\
  correct_digits 1 triangular_dos_moment triangular [origin 0] (fun D => 4 * D / 9 / 2) /\
  correct_digits 1 kagome_dos_moment kagome [origin 0; origin 1; origin 2] (fun D => 2 * D / 3 / 2) /\
  correct_digits (14 / 10) fcc_dos_moment face_centered [origin 0] (fun D => D / 8).
Proof.
  split; [by_digits chain_rev onedim_digits (1 # 2)%Q half_R by_symmetric_d; odd chain_col|].
  split; [by_digits square_rev square_digits (1 # 4)%Q half_R by_symmetric_d; odd square_col|].
  split; [by_digits sc_rev sc_digits (1 # 6)%Q half_R by_symmetric_d; odd sc_col|].
  split; [by_digits bcc_rev bcc_digits (1 # 8)%Q half_R by_symmetric_d; odd bcc_col|].
  split; [by_digits honeycomb_rev honeycomb_digits (1 # 3)%Q half_R by_symmetric_d; odd honeycomb_col|].
  split.
  { intros m D v p Hm HD H Hp. cbv zeta. destruct (decade p Hp) as (q & Hq & ->). intros E. rewrite <- half_R.
    eapply symmetric_digits with (pw := pw_lieb) (D := D);
      [exact HD|rewrite half_R; apply div15; lra|discriminate|apply lieb_powers|exact lieb_rev|exact lieb_digits|intros; eapply closed_walks_odd; [exact lieb_col|assumption]|exact Hm|exact H|exact Hq|exact E]. }
  split; [by_digits triangular_rev triangular_digits (2 # 9)%Q unit1_R by_general_d|].
  split; [by_digits kagome_rev kagome_digits (1 # 3)%Q unit1_R by_general_d|].
  by_digits fcc_rev fcc_digits (1 # 8)%Q unit14_R by_general_d.
Qed.
Print Assumptions C50_digits.
(** the 13th moment of the face-centred cubic lattice is 0.9139285823330283…; the table says 0.913928582333027 *)
Theorem C50_digits_refuted : exists v, fcc_dos_moment 13 1 = Ok v /\
  let exact := dos_moment_of face_centered [origin 0] (1 / 8) 13 in exact <= 1 /\ exact - v > 13 / 10 / 10 ^ 15.
Proof.
  eexists. split; [reflexivity|]. cbv zeta. unfold dos_moment_of. rewrite <- (counts_spec face_centered fcc_rev [origin 0] 10 13) by lia.
  set (c := nth 13 (counts face_centered [origin 0] 10) 0%Z). vm_compute in c. subst c. cbn [length INR]. unfold Q2R. cbn [Qnum Qden pow]. unfold Z.to_nat, Pos.to_nat. cbn [Pos.iter_op Nat.add pow]. split; lra.
Qed.
Print Assumptions C50_digits_refuted.

(** Bethe lattice with infinite coordination and box: the integral over the density of states of the package, exactly *)
Theorem C50_bethe : forall (m : Z) (D : R) (d : R -> R) (v : R), 0 < D -> (forall e, bethe_dos e D = Ok (d e)) -> (0 <= m)%Z ->
  bethe_dos_moment m D = Ok v -> is_RInt (fun e => e ^ Z.to_nat m * d e) (- D) D v.
Proof. exact (fun m D d v => bethe_moment_ok m D d v). Qed.
Print Assumptions C50_bethe.
Theorem C50_box : forall (m : nat) (D : R) (d : R -> R), 0 < D -> (forall e, box_dos e D = Ok (d e)) ->
  is_RInt (fun e => e ^ m * d e) (- D) D (box_dos_moment m D).
Proof. exact box_moment_ok. Qed.
Print Assumptions C50_box.

(** the orders accepted: all odd ones for the symmetric lattices, the even ones from [lo] to 20; everything else raises *)
Definition accepts (f : Z -> R -> result R) (good : Z -> Prop) : Prop :=
  forall m D, (good m -> exists v, f m D = Ok v) /\ (~ good m -> f m D = Err NotImplementedError).
Lemma accepts_general t good : (forall m, In m (keys t) <-> good m) -> accepts (moment_general t) good.
Proof.
  intros H m D. split; intros G.
  - apply general_accepts, H, G.
  - apply general_rejects. rewrite H. exact G.
Qed.
Lemma accepts_symmetric t (lo : Z) : (forall m, In m (keys t) <-> Z.Even m /\ (lo <= m <= 20)%Z) ->
  accepts (moment_symmetric t) (fun m => Z.Odd m \/ (lo <= m <= 20)%Z).
Proof.
  intros H m D. unfold moment_symmetric. destruct (Z.eqb (m mod 2) 0) eqn:E.
  - apply Z.eqb_eq in E. assert (Ev : Z.Even m) by (exists (m / 2)%Z; assert (Hd := Z.div_mod m 2 ltac:(lia)); lia).
    assert (No : ~ Z.Odd m) by (intros O; exact (Z.Even_Odd_False m Ev O)).
    split; intros G; [apply general_accepts, H|apply general_rejects; rewrite H]; tauto.
  - split; [eauto|]. intros G. exfalso. apply G. left. apply Z.eqb_neq in E. exists (m / 2)%Z.
    assert (Hm2 := Z.mod_pos_bound m 2 ltac:(lia)). assert (Hd := Z.div_mod m 2 ltac:(lia)). lia.
Qed.
Ltac keys_even :=
  let m := fresh "m" in let K := fresh "K" in let k := fresh "k" in let E := fresh "E" in
  intros m; cbn; split;
    [intros K; repeat match type of K with _ \/ _ => destruct K as [K|K] end; try contradiction; subst m; (split; [apply Z.even_spec; reflexivity|lia])
    |intros [[k E] K]; lia].
Theorem C50_orders :
  accepts onedim_dos_moment (fun m => Z.Odd m \/ (0 <= m <= 20)%Z) /\ accepts lieb_dos_moment (fun m => Z.Odd m \/ (0 <= m <= 20)%Z) /\
  accepts bethe_dos_moment (fun m => Z.Odd m \/ (2 <= m <= 20)%Z) /\ accepts square_dos_moment (fun m => Z.Odd m \/ (2 <= m <= 20)%Z) /\
  accepts sc_dos_moment (fun m => Z.Odd m \/ (2 <= m <= 20)%Z) /\ accepts bcc_dos_moment (fun m => Z.Odd m \/ (2 <= m <= 20)%Z) /\
  accepts honeycomb_dos_moment (fun m => Z.Odd m \/ (2 <= m <= 20)%Z) /\
  accepts fcc_dos_moment (fun m => (0 <= m <= 20)%Z) /\ accepts kagome_dos_moment (fun m => (0 <= m <= 20)%Z) /\
  accepts triangular_dos_moment (fun m => (1 <= m <= 20)%Z).
Proof.
  split; [apply accepts_symmetric; keys_even|]. split; [apply accepts_symmetric; keys_even|]. split; [apply accepts_symmetric; keys_even|].
  split; [apply accepts_symmetric; keys_even|]. split; [apply accepts_symmetric; keys_even|]. split; [apply accepts_symmetric; keys_even|].
  split; [apply accepts_symmetric; keys_even|]. split; [apply accepts_general; intros m; cbn; lia|].
  split; apply accepts_general; intros m; cbn; lia.
Qed.
Print Assumptions C50_orders.

(** the documentation of the Lieb lattice says that the half-bandwidth corresponds to the hopping t = D * 2**1.5; the
    second moment is that of t = D / 2**1.5 *)
Theorem C50_lieb_hopping_refuted : exists D v, 0 < D /\ lieb_dos_moment 2 D = Ok v /\
  dos_moment_of lieb [origin 0; origin 1; origin 2] (D * (2 * sqrt 2)) 2 > 60 * v.
Proof.
  exists 1, (Q2R (1 / 3) * 1 ^ 2). repeat split; [lra|].
  unfold dos_moment_of. change (closed_walks lieb [origin 0; origin 1; origin 2] 2) with 8%Z.
  assert (H : sqrt 2 * sqrt 2 = 2) by (apply sqrt_sqrt; lra).
  replace ((1 * (2 * sqrt 2)) ^ 2) with (4 * (sqrt 2 * sqrt 2)) by ring. rewrite H. cbn [length INR]. unfold Q2R. cbn. lra.
Qed.
Print Assumptions C50_lieb_hopping_refuted.

Example C50_example :
  (exists v, fcc_dos_moment 4 2 = Ok v /\ v = 135 / 64) /\ closed_walks face_centered [origin 0] 4 = 540%Z /\
  dos_moment_of face_centered [origin 0] (2 / 8) 4 = 135 / 64 /\ square_dos_moment 7 3 = Ok 0 /\ square_dos_moment 22 3 = Err NotImplementedError.
Proof.
  assert (W : closed_walks face_centered [origin 0] 4 = 540%Z) by (vm_compute; reflexivity). repeat split.
  - eexists. split; [reflexivity|]. change (Z.to_nat 4) with 4%nat. unfold Q2R. cbn -[pow]. field.
  - unfold dos_moment_of. rewrite W. cbn. lra.
Qed.
