(** * The restricted BEB root equation and the BEB solver *)
From Coq Require Import List Arith Lia Reals Lra Bool.
From Coquelicot Require Import Coquelicot.
From Verif Require Import Base FSum CBase Linalg_Model Matrix_Model Cpa_Model Cpa_Proofs Beb_Model.
Import ListNotations.
Open Scope R_scope.

Definition phys_diag (A : mat CF) : Prop := forall i, (i < nr A)%nat -> (i < nc A)%nat -> (snd (me A i i : C) <= 0).
Definition zero_mat (A : mat CF) : Prop := forall i j, (i < nr A)%nat -> (j < nc A)%nat -> me A i j = RtoC 0.
Definition same_shape (A B : mat CF) : Prop := nr A = nr B /\ nc A = nc B.
(** shape preserving root equation *)
Definition shaped (root : list (mat CF) -> result (list (mat CF))) : Prop := forall x y, root x = Ok y -> Forall2 same_shape y x.

Lemma phys_diag_iff A : diag_unphysical A = false <-> phys_diag A.
Proof.
  unfold diag_unphysical, phys_diag. split.
  - intros H i Hi Hj. destruct (Rlt_dec 0 (snd (me A i i : C))) as [P|]; [|lra]. exfalso.
    assert (T : existsb (fun i => unphysical (me A i i)) (seq 0 (Nat.min (nr A) (nc A))) = true); [|congruence].
    apply existsb_exists. exists i. split; [apply in_seq; lia|]. unfold unphysical. destruct (Rlt_dec 0 (snd (me A i i))); [reflexivity|contradiction].
  - intros H. apply not_true_is_false. intros T. apply existsb_exists in T. destruct T as (i & Hi & T). apply in_seq in Hi. unfold unphysical in T.
    specialize (H i ltac:(lia) ltac:(lia)). destruct (Rlt_dec 0 (snd (me A i i))); [lra|discriminate].
Qed.
Lemma phys_list l : existsb diag_unphysical l = false <-> forall A, In A l -> phys_diag A.
Proof.
  split.
  - intros H A HA. apply phys_diag_iff. apply not_true_is_false. intros T.
    assert (Q : existsb diag_unphysical l = true); [|congruence]. apply existsb_exists. now exists A.
  - intros H. apply not_true_is_false. intros T. apply existsb_exists in T. destruct T as (A & HA & T). specialize (H A HA). apply phys_diag_iff in H. congruence.
Qed.
Lemma clip_diag_phys A : phys_diag (clip_diag A).
Proof. intros i Hi Hj. cbn [clip_diag me nr nc] in *. rewrite Nat.eqb_refl. apply clip_im. Qed.

Theorem beb_restrict_physical root selfs : (forall A, In A selfs -> phys_diag A) -> beb_restrict root selfs = (root selfs, selfs).
Proof. intros H. unfold beb_restrict. apply phys_list in H. now rewrite H. Qed.

Theorem beb_restrict_zero root selfs r s' : shaped root ->
  beb_restrict root selfs = (Ok r, s') -> (forall A, In A r -> zero_mat A) ->
  (forall A, In A selfs -> phys_diag A) /\ root selfs = Ok r /\ s' = selfs.
Proof.
  intros SH H H0. unfold beb_restrict in H. destruct (existsb diag_unphysical selfs) eqn:E.
  - exfalso. injection H as H _. destruct (root (map clip_diag selfs)) as [r0|] eqn:E0; [|discriminate]. cbn [bind] in H. injection H as <-.
    apply SH in E0. revert r0 E0 H0. induction selfs as [|A l IH]; intros r0 E0 H0; [discriminate E|].
    cbn [map] in E0. inversion E0 as [|B ? r1 ? (N1 & N2) F2]; subst. cbn [map combine existsb fst snd] in H0, E.
    destruct (diag_unphysical A) eqn:EA; cbn [orb] in E; [|refine (IH E r1 F2 _); intros X HX; apply H0; now right].
    assert (Z := H0 (penalty_diag A B) (or_introl eq_refl)). unfold diag_unphysical in EA. apply existsb_exists in EA. destruct EA as (i & Hi & P). apply in_seq in Hi.
    unfold unphysical in P. destruct (Rlt_dec 0 (snd (me A i i))) as [Q|]; [|discriminate].
    cbn [clip_diag nr nc] in N1, N2. specialize (Z i i). cbn [penalty_diag nr nc me] in Z. rewrite Nat.eqb_refl in Z.
    refine (penalty_nonzero (me A i i) (me B i i) Q (Z _ _)); rewrite ?N1, ?N2; lia.
  - injection H as H <-. split; [now apply phys_list|]. split; [exact H|reflexivity].
Qed.

(** after the call the array holds the clipped self-energies; the diagonal of clipped entries is nonzero, everything else is
    the root equation at the clipped self-energy *)
Theorem beb_restrict_values root selfs r s' : shaped root -> beb_restrict root selfs = (Ok r, s') ->
  (forall A, In A s' -> phys_diag A) /\ length s' = length selfs /\ Forall2 same_shape s' selfs /\
  exists r0, root s' = Ok r0 /\ length r = length r0 /\
    forall k A s B X, nth_error selfs k = Some A -> nth_error s' k = Some s -> nth_error r0 k = Some B -> nth_error r k = Some X ->
      forall i j, (i < nr A)%nat -> (j < nc A)%nat ->
        me s i j = (if (i =? j)%nat then (fst (me A i i : C), Rmin 0 (snd (me A i i : C))) : C else me A i j) /\
        (i <> j \/ snd (me A i i : C) <= 0 -> me X i j = me B i j) /\ (i = j -> 0 < snd (me A i i : C) -> me X i i <> RtoC 0).
Proof.
  intros SH H. unfold beb_restrict in H. destruct (existsb diag_unphysical selfs) eqn:E.
  - injection H as H <-. destruct (root (map clip_diag selfs)) as [r0|] eqn:E0; [|discriminate]. cbn [bind] in H. injection H as <-.
    split; [intros A HA; apply in_map_iff in HA; destruct HA as (B & <- & _); apply clip_diag_phys|]. split; [apply map_length|].
    split; [clear; induction selfs as [|A l IH]; cbn; constructor; [now split|exact IH]|].
    exists r0. split; [reflexivity|]. apply SH in E0. assert (L : length r0 = length selfs) by (clear -E0; remember (map clip_diag selfs) as l eqn:El; transitivity (length l); [clear El; induction E0; cbn; congruence|subst; apply map_length]).
    split; [rewrite map_length, combine_length; lia|].
    intros k A s B X HA Hs HB HX i j Hi Hj.
    rewrite nth_error_map, HA in Hs. cbn in Hs. injection Hs as <-.
    assert (HC : nth_error (combine selfs r0) k = Some (A, B)).
    { clear -HA HB. revert selfs r0 HA HB. induction k as [|k IH]; intros [|a l] [|b m] HA HB; try discriminate; cbn in *; [congruence|auto]. }
    rewrite nth_error_map, HC in HX. cbn in HX. injection HX as <-. cbn [clip_diag penalty_diag me].
    split; [|split].
    + destruct (i =? j)%nat; [|reflexivity]. unfold clip, Rmin. destruct (Rlt_dec 0 (snd (me A i i))), (Rle_dec 0 (snd (me A i i))); try lra; try reflexivity.
      * assert (Z : snd (me A i i : C) = 0) by (apply Rle_antisym; [now apply Rnot_lt_le|assumption]). destruct (me A i i : C) as (a, b). cbn in Z |- *. now subst.
      * now destruct (me A i i : C) as (a, b).
    + intros HH. destruct (Nat.eqb_spec i j) as [->|]; [|reflexivity]. destruct HH as [HH|HH]; [contradiction|]. now apply penalty_physical.
    + intros -> P. rewrite Nat.eqb_refl. now apply penalty_nonzero.
  - injection H as H <-. assert (P := proj1 (phys_list _) E). split; [exact P|]. split; [reflexivity|].
    split; [clear; induction selfs; constructor; [now split|assumption]|].
    exists r. split; [exact H|]. split; [reflexivity|]. intros k A s B X HA Hs HB HX i j Hi Hj.
    assert (s = A) by congruence. assert (X = B) by congruence. subst s X. apply nth_error_In in HA. specialize (P A HA).
    split; [|split; [reflexivity|]].
    + destruct (Nat.eqb_spec i j) as [->|]; [|reflexivity]. rewrite Rmin_right by now apply P. now destruct (me A j j : C).
    + intros -> Q. specialize (P j Hi Hj). lra.
Qed.

Section Solve.
Variable root : list (mat CF) -> result (list (mat CF)).
Variable opt : (list (mat CF) -> result (list (mat CF)) * list (mat CF)) -> list (mat CF) -> result (list (mat CF) * bool).
Definition beb_f (restricted : bool) (x : list (mat CF)) := if restricted then beb_restrict root x else (root x, x).

(** a result is returned only if the root finder reports success *)
Theorem beb_solve_spec zs n self0 restricted sol : beb_solve_root root opt zs n self0 restricted = Ok sol ->
  exists x0, opt (beb_f restricted) x0 = Ok (sol, true) /\
    (self0 = None -> (forall z, In z zs -> 0 <= snd z) -> forall A, In A x0 -> phys_diag A) /\ (forall s, self0 = Some s -> x0 = s).
Proof.
  intros H. unfold beb_solve_root in H. destruct self0 as [s|].
  - cbn [bind] in H. exists s. fold (beb_f restricted) in H. destruct (opt (beb_f restricted) s) as [(x, [|])|]; try discriminate H. cbn in H. injection H as <-.
    split; [reflexivity|]. split; [discriminate|]. intros s0 Es. now injection Es as ->.
  - destruct (root _) as [r|]; [|discriminate]. cbn [bind] in H.
    match type of H with context [@forallb ?T ?f ?l] => destruct (@forallb T f l) eqn:FZ end.
    + cbv zeta in H. destruct (existsb diag_unphysical (map retarded_diag r)) eqn:EU; [discriminate H|]. cbn [bind] in H. fold (beb_f restricted) in H.
      exists (map retarded_diag r). destruct (opt (beb_f restricted) (map retarded_diag r)) as [(x, [|])|]; try discriminate H. cbn in H. injection H as <-.
      split; [reflexivity|]. split; [|discriminate]. intros _ _. now apply phys_list.
    + cbn [bind] in H. exists r. fold (beb_f restricted) in H. destruct (opt (beb_f restricted) r) as [(x, [|])|]; try discriminate H. cbn in H. injection H as <-.
      split; [reflexivity|]. split; [|discriminate]. intros _ HZ. exfalso. apply not_true_iff_false in FZ. apply FZ. apply forallb_forall. intros z Hz.
      specialize (HZ z Hz). destruct (Rle_dec 0 (snd z)); [reflexivity|contradiction].
Qed.
(** the start value of the retarded case never trips the assertion *)
Theorem beb_start_retarded A : phys_diag (retarded_diag A).
Proof.
  intros i Hi Hj. cbn [retarded_diag me nr nc] in *. rewrite Nat.eqb_refl. destruct (Rlt_dec (snd (me A i i)) 0); [lra|]. destruct (me A i i : C) as (a, b). cbn in *. lra.
Qed.
Theorem beb_solve_no_assert zs n self0 restricted : (forall x, root x <> Err AssertionError) -> (forall f x, opt f x <> Err AssertionError) ->
  beb_solve_root root opt zs n self0 restricted <> Err AssertionError.
Proof.
  intros HR HO H. unfold beb_solve_root in H. destruct self0 as [s|].
  - cbn [bind] in H. destruct (opt _ s) as [(x, [|])|e] eqn:EO; try discriminate H. cbn in H. injection H as ->. now apply HO in EO.
  - destruct (root _) as [r|e] eqn:ER; [|cbn in H; injection H as ->; now apply HR in ER]. cbn [bind] in H. match type of H with context [@forallb ?T ?f ?l] => destruct (@forallb T f l) end.
    + cbv zeta in H. assert (E : existsb diag_unphysical (map retarded_diag r) = false).
      { apply phys_list. intros A HA. apply in_map_iff in HA. destruct HA as (B & <- & _). apply beb_start_retarded. }
      rewrite E in H. cbn [bind] in H. destruct (opt _ _) as [(x, [|])|e] eqn:EO; try discriminate H. cbn in H. injection H as ->. now apply HO in EO.
    + cbn [bind] in H. destruct (opt _ _) as [(x, [|])|e] eqn:EO; try discriminate H. cbn in H. injection H as ->. now apply HO in EO.
Qed.
Theorem beb_solve_zero zs n self0 restricted sol : shaped root -> beb_solve_root root opt zs n self0 restricted = Ok sol ->
  (forall f x0 x, opt f x0 = Ok (x, true) -> exists r, fst (f x) = Ok r /\ forall A, In A r -> zero_mat A) ->
  (exists r, root sol = Ok r /\ forall A, In A r -> zero_mat A) /\ (restricted = true -> forall A, In A sol -> phys_diag A).
Proof.
  intros SH H HO. destruct (beb_solve_spec _ _ _ _ _ H) as (x0 & E & _). apply HO in E. destruct E as (r & Er & Z). unfold beb_f in Er. destruct restricted.
  - destruct (beb_restrict root sol) as (r', s') eqn:EB. cbn in Er. subst r'. destruct (beb_restrict_zero root sol r s' SH EB Z) as (P & Q & _). split; [now exists r|auto].
  - cbn in Er. split; [now exists r|discriminate].
Qed.
Theorem beb_solve_failure zs n self0 restricted : (forall f x0 x, opt f x0 <> Ok (x, true)) -> forall r, beb_solve_root root opt zs n self0 restricted <> Ok r.
Proof. intros HN r H. destruct (beb_solve_spec _ _ _ _ _ H) as (x0 & E & _). now apply HN in E. Qed.
End Solve.
