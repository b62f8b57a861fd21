(** * Sorting, symmetry and accuracy of the Padé frequencies *)
From Coq Require Import List Arith ZArith Bool Reals Lia Lra Psatz Permutation Sorted.
From Coquelicot Require Import Coquelicot.
From Verif Require Import Base FSum CBase LinPred_Burg Linalg_Model Linalg_Proofs Matrix_Proofs MatAlg Matsu_Ser Matsu_Main Stat_Model Stat_Proofs PadeFreq_Tanh PadeFreq_Model PadeFreq_Eig.
From Verif Require PPade_Rat.
Import ListNotations.
Local Open Scope R_scope.

(** ** sorted lists of real numbers *)
Fixpoint rinsert (x : R) (l : list R) : list R := match l with [] => [x] | y :: r => if Rlt_dec y x then y :: rinsert x r else x :: l end.
Fixpoint rsort (l : list R) : list R := match l with [] => [] | x :: r => rinsert x (rsort r) end.
Lemma rinsert_perm x l : Permutation (x :: l) (rinsert x l).
Proof. induction l as [|y r IH]; [reflexivity|]. cbn. destruct (Rlt_dec y x); [|reflexivity]. rewrite perm_swap. now constructor. Qed.
Lemma rsort_perm l : Permutation l (rsort l).
Proof. induction l as [|x l IH]; [reflexivity|]. cbn. rewrite <- rinsert_perm. now constructor. Qed.
Lemma rinsert_sorted x l : ~ In x l -> StronglySorted Rlt l -> StronglySorted Rlt (rinsert x l).
Proof.
  induction l as [|y r IH]; intros N S; [repeat constructor|]. inversion S as [|? ? Sr Fy]; subst. cbn. destruct (Rlt_dec y x) as [L|L].
  - constructor; [apply IH; [intros I; apply N; now right|exact Sr]|]. rewrite <- rinsert_perm. constructor; assumption.
  - assert (x < y) by (assert (y <> x) by (intros ->; apply N; now left); lra). constructor; [exact S|]. constructor; [assumption|]. apply (Forall_impl _ (P := fun z => y < z)); [intros; lra|exact Fy].
Qed.
Lemma rsort_sorted l : NoDup l -> StronglySorted Rlt (rsort l).
Proof. induction 1 as [|x l N D IH]; [constructor|]. cbn. apply rinsert_sorted; [|exact IH]. intros I. apply N. now rewrite rsort_perm. Qed.
Lemma sorted_ext l r : StronglySorted Rlt l -> StronglySorted Rlt r -> (forall x, In x l <-> In x r) -> l = r.
Proof.
  revert r. induction l as [|x l IH]; intros r Sl Sr E.
  - destruct r as [|y r]; [reflexivity|]. destruct (proj2 (E y) (or_introl eq_refl)).
  - destruct r as [|y r]; [destruct (proj1 (E x) (or_introl eq_refl))|]. inversion Sl as [|? ? Sl' Fl]; inversion Sr as [|? ? Sr' Fr]; subst. rewrite Forall_forall in Fl, Fr.
    assert (x = y). { destruct (proj1 (E x) (or_introl eq_refl)) as [->|I]; [reflexivity|]. destruct (proj2 (E y) (or_introl eq_refl)) as [->|I']; [reflexivity|]. apply Fr in I. apply Fl in I'. lra. }
    subst y. f_equal. apply IH; [assumption..|]. intros z. split; intros I.
    + destruct (proj1 (E z) (or_intror I)) as [->|]; [|assumption]. apply Fl in I. lra.
    + destruct (proj2 (E z) (or_intror I)) as [->|]; [|assumption]. apply Fr in I. lra.
Qed.
Lemma sorted_app l r : StronglySorted Rlt l -> StronglySorted Rlt r -> (forall x y, In x l -> In y r -> x < y) -> StronglySorted Rlt (l ++ r).
Proof.
  induction 1 as [|x l S IH F]; intros Sr H; [exact Sr|]. cbn. constructor.
  - apply IH; [exact Sr|]. intros; apply H; [now right|assumption].
  - apply Forall_app. split; [exact F|]. apply Forall_forall. intros y I. apply H; [now left|exact I].
Qed.
Lemma sorted_mirror l : StronglySorted Rlt l -> StronglySorted Rlt (rev (map Ropp l)).
Proof.
  induction 1 as [|x l S IH F]; [constructor|]. cbn. apply sorted_app; [exact IH|repeat constructor|]. intros a b I [<-|[]]. apply in_rev, in_map_iff in I. destruct I as (c & <- & I). rewrite Forall_forall in F. apply F in I. lra.
Qed.
Lemma sorted_skipn h l : StronglySorted Rlt l -> StronglySorted Rlt (skipn h l).
Proof. revert h. induction l as [|x l IH]; intros [|h] S; try exact S. cbn. apply IH. now inversion S. Qed.
Lemma sorted_cross h l x y : StronglySorted Rlt l -> In x (firstn h l) -> In y (skipn h l) -> x < y.
Proof.
  revert h. induction l as [|a l IH]; intros [|h] S I J; try (destruct I; fail). cbn in I, J. inversion S as [|? ? S' F]; subst. destruct I as [<-|I].
  - rewrite Forall_forall in F. apply F. rewrite <- (firstn_skipn h l). apply in_or_app. now right.
  - now apply (IH h).
Qed.
Lemma skipn_map' {X Y} (f : X -> Y) h l : skipn h (map f l) = map f (skipn h l).
Proof. revert h. induction l as [|a l IH]; intros [|h]; try reflexivity. apply IH. Qed.

(** a sorted list closed under the change of sign *)
Section Mirror.
  Variables (h : nat) (L : list R).
  Hypothesis SL : StronglySorted Rlt L.
  Hypothesis HL : length L = (2 * h)%nat.
  Hypothesis Hneg : forall x, In x L -> In (- x) L.
  Lemma mirror_eq : L = rev (map Ropp L).
  Proof.
    apply sorted_ext; [exact SL|now apply sorted_mirror|]. intros x. rewrite <- in_rev, in_map_iff. split.
    - intros I. exists (- x). split; [ring|now apply Hneg].
    - intros (y & <- & I). now apply Hneg.
  Qed.
  Lemma mirror_half : map Ropp (rev (firstn h L)) = skipn h L.
  Proof.
    rewrite mirror_eq at 2. rewrite skipn_rev, map_length, HL. replace (2 * h - h)%nat with h by lia. now rewrite firstn_map, map_rev.
  Qed.
  Lemma upper_pos x : In x (skipn h L) -> 0 < x.
  Proof.
    intros I. assert (J := I). rewrite <- mirror_half in J. apply in_map_iff in J. destruct J as (y & <- & J). apply in_rev in J. assert (Q := sorted_cross h L y (- y) SL J I). lra.
  Qed.
  Lemma upper_length : length (skipn h L) = h.
  Proof. rewrite skipn_length. lia. Qed.
  Lemma even_sum (F : R -> R) : (forall x, F (- x) = F x) -> lsum (K := RF) (map F L) = 2 * lsum (K := RF) (map F (skipn h L)).
  Proof.
    intros E. transitivity (lsum (K := RF) (map F (firstn h L)) + lsum (K := RF) (map F (skipn h L))).
    - rewrite <- (firstn_skipn h L) at 1. rewrite map_app. exact (lsum_app RF _ _).
    - assert (S : lsum (K := RF) (map F (skipn h L)) = lsum (K := RF) (map F (firstn h L))).
      { rewrite <- mirror_half, map_map, (map_ext _ F E). apply (PPade_Rat.lsum_perm RF F). symmetry. apply Permutation_rev. }
      refine (eq_trans (f_equal (fun t => t + _) (eq_sym S)) _). ring.
  Qed.
End Mirror.

Lemma clt_real x y : clt (RtoC x) (RtoC y) = if Rlt_dec x y then true else false.
Proof. unfold clt. cbn. destruct (Rlt_dec x y); [reflexivity|]. destruct (Rlt_dec y x); [reflexivity|]. destruct (Rlt_dec 0 0); [lra|reflexivity]. Qed.
Lemma sort_map (rho : R -> R) l : sort (map (fun x => (RtoC x, RtoC (rho x))) l) = map (fun x => (RtoC x, RtoC (rho x))) (rsort l).
Proof.
  induction l as [|x l IH]; [reflexivity|]. cbn [map sort rsort]. rewrite IH. generalize (rsort l). clear. induction l as [|y r IH]; [reflexivity|].
  cbn [map insert rinsert fst]. rewrite clt_real. destruct (Rlt_dec y x); [|reflexivity]. cbn [map]. now rewrite IH.
Qed.
Lemma close_refl x : close x x = true.
Proof. unfold close. destruct (Rle_dec _ _) as [|N]; [reflexivity|exfalso]. apply N. replace (Cminus x x) with (RtoC 0) by ring. rewrite Cmod_0. assert (P := Cmod_ge_0 x). lra. Qed.
Lemma allclose_refl l : allclose l l = true.
Proof. induction l as [|x l IH]; [reflexivity|]. unfold allclose in *. cbn [combine forallb fst snd]. now rewrite close_refl, IH. Qed.
Lemma nth_list_eq (e : list C) n : length e = n -> e = map (fun p => nth p e (RtoC 0)) (seq 0 n).
Proof.
  intros H. apply (nth_ext _ _ (RtoC 0) (RtoC 0)); [now rewrite map_length, seq_length|]. intros p Hp. rewrite H in Hp. rewrite (nth_map_seq (fun p => nth p e (RtoC 0)) n p (RtoC 0) Hp). reflexivity.
Qed.
Lemma combine_map' {A B D} (f : D -> A) (g : D -> B) l : combine (map f l) (map g l) = map (fun d => (f d, g d)) l.
Proof. induction l as [|d l IH]; [reflexivity|]. cbn. now rewrite IH. Qed.

(** the residue of the eigenvalue l *)
Definition rho (m : nat) (l : R) : R := l ^ 2 / (4 * nrm m (- 2 / l)).
Lemma nrm_pos m s : 1 <= nrm m s. Proof. apply form_pos. Qed.
Lemma rho_even m l : rho m (- l) = rho m l.
Proof.
  destruct (Req_dec l 0) as [-> | H]; [now rewrite Ropp_0|]. unfold rho. replace (- 2 / - l) with (- (- 2 / l)) by (field; exact H). unfold nrm. rewrite form_parity. replace ((- l) ^ 2) with (l ^ 2) by ring. reflexivity.
Qed.
Lemma rho_pos m l : l <> 0 -> 0 < rho m l.
Proof. intros H. unfold rho. assert (P := nrm_pos m (- 2 / l)). apply Rdiv_lt_0_compat; [now apply pow2_gt_0|lra]. Qed.

Section Main.
  Variable geig : mat CF -> mat CF -> result (list CF * mat CF).
  Variable invO : mat CF -> result (mat CF).
  Variables (h m : nat) (e : list CF) (v vi : mat CF).
  Notation M := (S m).
  Hypothesis Hm : (2 * h = M)%nat.
  Hypothesis Hge : geig (mat_a M) (mat_b M) = Ok (e, v).
  Hypothesis Hsq : square CF M v.
  Hypothesis Hlen : length e = M.
  Hypothesis Hgen : forall i j, (i < M)%nat -> (j < M)%nat -> nsum (K := CF) M (fun k => Cmult (me (mat_a M) i k) (me v k j)) = Cmult (nsum (K := CF) M (fun k => Cmult (me (mat_b M) i k) (me v k j))) (nth j e (RtoC 0)).
  Hypothesis Hiv : invO v = Ok vi.
  Hypothesis Hinv : minv CF M (me v) (me vi).
  Let lm : nat -> R := ll e.
  Let L : list R := rsort (map lm (seq 0 M)).
  Lemma th_lm p : (p < M)%nat -> - 2 / lm p = th e p.
  Proof. intros Hp. unfold lm, ll. assert (N := th_nz m e v vi Hgen Hinv p Hp). field. exact N. Qed.
  Lemma lm_nz p : (p < M)%nat -> lm p <> 0.
  Proof. intros Hp E. assert (N := th_nz m e v vi Hgen Hinv p Hp). unfold lm, ll, Rdiv in E. apply Rmult_integral in E. assert (X := Rinv_neq_0_compat _ N). destruct E; lra. Qed.
  Lemma combine_eq : combine e (map (fun p => Cmult (Cmult (Cmult (RtoC (1 / 4)) (me v 0 p)) (me vi p 0)) (Cmult (nth p e (RtoC 0)) (nth p e (RtoC 0)))) (seq 0 M)) = map (fun x => (RtoC x, RtoC (rho m x))) (map lm (seq 0 M)).
  Proof.
    rewrite (nth_list_eq e M Hlen) at 1. rewrite combine_map', map_map. apply map_ext_in. intros p Hp. apply in_seq in Hp. assert (Hp' : (p < M)%nat) by lia. assert (EL := lam_th m e v vi Hgen Hinv p Hp'). unfold lam in EL. change (- 2 / th e p) with (lm p) in EL.
    rewrite EL. f_equal; [exact EL|]. assert (W := weight m e v vi Hgen Hinv p Hp').
    transitivity (Cmult (RtoC (1 / 4)) (Cmult (Cmult (me v 0 p) (me vi p 0)) (Cmult (RtoC (lm p)) (RtoC (lm p))))); [ceq; ring|]. rewrite W. unfold rho. rewrite (th_lm p Hp'). rewrite <- !RtoC_mult. f_equal. assert (P := nrm_pos m (th e p)). field. lra.
  Qed.
  Lemma L_perm : Permutation (map lm (seq 0 M)) L. Proof. apply rsort_perm. Qed.
  Lemma L_sorted : StronglySorted Rlt L.
  Proof.
    apply rsort_sorted. apply (NoDup_nth _ 0). rewrite map_length, seq_length. intros i j Hi Hj E. rewrite !nth_map_seq in E by assumption. apply (th_inj m e v vi Hgen Hinv i j Hi Hj). rewrite <- (th_lm i Hi), <- (th_lm j Hj). now rewrite E.
  Qed.
  Lemma L_length : length L = (2 * h)%nat.
  Proof. rewrite <- (Permutation_length L_perm), map_length, seq_length. lia. Qed.
  Lemma L_in x : In x L <-> exists p, (p < M)%nat /\ lm p = x.
  Proof.
    rewrite <- L_perm, in_map_iff. split; intros (p & A & B); exists p; rewrite in_seq in *; [split; [lia|exact A]|split; [exact B|lia]].
  Qed.
  Lemma L_neg x : In x L -> In (- x) L.
  Proof.
    rewrite !L_in. intros (p & Hp & <-). destruct (mirror m e v vi Hgen Hinv p Hp) as (p' & Hp' & E). exists p'. split; [exact Hp'|]. unfold lm, ll. rewrite E. field. apply (th_nz m e v vi Hgen Hinv p Hp).
  Qed.
  Lemma L_roots x : In x L <-> x <> 0 /\ q (- 2 / x) M = 0.
  Proof.
    rewrite L_in. split.
    - intros (p & Hp & <-). split; [now apply lm_nz|]. rewrite th_lm by exact Hp. apply (th_root m e v vi Hgen Hinv p Hp).
    - intros (Hx & R). destruct (root_in m e v vi Hgen Hinv _ R) as (p & Hp & E). exists p. split; [exact Hp|]. unfold lm, ll. rewrite E. field. exact Hx.
  Qed.
  Definition freqs : list R := skipn h L.
  Lemma freqs_pos : List.Forall (fun z => 0 < z) freqs.
  Proof. apply Forall_forall. apply (upper_pos h L L_sorted L_length L_neg). Qed.
  Lemma freqs_length : length freqs = h. Proof. apply (upper_length h L L_length). Qed.
  Lemma freqs_sorted : StronglySorted Rlt freqs. Proof. apply sorted_skipn, L_sorted. Qed.
  Lemma freqs_roots z : In z freqs <-> 0 < z /\ q (2 / z) M = 0.
  Proof.
    assert (Q : 0 < z -> (q (2 / z) M = 0 <-> q (- 2 / z) M = 0)).
    { intros H. replace (- 2 / z) with (- (2 / z)) by (field; lra). rewrite (q_parity (2 / z)). assert (P : (-1) ^ M <> 0) by (apply pow_nonzero; lra). split; [intros ->; ring|]. intros E. apply Rmult_integral in E. destruct E as [E|E]; [contradiction|exact E]. }
    split.
    - intros I. assert (P : 0 < z) by exact (proj1 (Forall_forall _ _) freqs_pos z I). split; [exact P|]. apply Q; [exact P|]. apply L_roots. rewrite <- (firstn_skipn h L). apply in_or_app. now right.
    - intros (P & R). apply Q in R; [|exact P]. assert (I : In z L) by (apply L_roots; split; [lra|exact R]). rewrite <- (firstn_skipn h L) in I. apply in_app_or in I. destruct I as [I|I]; [exfalso|exact I].
      assert (J : In (- z) freqs). { unfold freqs. rewrite <- (mirror_half h L L_sorted L_length L_neg). apply in_map_iff. exists z. split; [reflexivity|]. now apply in_rev in I. }
      assert (P' := proj1 (Forall_forall _ _) freqs_pos _ J). cbv beta in P'. lra.
  Qed.
  Lemma freqs_sum x : 8 * lsum (K := RF) (map (fun z => rho m z / (z ^ 2 + x ^ 2)) freqs) = / cf (x / 2) m 0.
  Proof.
    rewrite <- (sum_cf m e v vi Hgen Hinv x).
    transitivity (lsum (K := RF) (map (fun z => 4 * rho m z / (z ^ 2 + x ^ 2)) L)).
    - rewrite (even_sum h L L_sorted L_length L_neg (fun z => 4 * rho m z / (z ^ 2 + x ^ 2))); [|intros z; rewrite rho_even; replace ((- z) ^ 2) with (z ^ 2) by ring; reflexivity].
      fold freqs. replace (lsum (K := RF) (map (fun z => 4 * rho m z / (z ^ 2 + x ^ 2)) freqs)) with (4 * lsum (K := RF) (map (fun z => rho m z / (z ^ 2 + x ^ 2)) freqs)); [ring|].
      refine (eq_trans (eq_sym (lsum_map_mul_l RF freqs 4 _)) _). apply (f_equal (lsum (K := RF))). apply map_ext. intros z. change (@Fmul RF) with Rmult. unfold Rdiv. ring.
    - transitivity (lsum (K := RF) (map (fun z => 4 * rho m z / (z ^ 2 + x ^ 2)) (map lm (seq 0 M)))); [apply (PPade_Rat.lsum_perm RF (fun z => 4 * rho m z / (z ^ 2 + x ^ 2))); symmetry; exact L_perm|].
      rewrite map_map. refine (eq_trans (Fourier_Quad.lsum_map_seq (K := RF) M _) _). apply nsum_ext_lt. intros p Hp. unfold rho. rewrite (th_lm p Hp). assert (P := nrm_pos m (th e p)). assert (N := lm_nz p Hp). unfold lm in *. assert (Q := pow2_gt_0 _ N). assert (Q' := pow2_ge_0 x). field. split; lra.
  Qed.
  Theorem pade0_eq : pade_frequencies0 geig invO h = Ok (map (fun z => Cmult Ci (RtoC z)) freqs, map (rho m) freqs).
  Proof.
    unfold pade_frequencies0. rewrite Hm, Hge. cbn [bind]. destruct Hsq as [Hn _]. rewrite Hn. cbn [Nat.eqb]. rewrite Hiv. cbn [bind].
    pose proof combine_eq as CE. pose proof (sort_map (rho m) (map lm (seq 0 M))) as SE. fold L in SE.
    assert (Hh : (S m / 2 = h)%nat) by (rewrite <- Hm, Nat.mul_comm; apply Nat.div_mul; lia). rewrite Hh.
    match goal with |- context [sort ?l] => replace (sort l) with (map (fun x => (RtoC x, RtoC (rho m x))) L) by (rewrite <- SE; f_equal; symmetry; exact CE) end.
    rewrite !map_map. cbn [fst snd]. rewrite !firstn_map, !skipn_map', <- !map_rev, !map_map. fold freqs.
    assert (MH := mirror_half h L L_sorted L_length L_neg). fold freqs in MH.
    assert (A1 : map (fun x => Copp (Cmult Ci (RtoC x))) (rev (firstn h L)) = map (fun x => Cmult Ci (RtoC x)) freqs). { rewrite <- MH, map_map. apply map_ext. intros x. rewrite RtoC_opp. ring. }
    assert (A2 : map (fun x => RtoC (rho m x)) (rev (firstn h L)) = map (fun x => RtoC (rho m x)) freqs). { rewrite <- MH, map_map. apply map_ext. intros x. now rewrite rho_even. }
    rewrite A1, A2, !allclose_refl. cbn [negb].
    assert (A3 : existsb iscomplex (map (fun x => RtoC (rho m x)) L) = false). { generalize L. induction L0 as [|x l IH]; [reflexivity|]. cbn [map existsb]. rewrite IH. unfold iscomplex. cbn. destruct (Req_EM_T 0 0); [reflexivity|lra]. }
    rewrite A3. reflexivity.
  Qed.
End Main.

(** ** accuracy *)
Lemma fermi_tanh eps beta : fermi_fct eps beta = 1 / 2 - tanh (beta * eps / 2) / 2.
Proof.
  rewrite fermi_def. unfold tanh, sinh, cosh. replace (beta * eps) with (beta * eps / 2 + beta * eps / 2) at 1 by field. rewrite exp_plus, exp_Ropp. assert (P := exp_pos (beta * eps / 2)). field. split; nra.
Qed.
Lemma re_pole eps z : 0 < z -> fst (Cinv (Cminus (RtoC eps) (Cmult Ci (RtoC z)))) = eps / (eps ^ 2 + z ^ 2).
Proof. intros H. cbn. field. nra. Qed.
Definition fbound (num : nat) (y : R) : R := Rabs y ^ (4 * num + 1) / (2 * odd_fact (2 * num) ^ 2 * (4 * INR num + 1)).
Lemma fermi_cf eps beta num m : (2 * num = S m)%nat -> Rabs (fermi_fct eps beta - (1 / 2 - beta * eps / 2 / cf (beta * eps / 2) m 0 / 2)) <= fbound num (beta * eps / 2).
Proof.
  intros Hm. rewrite fermi_tanh. set (y := beta * eps / 2). assert (T := tanh_cf y m). assert (CP := cf_pos y m 0). replace (1 / 2 - tanh y / 2 - (1 / 2 - y / cf y m 0 / 2)) with (- (1 / 2 * (tanh y - y / cf y m 0))) by (field; lra). rewrite Rabs_Ropp, Rabs_mult, (Rabs_right (1 / 2)) by lra.
  apply (Rle_trans _ (1 / 2 * (Rabs y ^ (2 * m + 3) / (odd_fact (S m) ^ 2 * (2 * INR m + 3))))); [apply Rmult_le_compat_l; lra|]. unfold fbound. replace (2 * m + 3)%nat with (4 * num + 1)%nat by lia. rewrite Hm.
  replace (2 * INR m + 3) with (4 * INR num + 1). 2: { assert (E := f_equal INR Hm). rewrite mult_INR, (S_INR m) in E. change (INR 2) with (1 + 1) in E. lra. }
  assert (P := odd_fact_pos (S m)). assert (I := pos_INR num). right. field. split; lra.
Qed.

(** the approximation of the Fermi function by poles iz_p with residues -r_p/beta and their complex conjugates *)
Definition fermi_poles (izp : list C) (rp : list R) (beta eps : R) : R :=
  1 / 2 - nsum (K := RF) (length izp) (fun p => nth p rp 0 / beta * (2 * fst (Cinv (Cminus (RtoC eps) (nth p izp (RtoC 0)))))).
Lemma nsum_list {A} (F : nat -> R) (G : A -> R) (l : list A) d : (forall p, (p < length l)%nat -> F p = G (nth p l d)) -> nsum (K := RF) (length l) F = lsum (K := RF) (map G l).
Proof.
  intros H. refine (eq_trans _ (eq_sym (lsum_nth RF (map G l)))). assert (E : @List.length (car RF) (map G l) = length l) by exact (map_length G l). rewrite E. apply nsum_ext_lt. intros p Hp. rewrite H by exact Hp. symmetry.
  refine (eq_trans (nth_indep (map G l) _ (G d) _) (map_nth G l d p)). now rewrite map_length.
Qed.
Lemma fermi_poles_cf beta zs m eps : 0 < beta -> List.Forall (fun z => 0 < z) zs -> (forall x, 8 * lsum (K := RF) (map (fun z => rho m z / (z ^ 2 + x ^ 2)) zs) = / cf (x / 2) m 0) ->
  fermi_poles (map (fun z => Cmult (RtoC (1 / beta)) z) (map (fun z => Cmult Ci (RtoC z)) zs)) (map (rho m) zs) beta eps = 1 / 2 - beta * eps / 2 / cf (beta * eps / 2) m 0 / 2.
Proof.
  intros Hb HP HS. unfold fermi_poles. assert (CP := cf_pos (beta * eps / 2) m 0). apply (f_equal (Rminus (1 / 2))).
  transitivity (2 * (beta * eps) * lsum (K := RF) (map (fun z => rho m z / (z ^ 2 + (beta * eps) ^ 2)) zs)); [|apply (Rmult_eq_reg_l 4); [|lra]; transitivity (beta * eps * (8 * lsum (K := RF) (map (fun z => rho m z / (z ^ 2 + (beta * eps) ^ 2)) zs))); [ring|rewrite HS; field; lra]].
  rewrite map_map, map_length. refine (eq_trans (nsum_list _ (fun z => 2 * (beta * eps) * (rho m z / (z ^ 2 + (beta * eps) ^ 2))) zs 1 _) (lsum_map_mul_l RF zs _ _)).
  intros p Hp. rewrite Forall_forall in HP. assert (Pz := HP _ (nth_In zs 1 Hp)). 
  rewrite (nth_indep (map (rho m) zs) 0 (rho m 1)), map_nth by (now rewrite map_length).
  rewrite (nth_indep _ (RtoC 0) (Cmult (RtoC (1 / beta)) (Cmult Ci (RtoC 1)))) by (now rewrite map_length). rewrite (map_nth (fun x => Cmult (RtoC (1 / beta)) (Cmult Ci (RtoC x)))).
  set (z := nth p zs 1) in *. clearbody z. replace (Cmult (RtoC (1 / beta)) (Cmult Ci (RtoC z))) with (Cmult Ci (RtoC (z / beta))) by (apply C_ext; cbn; field; lra).
  rewrite re_pole by (apply Rdiv_lt_0_compat; assumption). assert (0 < z * z) by nra. assert (0 <= eps * eps * (beta * beta)) by nra. assert (0 < beta * beta) by nra. field. repeat split; nra.
Qed.
