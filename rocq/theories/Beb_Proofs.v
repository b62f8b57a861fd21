(** * Proofs about gftool/beb.py: the local Green's function is the lattice sum *)
From Coq Require Import List Arith Lia Bool Field Setoid Morphisms.
From Verif Require Import Base FSum Herm_Proofs Linalg_Model Linalg_Proofs Mat Matrix_Model Matrix_Proofs MatAlg Cpa_Model Cpa_Proofs Beb_Model Beb_Core.
Import ListNotations.
Local Open Scope fld_scope.

Section B.
Variable K : Fld.
Add Field BPF : (Fth K).
Variable conj : K -> K.
Variable eigO : mat K -> result (list K * mat K).
Variable invO : mat K -> result (mat K).
Variable eighO : mat K -> result (list K * mat K).
Variable close0 : K -> bool.
Variable sqrt : K -> K.
Variable significant : list K -> K -> bool.
Variable ht : K -> result K.
Hypothesis CJ : conj_ok K conj.
Hypothesis SG : forall l x, significant l x = true -> x <> 0.
Hypothesis INV : forall B C : mat K, nr B = nc B -> invO B = Ok C -> square K (nr B) C /\ minv K (nr B) (me B) (me C).
Hypothesis EIG : forall A ev, nr A = nc A -> eigO A = Ok ev -> eig_spec K A ev.

Lemma filter_sum {A} (p : A -> bool) (F : A -> K) l : (forall a, In a l -> p a = false -> F a = 0) -> lsum (map F (filter p l)) = lsum (map F l).
Proof.
  induction l as [|a l IH]; intros H; [reflexivity|]. cbn [filter]. assert (IH' := IH (fun b Hb => H b (or_intror Hb))).
  destruct (p a) eqn:E; cbn [map]; rewrite !lsum_cons, IH'; [reflexivity|]. rewrite (H a (or_introl eq_refl) E). ring.
Qed.
Lemma filter_full {A} (p : A -> bool) l : length (filter p l) = length l -> filter p l = l.
Proof.
  assert (LE : forall l', (length (filter p l') <= length l')%nat) by (induction l' as [|a l' IH]; cbn; [lia|destruct (p a); cbn; lia]).
  induction l as [|a l IH]; [reflexivity|]. cbn. destruct (p a); cbn; intros H; [f_equal; apply IH; lia|]. specialize (LE l). lia.
Qed.

Lemma zsub_if z (A : mat K) i j : zsub K z A i j = (if (i =? j)%nat then z else 0) - me A i j.
Proof. unfold zsub, kron. destruct (i =? j)%nat; ring. Qed.

Section Hop.
Variable Hp : mat K.
Notation n := (nr Hp).
Hypothesis Hsq : nr Hp = nc Hp.
(** the square root is only needed on the spectrum of the hopping matrix *)
Hypothesis SQ : forall ev x, eighO Hp = Ok ev -> In x (fst ev) -> sqrt x * sqrt x = x.
Hypothesis HE : forall ev, eighO Hp = Ok ev -> eigh_spec K conj Hp ev.
Hypothesis HD : forall ev x, eighO Hp = Ok ev -> In x (fst ev) -> significant (fst ev) x = false -> x = 0.

Definition hop_ok (hd : decomposition K) : Prop :=
  nr (rv hd) = n /\ nc (rv_inv hd) = n /\ nr (rv_inv hd) = nc (rv hd) /\ length (eig hd) = nc (rv hd) /\
  meq n n (mul (nc (rv hd)) (me (part_us sqrt hd)) (me (part_suh sqrt hd))) (me Hp) /\
  (is_truncated hd = false -> nc (rv hd) = n /\
     minv K n (me (part_suh sqrt hd)) (fun i j => me (ctr conj (rv_inv hd)) i j / sqrt (nth j (eig hd) 0)) /\
     minv K n (me (part_us sqrt hd)) (fun i j => me (ctr conj (rv hd)) i j / sqrt (nth i (eig hd) 0))).

Theorem specdec_spec hd : specdec conj eighO close0 significant Hp = Ok hd -> hop_ok hd.
Proof.
  unfold specdec. destruct (decompose_her conj eighO close0 Hp true) as [d|] eqn:D; [|discriminate]. cbn [bind]. intros H. injection H as <-.
  assert (EV : exists ev, eighO Hp = Ok ev /\ d = Dec (snd ev) (fst ev) (ctr conj (snd ev))).
  { unfold decompose_her in D. destruct (_ && _); [discriminate|]. destruct (eighO Hp) as [ev|]; [|discriminate]. cbn [bind] in D. injection D as <-. now exists ev. }
  destruct EV as (ev & EV & Ed).
  assert (SQ' : forall x, In x (eig d) -> sqrt x * sqrt x = x) by (intros x Hx; apply (SQ ev x EV); subst d; exact Hx).
  assert (SQ0 : forall x, In x (eig d) -> x <> 0 -> sqrt x <> 0) by (intros x Hx H E; apply H; rewrite <- (SQ' x Hx), E; ring).
  destruct (decompose_her_spec K conj eighO close0 Hp true Hsq HE d D) as ((Q1 & Q2) & (Q3 & Q4) & Q5 & M & RE & N & O).
  assert (ML := minv_comm K n _ _ M).
  set (idx := filter (fun j => significant (eig d) (nth j (eig d) 0)) (seq 0 (length (eig d)))).
  assert (IDX : forall a, (a < length idx)%nat -> (nth a idx 0%nat < n)%nat /\ nth (nth a idx 0%nat) (eig d) 0 <> 0).
  { intros a Ha. assert (I := nth_In idx 0%nat Ha). apply filter_In in I. destruct I as (I & S). apply in_seq in I. split; [lia|]. eapply SG; eassumption. }
  assert (EIGN : forall a, (a < length idx)%nat -> nth a (map (fun j => nth j (eig d) 0) idx) 0 = nth (nth a idx 0%nat) (eig d) 0).
  { intros a Ha. now rewrite (nth_map_in _ _ _ _ 0%nat) by exact Ha. }
  unfold hop_ok, truncate. fold idx. cbn [rv rv_inv eig nr nc me].
  split; [exact Q1|]. split; [exact Q4|]. split; [reflexivity|]. split; [now rewrite map_length|]. split.
  - intros i j Hi Hj. rewrite <- (RE i j Hi Hj). unfold mul. cbn [part_us part_suh recon_full rv rv_inv eig nr nc me]. rewrite Q2.
    set (F := fun k => me (rv d) i k * nth k (eig d) 0 * me (rv_inv d) k j).
    rewrite (nsum_ext K (length idx) _ (fun a => F (nth a idx 0%nat))).
    2:{ intros a Ha. rewrite EIGN by exact Ha. unfold F. assert (Q := SQ' (nth (nth a idx 0%nat) (eig d) 0)). set (x := nth (nth a idx 0%nat) (eig d) 0) in *. rewrite <- Q at 3 by (apply nth_In; rewrite Q5; now apply IDX). ring. }
    transitivity (lsum (map F idx)).
    + rewrite (lsum_nth K), map_length. apply nsum_ext. intros a Ha. now rewrite (nth_map_in _ _ _ _ 0%nat) by exact Ha.
    + unfold idx. rewrite filter_sum.
      * rewrite (lsum_nth K), map_length, seq_length, Q5. apply nsum_ext. intros a Ha. now rewrite nth_map_seq by exact Ha.
      * intros k Hk S. apply in_seq in Hk. unfold F. assert (nth k (eig d) 0 = 0) as ->; [|ring].
        subst d. cbn [eig] in *. apply (HD ev); [exact EV| |exact S]. apply nth_In. lia.
  - unfold is_truncated. cbn [rv rv_inv nr nc]. intros T. apply negb_false_iff in T. apply andb_true_iff in T. destruct T as (T & _). apply Nat.eqb_eq in T.
    assert (LI : length idx = n) by congruence.
    assert (FI : idx = seq 0 n).
    { unfold idx. rewrite <- Q5. apply filter_full. fold idx. rewrite seq_length. congruence. }
    assert (NI : forall a, (a < n)%nat -> nth a idx 0%nat = a) by (intros a Ha; rewrite FI, seq_nth by exact Ha; reflexivity).
    split; [exact LI|]. split; intros i j Hi Hj; cbn [part_us part_suh ctr rv rv_inv eig nr nc me].
    + rewrite (nsum_ext K n _ (fun k => sqrt (nth i (eig d) 0) / sqrt (nth j (eig d) 0) * (me (rv_inv d) i k * me (rv d) k j))).
      * rewrite nsum_mul_l, (ML i j Hi Hj). assert (SJ : sqrt (nth j (eig d) 0) <> 0).
        { apply SQ0; [apply nth_In; rewrite Q5; exact Hj|]. rewrite <- (NI j Hj). apply IDX. now rewrite LI. }
        unfold kron. destruct (Nat.eqb_spec i j) as [->|]; field; exact SJ.
      * intros k Hk. rewrite !EIGN by (rewrite LI; assumption). rewrite !NI by assumption.
        rewrite (N j k), (conj_conj K conj CJ). assert (SJ : sqrt (nth j (eig d) 0) <> 0).
        { apply SQ0; [apply nth_In; rewrite Q5; exact Hj|]. rewrite <- (NI j Hj). apply IDX. now rewrite LI. }
        field. exact SJ.
    + rewrite <- (M i j Hi Hj). apply nsum_ext. intros k Hk. rewrite !EIGN by (rewrite LI; assumption). rewrite !NI by assumption.
      rewrite (N k j). field. apply SQ0; [apply nth_In; rewrite Q5; exact Hk|]. rewrite <- (NI k Hk). apply IDX. now rewrite LI.
Qed.

(** ** the lattice sum *)
Section Lat.
Variables (z : K) (self : mat K).
Hypothesis S1 : nr self = n.
Hypothesis S2 : nc self = n.
Variables (N : nat) (w eps : nat -> K).
Hypothesis HT : forall x, (forall k, (k < N)%nat -> x <> eps k) -> ht x = Ok (nsum N (fun k => w k / (x - eps k))).
Variable R : nat -> nat -> nat -> K.
Hypothesis HR : forall k, (k < N)%nat -> minv K n (fun i j => zsub K z self i j - eps k * me Hp i j) (R k).

Lemma diag_lin m A B (f : nat -> nat -> K) i j :
  mul m A (mul m (mdiag (fun a => nsum N (fun k => w k * f k a))) B) i j = nsum N (fun k => w k * mul m A (mul m (mdiag (f k)) B) i j).
Proof.
  unfold mul at 1. rewrite (nsum_ext K m _ (fun a => nsum N (fun k => w k * (A i a * (f k a * B a j))))).
  2:{ intros a Ha. rewrite mul_mdiag_l by exact Ha. rewrite <- nsum_mul_r, <- nsum_mul_l. apply nsum_ext. intros; ring. }
  rewrite nsum_swap. apply nsum_ext. intros k Hk. rewrite nsum_mul_l. unfold mul at 1. f_equal. apply nsum_ext. intros a Ha. now rewrite mul_mdiag_l by exact Ha.
Qed.

(** what the call computes before it branches *)
Record data (hd dec : decomposition K) (zi : mat K) (h : list K) (e : nat -> K) : Prop := {
  d_zi : nr zi = n /\ nc zi = n /\ minv K n (me (z_minus z self)) (me zi);
  d_dec : nr (rv dec) = nc (rv hd) /\ nc (rv dec) = nc (rv hd) /\ nr (rv_inv dec) = nc (rv hd) /\ nc (rv_inv dec) = nc (rv hd) /\ length (eig dec) = nc (rv hd);
  d_inv : minv K (nc (rv hd)) (me (rv dec)) (me (rv_inv dec));
  d_e : forall a, e a = nth a (eig dec) 0;
  d_ne : forall a, (a < nc (rv hd))%nat -> e a <> 0;
  d_M : meq (nc (rv hd)) (nc (rv hd)) (mul n (me (part_suh sqrt hd)) (mul n (me zi) (me (part_us sqrt hd))))
            (mul (nc (rv hd)) (me (rv dec)) (mul (nc (rv hd)) (mdiag e) (me (rv_inv dec))));
  d_hl : length h = nc (rv hd);
  d_avoid : forall k, (k < N)%nat -> forall a, (a < nc (rv hd))%nat -> 1 - eps k * e a <> 0;
  d_h : forall a, (a < nc (rv hd))%nat -> nth a h 0 = nsum N (fun k => w k * (e a / (1 - eps k * e a))) }.

Lemma setup hd zi dec h : hop_ok hd -> invO (z_minus z self) = Ok zi ->
  decompose_mat eigO invO (mm (mm (part_suh sqrt hd) zi) (part_us sqrt hd)) = Ok dec ->
  existsb (fun x => feqb x 0) (eig dec) = false -> mapM ht (map (fun x => 1 / x) (eig dec)) = Ok h ->
  data hd dec zi h (fun a => nth a (eig dec) 0).
Proof.
  intros (A1 & A2 & A3 & A4 & A5 & _) HZ HDec H0 HH.
  assert (Zq : nr (z_minus z self) = nc (z_minus z self)) by (cbn; congruence).
  destruct (INV _ _ Zq HZ) as ((Z1 & Z2) & Z3). cbn [z_minus nr nc] in Z1, Z2, Z3. rewrite S1 in Z1, Z2, Z3.
  set (m := nc (rv hd)) in *.
  destruct (decompose_mat_spec K eigO invO (mm (mm (part_suh sqrt hd) zi) (part_us sqrt hd))) with (d := dec)
    as ((D1 & D2) & (D3 & D4) & D5 & D6 & D7); [cbn; exact A3|exact INV|intros ev Hev; apply EIG; [cbn; exact A3|exact Hev]|exact HDec|].
  cbn [mm part_suh nr] in D1, D2, D3, D4, D5, D6, D7. rewrite A3 in D1, D2, D3, D4, D5, D6, D7. 
  set (e := fun a => nth a (eig dec) 0).
  assert (NE : forall a, (a < m)%nat -> e a <> 0).
  { intros a Ha E. assert (T : existsb (fun x => feqb x 0) (eig dec) = true); [|congruence]. apply existsb_exists. exists (e a).
    split; [apply nth_In; lia|]. apply feqb_true. exact E. }
  assert (HM : meq m m (mul n (me (part_suh sqrt hd)) (mul n (me zi) (me (part_us sqrt hd)))) (mul m (me (rv dec)) (mul m (mdiag e) (me (rv_inv dec))))).
  { intros i j Hi Hj. rewrite <- (mul_assoc K n n). transitivity (me (recon_full dec (eig dec)) i j).
    - rewrite (D7 i j Hi Hj). cbn [mm part_suh me nc]. rewrite A2, Z2. reflexivity.
    - cbn [recon_full me]. rewrite D2. unfold mul at 1. apply nsum_ext. intros a Ha. rewrite mul_mdiag_l by exact Ha. unfold e. ring. }
  assert (AV : forall k, (k < N)%nat -> forall a, (a < m)%nat -> 1 - eps k * e a <> 0).
  { intros k Hk. apply (eps_avoid K n m (me (z_minus z self)) (me zi) (me (part_us sqrt hd)) (me (part_suh sqrt hd)) (me (rv dec)) (me (rv_inv dec)) e Z3 D6 NE HM).
    intros u Hu. apply (minv_inj K n (R k) (fun i j => zsub K z self i j - eps k * me Hp i j)); [apply minv_comm; now apply HR|].
    intros i Hi. refine (eq_trans _ (Hu i Hi)). apply nsum_ext. intros j Hj. unfold Zeps, madd, mscal, Thop. rewrite (A5 i j Hi Hj).
    cbn [z_minus me]. unfold zsub, kron. ring. }
  constructor; [split; [exact Z1|split; [exact Z2|exact Z3]]|repeat split; assumption|exact D6|reflexivity|exact NE|exact HM| |exact AV| ].
  - apply mapM_length in HH. rewrite map_length in HH. now rewrite HH.
  - intros a Ha. apply mapM_inv in HH.
    assert (X : ht (1 / e a) = Ok (nth a h 0)).
    { assert (Ha' : (a < length (eig dec))%nat) by (rewrite D5; exact Ha). unfold e. clear -HH Ha'. rename Ha' into Ha. revert h a HH Ha. induction (eig dec) as [|x l IH]; intros h a HH Ha; [cbn in Ha; lia|].
      inversion HH; subst. destruct a as [|a]; [assumption|]. cbn. apply IH; [assumption|]. cbn in Ha. lia. }
    rewrite HT in X.
    + injection X as X. rewrite <- X. apply nsum_ext. intros k Hk. field.
      split; [exact (AV k Hk a Ha)|now apply NE].
    + intros k Hk E. apply (AV k Hk a Ha). rewrite <- E. field. now apply NE.
Qed.

Lemma core_inv hd dec zi h e k : hop_ok hd -> data hd dec zi h e -> (k < N)%nat ->
  forall X, minv K n (Zeps K (nc (rv hd)) (me (z_minus z self)) (me (part_us sqrt hd)) (me (part_suh sqrt hd)) (eps k)) X -> meq n n X (R k).
Proof.
  intros (A1 & A2 & A3 & A4 & A5 & _) DD Hk X HX i j Hi Hj. refine (minv_unique K n _ _ _ _ (HR k Hk) i j Hi Hj).
  intros a b Ha Hb. rewrite <- (HX a b Ha Hb). apply nsum_ext. intros c Hc. f_equal. unfold Zeps, madd, mscal, Thop. rewrite (A5 a c Ha Hc).
  cbn [z_minus me]. unfold zsub, kron. ring.
Qed.

Definition Gsum : nat -> nat -> K := fun i j => nsum N (fun k => w k * R k i j).
Notation US hd := (me (part_us sqrt hd)).
Notation SU hd := (me (part_suh sqrt hd)).
Notation cor hd dec := (corr K (nc (rv hd)) (me (rv dec)) (me (rv_inv dec))).

Lemma trunc_G hd dec zi h e : nsum N w = 1 -> hop_ok hd -> data hd dec zi h e ->
  meq n n (madd (me zi) (mul (nc (rv hd)) (mul n (me zi) (US hd)) (mul (nc (rv hd)) (cor hd dec (fun a => (1 / e a * nth a h 0 - 1) * (1 / e a))) (mul n (SU hd) (me zi))))) Gsum.
Proof.
  intros HW SD DD. assert (DD' := DD).
  destruct DD' as [(Z1 & Z2 & Z3) (D1 & D2 & D3 & D4 & D5) D6 De NE HM HLh AV Hh]. set (m := nc (rv hd)) in *.
  rewrite (corr_ext K m _ _ _ (fun a => nsum N (fun k => w k * (eps k / (1 - eps k * e a))))).
  2:{ intros a Ha. rewrite Hh by exact Ha.
      transitivity ((1 / e a * nsum N (fun k => w k * (e a / (1 - eps k * e a))) - nsum N w) * (1 / e a)); [now rewrite HW|].
      rewrite <- nsum_mul_l, <- nsum_sub, <- nsum_mul_r. apply nsum_ext. intros k Hk. field. repeat split; first [exact (NE a Ha)|exact (AV k Hk a Ha)]. }
  intros i j Hi Hj. unfold madd, Gsum.
  assert (C : mul m (mul n (me zi) (US hd)) (mul m (cor hd dec (fun a => nsum N (fun k => w k * (eps k / (1 - eps k * e a))))) (mul n (SU hd) (me zi))) i j
    = nsum N (fun k => w k * mul m (mul n (me zi) (US hd)) (mul m (cor hd dec (fun a => eps k / (1 - eps k * e a))) (mul n (SU hd) (me zi))) i j)).
  { transitivity (mul m (mul m (mul n (me zi) (US hd)) (me (rv dec))) (mul m (mdiag (fun a => nsum N (fun k => w k * (eps k / (1 - eps k * e a))))) (mul m (me (rv_inv dec)) (mul n (SU hd) (me zi)))) i j).
    - unfold corr. fold m. now rewrite !mul_assoc.
    - rewrite diag_lin. apply nsum_ext. intros k Hk. f_equal. unfold corr. fold m. now rewrite !mul_assoc. }
  fold m in C. rewrite C.
  transitivity (nsum N (fun k => w k * me zi i j) + nsum N (fun k => w k * mul m (mul n (me zi) (US hd))
     (mul m (cor hd dec (fun a => eps k / (1 - eps k * e a))) (mul n (SU hd) (me zi))) i j)).
  { f_equal. rewrite nsum_mul_r, HW. ring. }
  rewrite <- nsum_add. apply nsum_ext. intros k Hk.
  rewrite <- (core_inv hd dec zi h e k SD DD Hk _ (trunc_inv K n m _ _ (US hd) (SU hd) _ _ e Z3 D6 HM (eps k) (AV k Hk)) i j Hi Hj).
  unfold madd. fold m. ring.
Qed.
Lemma full_G hd dec zi h e : hop_ok hd -> data hd dec zi h e -> is_truncated hd = false ->
  let si := fun i j => me (ctr conj (rv_inv hd)) i j / sqrt (nth j (eig hd) 0) in
  let ui := fun i j => me (ctr conj (rv hd)) i j / sqrt (nth i (eig hd) 0) in
  meq n n (mul (nc (rv hd)) si (mul (nc (rv hd)) (cor hd dec (fun a => nth a h 0)) ui)) Gsum.
Proof.
  intros SD DD TR si ui. destruct SD as (A1 & A2 & A3 & A4 & A5 & A6).
  destruct DD as [(Z1 & Z2 & Z3) (D1 & D2 & D3 & D4 & D5) D6 De NE HM HLh AV Hh]. destruct (A6 TR) as (Em & SI & UI). fold si in SI. fold ui in UI. set (m := nc (rv hd)) in *.
  assert (CE := corr_ext K m (me (rv dec)) (me (rv_inv dec)) (fun a => nth a h 0) (fun a => nsum N (fun k => w k * (e a / (1 - eps k * e a)))) Hh).
  intros i j Hi Hj. unfold Gsum.
  transitivity (mul m (mul m si (me (rv dec))) (mul m (mdiag (fun a => nsum N (fun k => w k * (e a / (1 - eps k * e a))))) (mul m (me (rv_inv dec)) ui)) i j).
  - transitivity (mul m si (mul m (cor hd dec (fun a => nsum N (fun k => w k * (e a / (1 - eps k * e a))))) ui) i j).
    + rewrite <- Em in Hi, Hj. refine (mul_proper K m m m _ _ _ _ _ _ i j Hi Hj); [reflexivity|]. apply mul_proper; [exact CE|reflexivity].
    + unfold corr. fold m. now rewrite !mul_assoc.
  - rewrite diag_lin. apply nsum_ext. intros k Hk. f_equal.
    assert (HRk := HR k Hk). rewrite <- Em in Hi, Hj, Z3, HRk.
    transitivity (mul m si (mul m (cor hd dec (fun a => e a / (1 - eps k * e a))) ui) i j); [unfold corr; fold m; now rewrite !mul_assoc|].
    rewrite <- Em in SI, UI, HM.
    assert (Q := full_inv K m _ _ (US hd) (SU hd) _ _ e Z3 D6 NE HM si ui SI UI (eps k) (AV k Hk)).
    refine (minv_unique K m _ _ _ _ HRk i j Hi Hj). intros a b Ha Hb. rewrite <- (Q a b Ha Hb). apply nsum_ext. intros c Hc. f_equal.
    unfold Zeps, madd, mscal, Thop. rewrite Em in Ha, Hc. fold m in A5. rewrite (A5 a c Ha Hc). cbn [z_minus me]. unfold zsub, kron. ring.
Qed.

Theorem gf_loc_full_spec G : nsum N w = 1 -> gf_loc_full conj eigO invO eighO close0 sqrt significant ht z self Hp = Ok G ->
  nr G = n /\ nc G = n /\ forall i j, (i < n)%nat -> (j < n)%nat -> me G i j = nsum N (fun k => w k * R k i j).
Proof.
  intros HW H. unfold gf_loc_full in H.
  destruct (specdec _ _ _ _ Hp) as [hd|] eqn:SD; [|discriminate]. cbn [bind] in H. apply specdec_spec in SD.
  destruct (invO (z_minus z self)) as [zi|] eqn:ZI; [|discriminate]. cbn [bind] in H.
  destruct (decompose_mat _ _ _) as [dec|] eqn:DE; [|discriminate]. cbn [bind] in H.
  destruct (existsb _ _) eqn:EX; [discriminate|]. destruct (mapM _ _) as [h|] eqn:MH; [|discriminate]. cbn [bind] in H.
  assert (DD := setup hd zi dec h SD ZI DE EX MH). set (e := fun a => nth a (eig dec) 0) in DD.
  assert (SD' := SD). destruct SD' as (A1 & A2 & A3 & A4 & A5 & A6).
  assert (DD' := DD). destruct DD' as [(Z1 & Z2 & Z3) (D1 & D2 & D3 & D4 & D5) D6 De NE HM HLh AV Hh].
  destruct (is_truncated hd) eqn:TR; cbn [negb] in H; injection H as <-.
  - split; [exact Z1|]. split; [exact Z2|]. intros i j Hi Hj. refine (eq_trans _ (trunc_G hd dec zi h e HW SD DD i j Hi Hj)).
    cbn [mplus me]. unfold madd. f_equal. set (m := nc (rv hd)) in *.
    transitivity (mul m (mul m (mul n (me zi) (US hd)) (me (rv dec))) (mul m (mdiag (fun a => (1 / e a * nth a h 0 - 1) * (1 / e a))) (mul m (me (rv_inv dec)) (mul n (SU hd) (me zi)))) i j).
    + cbn [recon_full rv rv_inv eig mm me nc part_us part_suh]. rewrite D2, Z2. unfold mul at 1. apply nsum_ext. intros a Ha. rewrite mul_mdiag_l by exact Ha.
      rewrite (nth_map_in _ _ _ _ (0, 0)) by (rewrite combine_length, map_length; lia).
      rewrite combine_nth by (rewrite map_length; lia). cbn [fst snd]. rewrite (nth_map_in _ _ _ _ 0) by lia. fold (e a).
      rewrite D4, A2. rewrite <- mul_assoc. fold m. unfold mul. cbn [part_us part_suh me]. fold m. ring.
    + unfold corr. fold m. now rewrite !mul_assoc.
  - split; [cbn; exact A2|]. split; [cbn; exact A1|]. intros i j Hi Hj. refine (eq_trans _ (full_G hd dec zi h e SD DD TR i j Hi Hj)).
    set (m := nc (rv hd)) in *.
    set (si := fun i j => me (ctr conj (rv_inv hd)) i j / sqrt (nth j (eig hd) 0)) in *.
    set (ui := fun i j => me (ctr conj (rv hd)) i j / sqrt (nth i (eig hd) 0)) in *.
    transitivity (mul m (mul m si (me (rv dec))) (mul m (mdiag (fun a => nth a h 0)) (mul m (me (rv_inv dec)) ui)) i j).
    + cbn [recon_full rv rv_inv eig mm me nc]. rewrite D2, A3, D4. fold m. unfold mul at 1. apply nsum_ext. intros a Ha. rewrite mul_mdiag_l by exact Ha.
      change (mul m si (me (rv dec)) i a * nth a h 0 * mul m (me (rv_inv dec)) ui a j = mul m si (me (rv dec)) i a * (nth a h 0 * mul m (me (rv_inv dec)) ui a j)). ring.
    + unfold corr. fold m. now rewrite !mul_assoc.
Qed.

(** the root equation works with the inverse of the lattice sum *)
Theorem beb_root_spec e_on conc hd r : nsum N w = 1 -> specdec conj eighO close0 significant Hp = Ok hd ->
  beb_root_eq eigO invO sqrt ht self z e_on conc hd = Ok r ->
  nr r = n /\ nc r = n /\ ~ In 0 conc /\
  exists Gi, minv K n Gi (fun i j => nsum N (fun k => w k * R k i j)) /\
    forall i j, (i < n)%nat -> (j < n)%nat -> me r i j = Gi i j - (if (i =? j)%nat then (Gi i i + me self i i - nth i e_on 0) / nth i conc 0 else 0).
Proof.
  intros HW SD H. apply specdec_spec in SD. unfold beb_root_eq in H.
  destruct (invO (z_minus z self)) as [zi|] eqn:ZI; [|discriminate]. cbn [bind] in H.
  destruct (decompose_mat _ _ _) as [dec|] eqn:DE; [|discriminate]. cbn [bind] in H.
  destruct (existsb _ (eig dec)) eqn:EX; [discriminate|]. destruct (mapM _ _) as [h|] eqn:MH; [|discriminate]. cbn [bind] in H.
  destruct (existsb _ h) eqn:EH; [discriminate|]. destruct (existsb _ conc) eqn:EC; [discriminate|].
  assert (DD := setup hd zi dec h SD ZI DE EX MH). set (e := fun a => nth a (eig dec) 0) in DD.
  assert (SD' := SD). destruct SD' as (A1 & A2 & A3 & A4 & A5 & A6).
  assert (DD' := DD). destruct DD' as [(Z1 & Z2 & Z3) (D1 & D2 & D3 & D4 & D5) D6 De NE HM HLh AV Hh].
  assert (H0 : forall a, (a < nc (rv hd))%nat -> nth a h 0 <> 0).
  { intros a Ha E. assert (T : existsb (fun x => feqb x 0) h = true); [|congruence]. apply existsb_exists. exists (nth a h 0). split; [apply nth_In; lia|now apply feqb_true]. }
  injection H as <-. cbn [nr nc me]. split; [exact S1|]. split; [exact S2|]. split.
  { intros I. assert (T : existsb (fun x => feqb x 0) conc = true); [|congruence]. apply existsb_exists. exists 0. split; [exact I|now apply feqb_true]. }
  eexists. split; [|intros i j _ _; reflexivity].
  destruct (is_truncated hd) eqn:TR; cbn [negb].
  - apply minv_meq. change (fun i j => nsum N (fun k => w k * R k i j)) with Gsum. rewrite <- (trunc_G hd dec zi h e HW SD DD).
    rewrite <- (proj1 (minv_meq K n _ _) (trunc_ginv K n (nc (rv hd)) _ _ (US hd) (SU hd) _ _ e Z3 D6 NE HM (fun a => nth a h 0) H0)).
    apply mul_proper; [|reflexivity]. intros i j Hi Hj. cbn [mplus me]. unfold madd. f_equal. set (m := nc (rv hd)) in *.
    transitivity (mul m (mul m (US hd) (me (rv dec))) (mul m (mdiag (fun a => 1 / nth a h 0 - 1 / e a)) (mul m (me (rv_inv dec)) (SU hd))) i j).
    + cbn [recon_full rv rv_inv eig mm me nc part_us part_suh]. rewrite D2. unfold mul at 1. apply nsum_ext. intros a Ha. rewrite mul_mdiag_l by exact Ha.
      rewrite (nth_map_in _ _ _ _ (0, 0)) by (rewrite combine_length, map_length; lia).
      rewrite combine_nth by (rewrite map_length; lia). cbn [fst snd]. rewrite (nth_map_in _ _ _ _ 0) by lia. fold (e a).
      rewrite D4. fold m. unfold mul. cbn [part_us part_suh me]. fold m. ring.
    + unfold corr. fold m. now rewrite !mul_assoc.
  - destruct (A6 eq_refl) as (Em & SI & UI).
    set (si := fun i j => me (ctr conj (rv_inv hd)) i j / sqrt (nth j (eig hd) 0)) in *.
    set (ui := fun i j => me (ctr conj (rv hd)) i j / sqrt (nth i (eig hd) 0)) in *.
    apply minv_meq. change (fun i j => nsum N (fun k => w k * R k i j)) with Gsum. rewrite <- (full_G hd dec zi h e SD DD TR).
    fold si ui. set (m := nc (rv hd)) in *. rewrite <- Em in SI, UI, Z3, HM |- *.
    rewrite <- (proj1 (minv_meq K m _ _) (full_ginv K m (US hd) (SU hd) _ _ D6 si ui SI UI (fun a => nth a h 0) H0)).
    apply mul_proper; [|reflexivity]. intros i j Hi Hj.
    transitivity (mul m (mul m (US hd) (me (rv dec))) (mul m (mdiag (fun a => 1 / nth a h 0)) (mul m (me (rv_inv dec)) (SU hd))) i j).
    + cbn [recon_full rv rv_inv eig mm me nc part_us part_suh]. rewrite D2. unfold mul at 1. apply nsum_ext. intros a Ha. rewrite mul_mdiag_l by exact Ha.
      rewrite (nth_map_in _ _ _ _ 0) by lia.
      rewrite D4. fold m. unfold mul. cbn [part_us part_suh me]. fold m. ring.
    + unfold corr. fold m. now rewrite !mul_assoc.
Qed.

(** zero iff the inverse is diagonal and fulfils the BEB condition *)
Theorem beb_root_zero e_on conc hd r : nsum N w = 1 -> length conc = n -> specdec conj eighO close0 significant Hp = Ok hd ->
  beb_root_eq eigO invO sqrt ht self z e_on conc hd = Ok r -> 
  exists Gi, minv K n Gi (fun i j => nsum N (fun k => w k * R k i j)) /\
  ((forall i j, (i < n)%nat -> (j < n)%nat -> me r i j = 0) <->
   (forall i j, (i < n)%nat -> (j < n)%nat -> i <> j -> Gi i j = 0) /\
   (forall i, (i < n)%nat -> Gi i i + me self i i - nth i e_on 0 = nth i conc 0 * Gi i i)).
Proof.
  intros HW HC SD H. destruct (beb_root_spec e_on conc hd r HW SD H) as (_ & _ & C0 & Gi & HG & HV). exists Gi. split; [exact HG|].
  assert (CN : forall i, (i < n)%nat -> nth i conc 0 <> 0) by (intros i Hi E; apply C0; rewrite <- E; apply nth_In; lia).
  split.
  - intros Z. split.
    + intros i j Hi Hj Ne. rewrite <- (Z i j Hi Hj), (HV i j Hi Hj), (proj2 (Nat.eqb_neq i j) Ne). ring.
    + intros i Hi. assert (Q := Z i i Hi Hi). rewrite (HV i i Hi Hi), Nat.eqb_refl in Q. apply (proj1 (fsub_eq0 K _ _)) in Q.
      set (x := Gi i i + me self i i - nth i e_on 0) in *. rewrite Q. field. now apply CN.
  - intros (P1 & P2) i j Hi Hj. rewrite (HV i j Hi Hj). destruct (Nat.eqb_spec i j) as [->|Ne].
    + rewrite P2 by exact Hj. field. now apply CN.
    + rewrite P1 by assumption. ring.
Qed.

Theorem beb_root_full e_on conc hd r : nsum N w = 1 -> length conc = n -> specdec conj eighO close0 significant Hp = Ok hd ->
  beb_root_eq eigO invO sqrt ht self z e_on conc hd = Ok r -> 
  exists Gi, minv K n Gi (fun i j => nsum N (fun k => w k * R k i j)) /\
  (forall i j, (i < n)%nat -> (j < n)%nat -> me r i j = Gi i j - (if (i =? j)%nat then (Gi i i + me self i i - nth i e_on 0) / nth i conc 0 else 0)) /\
  ((forall i j, (i < n)%nat -> (j < n)%nat -> me r i j = 0) <->
   (forall i j, (i < n)%nat -> (j < n)%nat -> i <> j -> Gi i j = 0) /\
   (forall i, (i < n)%nat -> Gi i i + me self i i - nth i e_on 0 = nth i conc 0 * Gi i i)).
Proof.
  intros HW HC SD H. destruct (beb_root_spec e_on conc hd r HW SD H) as (_ & _ & _ & Gi & HG & HV).
  destruct (beb_root_zero e_on conc hd r HW HC SD H) as (Gi' & HG' & HI). exists Gi. split; [exact HG|]. split; [exact HV|].
  assert (EQ : forall i j, (i < n)%nat -> (j < n)%nat -> Gi i j = Gi' i j).
  { apply minv_comm in HG, HG'. exact (minv_unique K n _ _ _ HG HG'). }
  rewrite HI. split; intros (P1 & P2); (split; [intros i j Hi Hj Ne; generalize (P1 i j Hi Hj Ne); now rewrite (EQ i j Hi Hj)|intros i Hi; generalize (P2 i Hi); now rewrite (EQ i i Hi Hi)]).
Qed.

Theorem gf_loc_diag_full : gf_loc_diag conj eigO invO eighO close0 sqrt significant ht z self Hp
  = (do G <- gf_loc_full conj eigO invO eighO close0 sqrt significant ht z self Hp; Ok (map (fun i => me G i i) (seq 0 (nr G)))).
Proof.
  unfold gf_loc_diag, gf_loc_full.
  destruct (specdec _ _ _ _ Hp) as [hd|]; [|reflexivity]. cbn [bind].
  destruct (invO (z_minus z self)) as [zi|]; [|reflexivity]. cbn [bind].
  destruct (decompose_mat _ _ _) as [dec|]; [|reflexivity]. cbn [bind].
  destruct (existsb _ _); [reflexivity|]. destruct (mapM _ _) as [h|]; [|reflexivity]. cbn [bind].
  destruct (negb _); cbn [bind]; apply (f_equal Ok); apply map_ext_in; intros i Hi; apply in_seq in Hi.
  - cbn [recon_full rv rv_inv me nc]. apply nsum_ext. intros; ring.
  - cbn [mplus nr] in Hi. cbn [mplus me]. f_equal. rewrite (diag_of_full K) by (cbn [rv mm nr]; lia). reflexivity.
Qed.
End Lat.
End Hop.
End B.
