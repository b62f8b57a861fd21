(** * gftool/beb.py for a component independent hopping is gftool/cpa.py *)
From Coq Require Import List Arith Lia Bool Field Setoid Morphisms.
From Verif Require Import Base FSum Herm_Proofs Linalg_Model Linalg_Proofs Mat Matrix_Model Matrix_Proofs MatAlg Cpa_Model Cpa_Proofs Beb_Model Beb_Core Beb_Proofs.
Import ListNotations.
Local Open Scope fld_scope.

Section B.
Variable K : Fld.
Add Field BCF : (Fth K).
Variable conj : K -> K.
Variable eigO : mat K -> result (list K * mat K).
Variable invO : mat K -> result (mat K).
Variable eighO : mat K -> result (list K * mat K).
Variable close0 : K -> bool.
Variable sqrt : K -> K.
Variable significant : list K -> K -> bool.
Variable ht : K -> result K.
Hypothesis CJ : conj_ok K conj.
Hypothesis SG : forall l x, significant l x = true -> x <> 0.
Hypothesis INV : forall B C : mat K, nr B = nc B -> invO B = Ok C -> square K (nr B) C /\ minv K (nr B) (me B) (me C).
Hypothesis EIG : forall A ev, nr A = nc A -> eigO A = Ok ev -> eig_spec K A ev.

(** rank one update of an inverse *)
Lemma rank_one_inv n (M A : nat -> nat -> K) a g : minv K n M A -> a = nsum n (fun i => nsum n (fun j => A i j)) -> a <> 0 -> g <> 0 ->
  minv K n (fun i j => M i j + (1 / g - 1 / a))
    (fun i j => A i j + nsum n (fun k => A i k) * ((1 / a * g - 1) * (1 / a)) * nsum n (fun k => A k j)).
Proof.
  intros MA Ea A0 G0 i j Hi Hj. set (s := (1 / a * g - 1) * (1 / a)). set (t := 1 / g - 1 / a). set (y := nsum n (fun k => A k j)).
  rewrite (nsum_ext K n _ (fun k => (M i k * A k j + nsum n (fun l => M i k * A k l) * (s * y)) + (t * A k j + nsum n (fun l => A k l) * (t * s * y)))).
  2:{ intros k Hk. rewrite (nsum_mul_l K n (M i k) (fun l => A k l)). ring. }
  rewrite !nsum_add, !nsum_mul_r. rewrite (MA i j Hi Hj). rewrite (nsum_swap K n n (fun k l => M i k * A k l)).
  rewrite (nsum_ext K n (fun l => nsum n (fun k => M i k * A k l)) (fun l => kron i l * 1)) by (intros l Hl; rewrite (MA i l Hi Hl); ring).
  rewrite (kron_sum K n i (fun _ => 1) Hi), <- Ea, nsum_mul_l. fold y. transitivity (kron i j + (s + t + a * t * s) * y); [ring|].
  assert (s + t + a * t * s = 0) as ->; [unfold s, t; field; split; assumption|ring].
Qed.

Section Hop.
Variable Hp : mat K.
Notation n := (nr Hp).
Hypothesis Hsq : nr Hp = nc Hp.
Hypothesis SQ : forall ev x, eighO Hp = Ok ev -> In x (fst ev) -> sqrt x * sqrt x = x.
Hypothesis HE : forall ev, eighO Hp = Ok ev -> eigh_spec K conj Hp ev.
Hypothesis HD : forall ev x, eighO Hp = Ok ev -> In x (fst ev) -> significant (fst ev) x = false -> x = 0.
Hypothesis Npos : (0 < n)%nat.
Hypothesis ONE : forall i j, (i < n)%nat -> (j < n)%nat -> me Hp i j = 1.

(** the kept left and right eigenvectors are dual *)
Lemma specdec_dual hd : specdec conj eighO close0 significant Hp = Ok hd ->
  forall a b, (a < nc (rv hd))%nat -> (b < nc (rv hd))%nat ->
  nsum n (fun k => me (rv_inv hd) a k * me (rv hd) k b) = kron a b /\ sqrt (nth b (eig hd) 0) * sqrt (nth b (eig hd) 0) = nth b (eig hd) 0 /\ nth b (eig hd) 0 <> 0.
Proof.
  unfold specdec. destruct (decompose_her conj eighO close0 Hp true) as [d|] eqn:D; [|discriminate]. cbn [bind]. intros H. injection H as <-.
  assert (EV : exists ev, eighO Hp = Ok ev /\ d = Dec (snd ev) (fst ev) (ctr conj (snd ev))).
  { unfold decompose_her in D. destruct (_ && _); [discriminate|]. destruct (eighO Hp) as [ev|]; [|discriminate]. cbn [bind] in D. injection D as <-. now exists ev. }
  destruct EV as (ev & EV & Ed).
  assert (SQ' : forall x, In x (eig d) -> sqrt x * sqrt x = x) by (intros x Hx; apply (SQ ev x EV); subst d; exact Hx).
  destruct (decompose_her_spec K conj eighO close0 Hp true Hsq HE d D) as ((Q1 & Q2) & (Q3 & Q4) & Q5 & M & _ & _ & _).
  assert (ML := minv_comm K n _ _ M).
  unfold truncate. set (idx := filter (fun j => significant (eig d) (nth j (eig d) 0)) (seq 0 (length (eig d)))).
  cbn [rv rv_inv eig nr nc me]. intros a b Ha Hb.
  assert (IDX : forall a, (a < length idx)%nat -> (nth a idx 0%nat < n)%nat /\ nth (nth a idx 0%nat) (eig d) 0 <> 0).
  { intros c Hc. assert (I := nth_In idx 0%nat Hc). apply filter_In in I. destruct I as (I & S). apply in_seq in I. split; [lia|]. eapply SG; eassumption. }
  assert (ND : NoDup idx) by (apply NoDup_filter, seq_NoDup).
  rewrite (nth_map_in _ _ _ _ 0%nat) by exact Hb. split; [|split].
  - rewrite (ML _ _ (proj1 (IDX a Ha)) (proj1 (IDX b Hb))). unfold kron. destruct (Nat.eqb_spec a b) as [->|Ne]; [now rewrite Nat.eqb_refl|].
    rewrite (proj2 (Nat.eqb_neq _ _)); [reflexivity|]. intros E. apply Ne. exact (proj1 (NoDup_nth idx 0%nat) ND a b Ha Hb E).
  - apply SQ', nth_In. rewrite Q5. now apply IDX.
  - now apply IDX.
Qed.

(** one eigenvalue is kept *)
Lemma rank_one hd : specdec conj eighO close0 significant Hp = Ok hd -> nc (rv hd) = 1%nat.
Proof.
  intros H. assert (DU := specdec_dual hd H).
  destruct (specdec_spec K conj eighO close0 sqrt significant CJ SG Hp Hsq SQ HE HD hd H) as (A1 & A2 & A3 & A4 & A5 & _).
  set (m := nc (rv hd)) in *. set (l := fun b => nth b (eig hd) 0). set (s := fun b => nsum n (fun k => me (rv hd) k b)). set (t := fun a => nsum n (fun k => me (rv_inv hd) a k)).
  assert (RV : forall i b, (i < n)%nat -> (b < m)%nat -> s b = me (rv hd) i b * l b).
  { intros i b Hi Hb. transitivity (nsum n (fun j => nsum m (fun a => me (part_us sqrt hd) i a * me (part_suh sqrt hd) a j) * me (rv hd) j b)).
    { unfold s. apply nsum_ext. intros j Hj. assert (E := A5 i j Hi Hj). unfold mul in E. rewrite E, ONE by assumption. ring. }
    rewrite (nsum_ext K n _ (fun j => nsum m (fun a => (me (rv hd) i a * l a) * (me (rv_inv hd) a j * me (rv hd) j b)))).
    2:{ intros j Hj. rewrite <- nsum_mul_r. apply nsum_ext. intros a Ha. cbn [part_us part_suh me]. fold (l a). destruct (DU a a Ha Ha) as (_ & E & _). fold (l a) in E. rewrite <- E at 3. ring. }
    rewrite nsum_swap. rewrite (nsum_ext K m _ (fun a => kron b a * (me (rv hd) i a * l a))).
    2:{ intros a Ha. rewrite nsum_mul_l. destruct (DU a b Ha Hb) as (-> & _). unfold kron. rewrite (Nat.eqb_sym b a). ring. }
    now rewrite (kron_sum K m b (fun a => me (rv hd) i a * l a)). }
  assert (P : forall a b, (a < m)%nat -> (b < m)%nat -> t a * s b = kron a b * l b).
  { intros a b Ha Hb. destruct (DU a b Ha Hb) as (<- & _). unfold t. rewrite <- !nsum_mul_r. apply nsum_ext. intros k Hk. rewrite (RV k b Hk Hb). ring. }
  assert (LN : forall b, (b < m)%nat -> l b <> 0) by (intros b Hb; exact (proj2 (proj2 (DU b b Hb Hb)))).
  destruct m as [|[|m']] eqn:Em; [|reflexivity|].
  - exfalso. assert (E := A5 0%nat 0%nat Npos Npos). rewrite ONE in E by assumption. cbn in E. exact (F1_neq_0 K (eq_sym E)).
  - exfalso. assert (H0 : (0 < S (S m'))%nat) by apply Nat.lt_0_succ. assert (H1 : (1 < S (S m'))%nat) by (apply -> Nat.succ_lt_mono; apply Nat.lt_0_succ).
    assert (P00 := P _ _ H0 H0). assert (P11 := P _ _ H1 H1). assert (P01 := P _ _ H0 H1). change (kron (K := K) 0 1) with (F0 (f := K)) in P01.
    change (kron (K := K) 0 0) with (F1 (f := K)) in P00. change (kron (K := K) 1 1) with (F1 (f := K)) in P11.
    assert (T0 : t 0%nat <> 0) by (intros E; apply (LN _ H0); transitivity (1 * l 0%nat); [ring|rewrite <- P00, E; ring]).
    assert (S1 : s 1%nat = 0).
    { transitivity (t 0%nat * s 1%nat / t 0%nat); [field; exact T0|]. rewrite P01. field. exact T0. }
    apply (LN _ H1). transitivity (1 * l 1%nat); [ring|]. rewrite <- P11, S1. ring.
Qed.

(** what the functions of beb.py compute: everything is expressed by a = sum of the elements of 1/(z - Sigma) and g = ht(1/a) *)
Variables (z : K) (self : mat K).
Hypothesis S1 : nr self = n.
Hypothesis S2 : nc self = n.

Definition sum2 (A : nat -> nat -> K) : K := nsum n (fun i => nsum n (fun j => A i j)).

Lemma hop1 hd : specdec conj eighO close0 significant Hp = Ok hd ->
  nc (rv hd) = 1%nat /\ nr (rv_inv hd) = 1%nat /\ nr (rv hd) = n /\ nc (rv_inv hd) = n /\
  (exists p q, p * q = 1 /\ (forall i, (i < n)%nat -> me (part_us sqrt hd) i 0%nat = p) /\ (forall j, (j < n)%nat -> me (part_suh sqrt hd) 0%nat j = q)) /\
  (is_truncated hd = false -> n = 1%nat).
Proof.
  intros H. assert (R1 := rank_one hd H). destruct (specdec_spec K conj eighO close0 sqrt significant CJ SG Hp Hsq SQ HE HD hd H) as (A1 & A2 & A3 & A4 & A5 & A6).
  split; [exact R1|]. split; [congruence|]. split; [exact A1|]. split; [exact A2|]. split; [|intros T; rewrite R1 in A6; now rewrite <- (proj1 (A6 T))].
  set (p := me (part_us sqrt hd) 0%nat 0%nat). set (q := me (part_suh sqrt hd) 0%nat 0%nat). exists p, q.
  rewrite R1 in A5. assert (A : forall i j, (i < n)%nat -> (j < n)%nat -> me (part_us sqrt hd) i 0%nat * me (part_suh sqrt hd) 0%nat j = 1).
  { intros i j Hi Hj. rewrite <- (ONE i j Hi Hj), <- (A5 i j Hi Hj). unfold mul. cbn [nsum]. ring. }
  assert (PQ : p * q = 1) by (apply A; exact Npos). split; [exact PQ|]. split; intros i Hi.
  - transitivity (me (part_us sqrt hd) i 0%nat * (p * q)); [rewrite PQ; ring|]. transitivity (p * (me (part_us sqrt hd) i 0%nat * q)); [ring|]. unfold q. rewrite A by assumption. ring.
  - transitivity (me (part_suh sqrt hd) 0%nat i * (p * q)); [rewrite PQ; ring|]. transitivity (q * (p * me (part_suh sqrt hd) 0%nat i)); [ring|]. unfold p. rewrite A by assumption. ring.
Qed.

Lemma dec1 hd zi dec h : specdec conj eighO close0 significant Hp = Ok hd -> invO (z_minus z self) = Ok zi ->
  decompose_mat eigO invO (mm (mm (part_suh sqrt hd) zi) (part_us sqrt hd)) = Ok dec ->
  existsb (fun x => feqb x 0) (eig dec) = false -> mapM ht (map (fun x => 1 / x) (eig dec)) = Ok h ->
  nr zi = n /\ nc zi = n /\ minv K n (me (z_minus z self)) (me zi) /\
  eig dec = [sum2 (me zi)] /\ sum2 (me zi) <> 0 /\ nr (rv dec) = 1%nat /\ nc (rv dec) = 1%nat /\ nr (rv_inv dec) = 1%nat /\ nc (rv_inv dec) = 1%nat /\
  me (rv dec) 0%nat 0%nat * me (rv_inv dec) 0%nat 0%nat = 1 /\ exists g, h = [g] /\ ht (1 / sum2 (me zi)) = Ok g.
Proof.
  intros SD HZ HDec H0 HH. destruct (hop1 hd SD) as (R1 & R2 & R3 & R4 & (p & q & PQ & US & SU) & _).
  assert (Zq : nr (z_minus z self) = nc (z_minus z self)) by (cbn; congruence).
  destruct (INV _ _ Zq HZ) as ((Z1 & Z2) & Z3). cbn [z_minus nr nc] in Z1, Z2, Z3. rewrite S1 in Z1, Z2, Z3.
  split; [exact Z1|]. split; [exact Z2|]. split; [exact Z3|].
  destruct (decompose_mat_spec K eigO invO (mm (mm (part_suh sqrt hd) zi) (part_us sqrt hd))) with (d := dec)
    as ((D1 & D2) & (D3 & D4) & D5 & D6 & D7); [cbn; congruence|exact INV|intros ev Hev; apply EIG; [cbn; congruence|exact Hev]|exact HDec|].
  cbn [mm part_suh nr] in D1, D2, D3, D4, D5, D6, D7. rewrite R2 in D1, D2, D3, D4, D5, D6, D7.
  assert (V : me (rv dec) 0%nat 0%nat * me (rv_inv dec) 0%nat 0%nat = 1).
  { assert (E := D6 0%nat 0%nat (Nat.lt_0_succ _) (Nat.lt_0_succ _)). cbn [nsum] in E. change (kron (K := K) 0 0) with (F1 (f := K)) in E. rewrite <- E. ring. }
  destruct (eig dec) as [|e [|e' l]] eqn:EE; [discriminate| |discriminate].
  assert (EA : e = sum2 (me zi)).
  { assert (E := D7 0%nat 0%nat (Nat.lt_0_succ _) (Nat.lt_0_succ _)). cbn [recon_full mm part_suh me nc nth] in E. rewrite D2 in E. cbn [nsum nth] in E.
    transitivity (e * (me (rv dec) 0%nat 0%nat * me (rv_inv dec) 0%nat 0%nat)); [rewrite V; ring|].
    match type of E with _ = ?X => transitivity X; [rewrite <- E; ring|] end.
    unfold mul. rewrite Z2, R4. transitivity ((p * q) * sum2 (me zi)); [|rewrite PQ; ring]. unfold sum2. rewrite (nsum_swap K n n (fun i j => me zi i j)), <- nsum_mul_l.
    apply nsum_ext. intros j Hj. rewrite (US j Hj), <- nsum_mul_l, <- nsum_mul_r. apply nsum_ext. intros i Hi. assert (Q := SU i Hi). cbn [part_suh me] in Q. rewrite Q. ring. }
  subst e. split; [reflexivity|]. split.
  { intros E. cbn in H0. rewrite (proj2 (Mat.feqb_true _ _ _) E) in H0. discriminate. }
  split; [exact D1|]. split; [exact D2|]. split; [exact D3|]. split; [exact D4|]. split; [exact V|].
  cbn [map mapM] in HH. destruct (ht _) as [g|] eqn:EG; [|discriminate]. cbn [bind] in HH. injection HH as <-. now exists g.
Qed.

(** the function self_root_eq of beb.py *)
Lemma root_value e_on conc hd r : specdec conj eighO close0 significant Hp = Ok hd ->
  beb_root_eq eigO invO sqrt ht self z e_on conc hd = Ok r ->
  exists zi g, invO (z_minus z self) = Ok zi /\ minv K n (me (z_minus z self)) (me zi) /\ sum2 (me zi) <> 0 /\ ht (1 / sum2 (me zi)) = Ok g /\ g <> 0 /\ ~ In 0 conc /\
  forall i j, (i < n)%nat -> (j < n)%nat -> me r i j = (me (z_minus z self) i j + (1 / g - 1 / sum2 (me zi))) -
    (if (i =? j)%nat then ((me (z_minus z self) i i + (1 / g - 1 / sum2 (me zi))) + me self i i - nth i e_on 0) / nth i conc 0 else 0).
Proof.
  intros SD H. unfold beb_root_eq in H.
  destruct (invO (z_minus z self)) as [zi|] eqn:ZI; [|discriminate]. cbn [bind] in H.
  destruct (decompose_mat _ _ _) as [dec|] eqn:DE; [|discriminate]. cbn [bind] in H.
  destruct (existsb _ (eig dec)) eqn:EX; [discriminate|]. destruct (mapM _ _) as [h|] eqn:MH; [|discriminate]. cbn [bind] in H.
  destruct (existsb _ h) eqn:EH; [discriminate|]. destruct (existsb _ conc) eqn:EC; [discriminate|].
  destruct (dec1 hd zi dec h SD ZI DE EX MH) as (Z1 & Z2 & Z3 & EE & AN & D1 & D2 & D3 & D4 & V & g & -> & HG).
  destruct (hop1 hd SD) as (R1 & R2 & R3 & R4 & (p & q & PQ & US & SU) & TR1).
  exists zi, g. split; [reflexivity|]. split; [exact Z3|]. split; [exact AN|]. split; [exact HG|].
  split. { intros E. cbn in EH. rewrite (proj2 (feqb_true _ _ _) E) in EH. discriminate. }
  split. { intros I. assert (T : existsb (fun x => feqb x 0) conc = true); [|congruence]. apply existsb_exists. exists 0. split; [exact I|now apply feqb_true]. }
  assert (GV : forall i j, (i < n)%nat -> (j < n)%nat -> forall x,
    me (recon_full (Dec (mm (part_us sqrt hd) (rv dec)) (eig dec) (mm (rv_inv dec) (part_suh sqrt hd))) [x]) i j = x).
  { intros i j Hi Hj x. cbn [recon_full rv rv_inv eig mm me nc part_us part_suh]. rewrite D2. cbn [nsum nth]. unfold mul. rewrite R1, D4. cbn [nsum nth].
    assert (Q1 := US i Hi). assert (Q2 := SU j Hj). cbn [part_us part_suh me] in Q1, Q2. rewrite Q1, Q2.
    transitivity (x * (p * q) * (me (rv dec) 0%nat 0%nat * me (rv_inv dec) 0%nat 0%nat)); [ring|]. rewrite PQ, V. ring. }
  set (GI := if negb (is_truncated hd) then _ else _) in H.
  assert (GIV : forall i j, (i < n)%nat -> (j < n)%nat -> me GI i j = me (z_minus z self) i j + (1 / g - 1 / sum2 (me zi))).
  { intros i j Hi Hj. unfold GI. destruct (is_truncated hd) eqn:TR; cbn [negb].
    - unfold mplus. cbn [me]. f_equal. rewrite EE at 2. cbn [map combine fst snd]. now apply GV.
    - cbn [map]. rewrite GV by assumption. assert (N1 := TR1 eq_refl). rewrite N1 in Hi, Hj.
      assert (i = 0%nat) as -> by (now apply Nat.lt_1_r). assert (j = 0%nat) as -> by (now apply Nat.lt_1_r).
      assert (AV := AN). unfold sum2 in AV |- *. rewrite N1 in AV, Z3 |- *. assert (E := Z3 0%nat 0%nat (Nat.lt_0_succ _) (Nat.lt_0_succ _)). cbn [nsum] in AV, E |- *.
      change (kron (K := K) 0 0) with (F1 (f := K)) in E. set (M := me (z_minus z self) 0%nat 0%nat) in *. set (A := me zi 0%nat 0%nat) in *.
      assert (A0 : A <> 0) by (intros Q; apply AV; rewrite Q; ring). 
      assert (EM : M = 1 / A). { transitivity ((0 + M * A) / A); [field; exact A0|]. now rewrite E. }
      rewrite EM. clear -A0. transitivity (1 / A + (1 / g - 1 / A)); [ring|]. do 2 f_equal. f_equal. ring. }
  injection H as <-. intros i j Hi Hj. cbn [me]. rewrite !GIV by assumption. reflexivity.
Qed.

(** the function gf_loc_z of beb.py *)
Lemma loc_value G zi : invO (z_minus z self) = Ok zi -> gf_loc_full conj eigO invO eighO close0 sqrt significant ht z self Hp = Ok G ->
  exists g, ht (1 / sum2 (me zi)) = Ok g /\
  nr G = n /\ nc G = n /\ forall i j, (i < n)%nat -> (j < n)%nat ->
  me G i j = me zi i j + nsum n (fun k => me zi i k) * ((1 / sum2 (me zi) * g - 1) * (1 / sum2 (me zi))) * nsum n (fun k => me zi k j).
Proof.
  intros ZI H. unfold gf_loc_full in H.
  destruct (specdec _ _ _ _ Hp) as [hd|] eqn:SD; [|discriminate]. cbn [bind] in H.
  rewrite ZI in H. cbn [bind] in H.
  destruct (decompose_mat _ _ _) as [dec|] eqn:DE; [|discriminate]. cbn [bind] in H.
  destruct (existsb _ _) eqn:EX; [discriminate|]. destruct (mapM _ _) as [h|] eqn:MH; [|discriminate]. cbn [bind] in H.
  destruct (dec1 hd zi dec h SD ZI DE EX MH) as (Z1 & Z2 & Z3 & EE & AN & D1 & D2 & D3 & D4 & V & g & -> & HG).
  destruct (hop1 hd SD) as (R1 & R2 & R3 & R4 & (p & q & PQ & US & SU) & TR1).
  destruct (specdec_spec K conj eighO close0 sqrt significant CJ SG Hp Hsq SQ HE HD hd SD) as (_ & _ & _ & _ & _ & A6).
  exists g. split; [exact HG|].
  destruct (is_truncated hd) eqn:TR; cbn [negb] in H; injection H as <-.
  - split; [exact Z1|]. split; [exact Z2|]. intros i j Hi Hj. unfold mplus. cbn [me]. f_equal. rewrite EE at 2. cbn [map combine fst snd].
    cbn [recon_full rv rv_inv eig mm me nc part_us part_suh]. rewrite D2. cbn [nsum nth]. unfold mul. rewrite R1, R4, Z2. cbn [nsum nth].
    rewrite (nsum_ext K n (fun k => me zi i k * _) (fun k => me zi i k * p)) by (intros k Hk; f_equal; exact (US k Hk)).
    rewrite (nsum_ext K n (fun k => nsum (nc (rv_inv dec)) _ * _) (fun k => (me (rv_inv dec) 0%nat 0%nat * q) * me zi k j)).
    2:{ intros k Hk. f_equal. rewrite D4. cbn [nsum]. assert (Q2 := SU k Hk). cbn [part_suh me] in Q2. rewrite Q2. ring. }
    rewrite nsum_mul_l, nsum_mul_r. set (X := nsum n (fun k => me zi i k)). set (Y := nsum n (fun k => me zi k j)). set (W := (1 / sum2 (me zi) * g - 1) * (1 / sum2 (me zi))).
    transitivity (X * W * Y * (p * q) * (me (rv dec) 0%nat 0%nat * me (rv_inv dec) 0%nat 0%nat)); [ring|]. rewrite PQ, V. ring.
  - split; [cbn; exact R4|]. split; [cbn; exact R3|]. intros i j Hi Hj. assert (N1 := TR1 eq_refl).
    destruct (A6 eq_refl) as (_ & MI1 & MI2). rewrite N1 in Hi, Hj.
    assert (i = 0%nat) as -> by (now apply Nat.lt_1_r). assert (j = 0%nat) as -> by (now apply Nat.lt_1_r).
    assert (AV := AN). unfold sum2 in AV |- *. rewrite N1 in AV, MI1, MI2 |- *. cbn [nsum] in AV |- *.
    assert (E1 := MI1 0%nat 0%nat (Nat.lt_0_succ _) (Nat.lt_0_succ _)). assert (E2 := MI2 0%nat 0%nat (Nat.lt_0_succ _) (Nat.lt_0_succ _)). cbn [nsum] in E1, E2.
    change (kron (K := K) 0 0) with (F1 (f := K)) in E1, E2. rewrite (SU 0%nat Npos) in E1. rewrite (US 0%nat Npos) in E2.
    cbn [recon_full rv rv_inv eig mm me nc]. rewrite D2. cbn [nsum nth]. unfold mul. rewrite R2, D4. cbn [nsum nth].
    cbn [ctr me] in E1, E2. set (si := conj (me (rv_inv hd) 0%nat 0%nat) / sqrt (nth 0 (eig hd) 0)) in *. set (ui := conj (me (rv hd) 0%nat 0%nat) / sqrt (nth 0 (eig hd) 0)) in *.
    set (A := me zi 0%nat 0%nat) in *. assert (A0 : A <> 0) by (intros Q; apply AV; rewrite Q; ring).
    transitivity (g * (0 + q * si) * (0 + p * ui) * (me (rv dec) 0%nat 0%nat * me (rv_inv dec) 0%nat 0%nat)).
    { transitivity (g * (p * q) * (si * ui) * (me (rv dec) 0%nat 0%nat * me (rv_inv dec) 0%nat 0%nat)); [rewrite PQ|]; ring. }
    rewrite E1, E2, V. field. exact A0.
Qed.

(** ** the coherent potential approximation *)
Lemma avg_nsum (cs gs : list K) m : length cs = m -> length gs = m ->
  lsum (map (fun p => fst p * snd p) (combine cs gs)) = nsum m (fun i => nth i cs 0 * nth i gs 0).
Proof.
  intros H1 H2. rewrite (lsum_nth K), map_length, combine_length, H1, H2, Nat.min_id. apply nsum_ext. intros i Hi.
  rewrite (nth_map_in _ _ _ _ (0, 0)) by (rewrite combine_length; lia). rewrite combine_nth by congruence. reflexivity.
Qed.

(** self-energy matrix belonging to a CPA self-energy *)
Definition of_cpa (s g : K) (es cs : list K) (i j : nat) : K :=
  if (i =? j)%nat then s + 1 / g - (s + 1 / g - nth i es 0) / nth i cs 0 else s + 1 / g - z.

Lemma cmpt_ok s g es : ht (z - s) = Ok g -> (forall i, (i < length es)%nat -> s + 1 / g - nth i es 0 <> 0) -> g <> 0 ->
  gf_cmpt_z ht z s es = Ok (map (fun e => 1 / (s + 1 / g - e)) es).
Proof.
  intros Hg Hd G0. unfold gf_cmpt_z. rewrite Hg. cbn [bind]. clear Hg. induction es as [|e es IH]; [reflexivity|]. cbn [mapM map].
  assert (D0 := Hd 0%nat (Nat.lt_0_succ _)). cbn [nth] in D0. assert (IH' := IH (fun i Hi => Hd (S i) (proj1 (Nat.succ_lt_mono _ _) Hi))).
  assert (N0 : 1 - (e - s) * g <> 0).
  { intros E. apply D0. transitivity ((1 - (e - s) * g) / g); [field; exact G0|]. rewrite E. field. exact G0. }
  assert (fdiv g (1 - (e - s) * g) = Ok (1 / (s + 1 / g - e))) as ->.
  { unfold fdiv. destruct (Feq_dec _ _) as [F|_]; [exfalso; exact (N0 F)|]. f_equal.
    assert (s + 1 / g - e = (1 - (e - s) * g) / g) as -> by (field; exact G0). set (u := 1 - (e - s) * g) in *. field. split; assumption. }
  cbn [bind]. rewrite IH'. reflexivity.
Qed.

Lemma zm_if i j : me (z_minus z self) i j = (if (i =? j)%nat then z else 0) - me self i j.
Proof. cbn [z_minus me]. destruct (i =? j)%nat; ring. Qed.

(** the sum of the elements of 1/(z - Sigma) *)
Lemma sum_of_cpa s g' es cs gs zi : minv K n (me (z_minus z self)) (me zi) -> length es = n -> length cs = n -> ht (z - s) = Ok g' -> g' <> 0 -> gf_cmpt_z ht z s es = Ok gs ->
  (forall i, (i < n)%nat -> nth i cs 0 <> 0) -> nsum n (fun i => nth i cs 0 * nth i gs 0) = g' ->
  (forall i j, (i < n)%nat -> (j < n)%nat -> me self i j = of_cpa s g' es cs i j) -> sum2 (me zi) <> 0 /\ 1 / sum2 (me zi) = z - s.
Proof.
  intros MA L1 L2 Hg' G0' CM CN AV1 SE. set (a := sum2 (me zi)). assert (ZM := zm_if).
  destruct (cmpt_value K ht z s g' es gs Hg' G0' CM) as (LG & CV).
  assert (DN : forall i, (i < n)%nat -> s + 1 / g' - nth i es 0 <> 0).
  { intros i Hi E. apply (proj1 (CV i ltac:(congruence))). refine (eq_trans _ E). ring. }
  set (D := z - s - 1 / g'). assert (AM := minv_comm K n _ _ MA).
  set (x := fun j => nsum n (fun i => me zi i j)). assert (Ea : a = nsum n x) by (unfold a, sum2, x; apply nsum_swap).
  assert (MV : forall i j, (i < n)%nat -> (j < n)%nat -> me (z_minus z self) i j = D + kron i j * ((s + 1 / g' - nth i es 0) / nth i cs 0)).
  { intros i j Hi Hj. rewrite ZM, (SE i j Hi Hj). unfold of_cpa, kron, D. destruct (Nat.eqb_spec i j) as [<-|Ne]; ring. }
  assert (XJ : forall j, (j < n)%nat -> x j = (1 - D * a) * (nth j cs 0 * nth j gs 0)).
  { intros j Hj. assert (E : D * a + x j * ((s + 1 / g' - nth j es 0) / nth j cs 0) = 1).
    { transitivity (nsum n (fun i => nsum n (fun k => me zi i k * me (z_minus z self) k j))).
      - rewrite nsum_swap. rewrite (nsum_ext K n _ (fun k => x k * D + kron j k * (x k * ((s + 1 / g' - nth k es 0) / nth k cs 0)))).
        2:{ intros k Hk. rewrite nsum_mul_r. fold (x k). rewrite (MV k j Hk Hj). unfold kron. rewrite (Nat.eqb_sym j k). ring. }
        rewrite nsum_add, nsum_mul_r, <- Ea, (kron_sum K n j (fun k => x k * ((s + 1 / g' - nth k es 0) / nth k cs 0)) Hj). ring.
      - rewrite (nsum_ext K n _ (fun i => kron j i * 1)) by (intros i Hi; rewrite (AM i j Hi Hj); unfold kron; rewrite (Nat.eqb_sym i j); ring).
        now rewrite (kron_sum K n j (fun _ => 1) Hj). }
    destruct (CV j ltac:(congruence)) as (_ & ->). assert (Dj := DN j Hj). assert (Cj := CN j Hj).
    assert (EQ : 1 / (1 / g' - nth j es 0 + s) = 1 / (s + 1 / g' - nth j es 0)) by (f_equal; ring). rewrite EQ. clear EQ.
    set (d := s + 1 / g' - nth j es 0) in *. transitivity (x j * (d / nth j cs 0) * (nth j cs 0 / d)); [field; split; assumption|].
    assert (x j * (d / nth j cs 0) = 1 - D * a) as -> by (rewrite <- E; ring). field. exact Dj. }
  assert (EA : a = (1 - D * a) * g').
  { rewrite Ea at 1. rewrite (nsum_ext K n x _ XJ), nsum_mul_l, AV1. reflexivity. }
  assert (Q : a * (z - s) = 1).
  { transitivity ((a + D * a * g') / g'); [unfold D; field; exact G0'|]. rewrite EA at 1. field. exact G0'. }
  assert (AN : a <> 0) by (intros E; apply (F1_neq_0 K); rewrite <- Q, E; ring).
  split; [exact AN|]. transitivity (a * (z - s) / a); [rewrite Q; reflexivity|field; exact AN].
Qed.

Theorem root_iff_cpa es cs hd r : length es = n -> length cs = n -> lsum cs = 1 -> specdec conj eighO close0 significant Hp = Ok hd ->
  beb_root_eq eigO invO sqrt ht self z es cs hd = Ok r ->
  (forall i j, (i < n)%nat -> (j < n)%nat -> me r i j = 0) <->
  exists s g, z <> s /\ ht (z - s) = Ok g /\ g <> 0 /\ self_root_eq ht s z es cs = Ok 0 /\ forall i j, (i < n)%nat -> (j < n)%nat -> me self i j = of_cpa s g es cs i j.
Proof.
  intros L1 L2 C1 SD H. destruct (root_value es cs hd r SD H) as (zi & g & ZI & MA & AN & HG & G0 & CN' & RV).
  assert (CN : forall i, (i < n)%nat -> nth i cs 0 <> 0) by (intros i Hi E; apply CN'; rewrite <- E; apply nth_In; lia). clear CN'.
  set (a := sum2 (me zi)) in *. assert (ZM : forall i j, me (z_minus z self) i j = (if (i =? j)%nat then z else 0) - me self i j).
  { intros i j. cbn [z_minus me]. destruct (i =? j)%nat; ring. }
  split.
  - intros R0. assert (GI := rank_one_inv n _ _ a g MA eq_refl AN G0). set (Gi := fun i j => me (z_minus z self) i j + (1 / g - 1 / a)) in GI.
    set (Gm := fun i j => me zi i j + _) in GI. assert (GIc := minv_comm K n _ _ GI).
    assert (OD : forall i j, (i < n)%nat -> (j < n)%nat -> i <> j -> Gi i j = 0).
    { intros i j Hi Hj Ne. rewrite <- (R0 i j Hi Hj), (RV i j Hi Hj), (proj2 (Nat.eqb_neq i j) Ne). unfold Gi. ring. }
    set (s := z - 1 / a). assert (DI : forall i, (i < n)%nat -> nth i cs 0 * Gi i i = s + 1 / g - nth i es 0).
    { intros i Hi. assert (E := R0 i i Hi Hi). rewrite (RV i i Hi Hi), Nat.eqb_refl in E. fold (Gi i i) in E. apply (proj1 (fsub_eq0 K _ _)) in E.
      rewrite E. transitivity (Gi i i + me self i i - nth i es 0); [field; now apply CN|]. unfold Gi. rewrite ZM, Nat.eqb_refl. unfold s. ring. }
    assert (GG : forall i, (i < n)%nat -> Gi i i * Gm i i = 1).
    { intros i Hi. assert (E := GI i i Hi Hi). unfold kron at 1 in E. rewrite Nat.eqb_refl in E. rewrite <- E.
      rewrite (nsum_ext K n _ (fun k => kron i k * (Gi i i * Gm i i))); [now rewrite (kron_sum K n i (fun _ => Gi i i * Gm i i) Hi)|].
      intros k Hk. unfold kron. destruct (Nat.eqb_spec i k) as [->|Ne]; [ring|]. rewrite (OD i k Hi Hk Ne). ring. }
    assert (GO : forall i j, (i < n)%nat -> (j < n)%nat -> i <> j -> Gm i j = 0).
    { intros i j Hi Hj Ne. assert (E := GI i j Hi Hj). rewrite (nsum_ext K n _ (fun k => kron i k * (Gi i i * Gm i j))) in E.
      2:{ intros k Hk. unfold kron. destruct (Nat.eqb_spec i k) as [->|Ne']; [ring|]. rewrite (OD i k Hi Hk Ne'). ring. }
      rewrite (kron_sum K n i (fun _ => Gi i i * Gm i j) Hi) in E. unfold kron in E. rewrite (proj2 (Nat.eqb_neq i j) Ne) in E.
      transitivity ((Gi i i * Gm i i) * Gm i j); [rewrite GG by exact Hi; ring|]. transitivity ((Gi i i * Gm i j) * Gm i i); [ring|]. rewrite E. ring. }
    assert (GN : forall i, (i < n)%nat -> Gi i i <> 0) by (intros i Hi E; apply (F1_neq_0 K); rewrite <- (GG i Hi), E; ring).
    assert (DN : forall i, (i < n)%nat -> s + 1 / g - nth i es 0 <> 0) by (intros i Hi; rewrite <- DI by exact Hi; apply fmul_neq0; [now apply CN|now apply GN]).
    assert (ZS : z - s = 1 / a) by (unfold s; ring). assert (Hs : ht (z - s) = Ok g) by (rewrite ZS; exact HG).
    exists s, g. split. { intros E. apply (F1_neq_0 K). transitivity (a * (1 / a)); [field; exact AN|]. rewrite <- ZS, <- E. ring. }
    split; [exact Hs|]. split; [exact G0|]. split.
    + assert (DN' : forall i, (i < length es)%nat -> s + 1 / g - nth i es 0 <> 0) by (intros i Hi; apply DN; congruence).
      apply (proj2 (root_iff K ht z s g es cs Hs (eq_trans L1 (eq_sym L2)) C1 _ G0 (cmpt_ok s g es Hs DN' G0))).
      rewrite (avg_nsum cs _ n L2) by (now rewrite map_length).
      transitivity (nsum n (fun i => nsum n (fun j => Gm i j))).
      * apply nsum_ext. intros i Hi. rewrite (nth_map_in _ _ _ _ 0) by congruence.
        rewrite (nsum_ext K n _ (fun j => kron i j * Gm i i)) by (intros j Hj; unfold kron; destruct (Nat.eqb_spec i j) as [->|Ne]; [ring|rewrite (GO i j Hi Hj Ne); ring]).
        rewrite (kron_sum K n i (fun _ => Gm i i) Hi). assert (E := GG i Hi). assert (D := DI i Hi). assert (D' := DN i Hi). set (d := s + 1 / g - nth i es 0) in *.
        transitivity (nth i cs 0 / d * (Gi i i * Gm i i)); [rewrite E; field; exact D'|]. rewrite <- D. field. split; [now apply GN|now apply CN].
      * unfold Gm. set (sg := (1 / a * g - 1) * (1 / a)). rewrite (nsum_ext K n _ (fun i => nsum n (fun j => me zi i j) + nsum n (fun k => me zi i k) * (sg * a))).
        2:{ intros i Hi. rewrite nsum_add. f_equal. rewrite nsum_mul_l. change a with (nsum n (fun i => nsum n (fun j => me zi i j))). rewrite (nsum_swap K n n (fun i j => me zi i j)). ring. }
        rewrite nsum_add, nsum_mul_r. change (nsum n (fun i => nsum n (fun j => me zi i j))) with a. unfold sg. field. exact AN.
    + intros i j Hi Hj. unfold of_cpa. destruct (Nat.eqb_spec i j) as [<-|Ne].
      * rewrite <- (DI i Hi). transitivity (s + 1 / g - Gi i i); [unfold Gi; rewrite ZM, Nat.eqb_refl; unfold s; ring|]. f_equal. field. now apply CN.
      * assert (E := OD i j Hi Hj Ne). unfold Gi in E. rewrite ZM, (proj2 (Nat.eqb_neq i j) Ne) in E.
        transitivity (me self i j + (0 - me self i j + (1 / g - 1 / a))); [rewrite E; ring|]. rewrite E. unfold s. 
        transitivity (me self i j + (0 - me self i j + (1 / g - 1 / a))); [rewrite E; ring|ring].
  - intros (s & g' & ZS & Hg' & G0' & RE & SE).
    destruct (root_eq_value K ht z s g' es cs Hg' (eq_trans L1 (eq_sym L2)) C1 0 G0' RE) as (gs & CM & AV0 & AV).
    assert (AV1 : lsum (map (fun p => fst p * snd p) (combine cs gs)) = g') by (apply (proj1 (root_iff K ht z s g' es cs Hg' (eq_trans L1 (eq_sym L2)) C1 gs G0' CM)); exact RE).
    clear AV AV0. rewrite (avg_nsum cs gs n L2) in AV1 by (rewrite <- L1; exact (proj1 (cmpt_value K ht z s g' es gs Hg' G0' CM))).
    assert (EZ := proj2 (sum_of_cpa s g' es cs gs zi MA L1 L2 Hg' G0' CM CN AV1 SE)). change (sum2 (me zi)) with a in EZ.
    set (D := z - s - 1 / g'). assert (MV : forall i j, (i < n)%nat -> (j < n)%nat -> me (z_minus z self) i j = D + kron i j * ((s + 1 / g' - nth i es 0) / nth i cs 0)).
    { intros i j Hi Hj. rewrite ZM, (SE i j Hi Hj). unfold of_cpa, kron, D. destruct (Nat.eqb_spec i j) as [<-|Ne]; ring. }
    rewrite EZ, Hg' in HG. injection HG as <-. intros i j Hi Hj. rewrite (RV i j Hi Hj), !(MV i _ Hi) by assumption. rewrite EZ, (SE i i Hi Hi).
    unfold of_cpa, kron. rewrite Nat.eqb_refl. unfold D. destruct (Nat.eqb_spec i j) as [<-|Ne]; [field; split; [exact G0'|now apply CN]|ring].
Qed.

(** the local Green's function at the solution *)
Theorem loc_cpa es cs s g gs G : length es = n -> length cs = n -> lsum cs = 1 -> ~ In 0 cs -> ht (z - s) = Ok g -> g <> 0 ->
  self_root_eq ht s z es cs = Ok 0 -> gf_cmpt_z ht z s es = Ok gs -> (forall i j, (i < n)%nat -> (j < n)%nat -> me self i j = of_cpa s g es cs i j) ->
  gf_loc_full conj eigO invO eighO close0 sqrt significant ht z self Hp = Ok G ->
  nr G = n /\ nc G = n /\ (forall i j, (i < n)%nat -> (j < n)%nat -> me G i j = if (i =? j)%nat then nth i cs 0 * nth i gs 0 else 0) /\
  nsum n (fun i => me G i i) = g.
Proof.
  intros L1 L2 C1 CN' Hg G0 RE CM SE HG.
  assert (CN : forall i, (i < n)%nat -> nth i cs 0 <> 0) by (intros i Hi E; apply CN'; rewrite <- E; apply nth_In; lia). clear CN'.
  assert (AV1 : lsum (map (fun p => fst p * snd p) (combine cs gs)) = g) by (apply (proj1 (root_iff K ht z s g es cs Hg (eq_trans L1 (eq_sym L2)) C1 gs G0 CM)); exact RE).
  destruct (cmpt_value K ht z s g es gs Hg G0 CM) as (LG & CV). rewrite (avg_nsum cs gs n L2) in AV1 by congruence.
  assert (DN : forall i, (i < n)%nat -> s + 1 / g - nth i es 0 <> 0).
  { intros i Hi E. apply (proj1 (CV i ltac:(congruence))). refine (eq_trans _ E). ring. }
  destruct (invO (z_minus z self)) as [zi|] eqn:ZI.
  2:{ exfalso. unfold gf_loc_full in HG. destruct (specdec _ _ _ _ Hp); [|discriminate]. cbn [bind] in HG. rewrite ZI in HG. discriminate. }
  assert (Zq : nr (z_minus z self) = nc (z_minus z self)) by (cbn; congruence).
  destruct (INV _ _ Zq ZI) as (_ & MA). cbn [z_minus nr] in MA. rewrite S1 in MA.
  destruct (sum_of_cpa s g es cs gs zi MA L1 L2 Hg G0 CM CN AV1 SE) as (AN & EZ).
  destruct (loc_value G zi ZI HG) as (g' & Hg' & N1 & N2 & GV). rewrite EZ, Hg in Hg'. injection Hg' as <-. split; [exact N1|]. split; [exact N2|].
  assert (GD : forall i j, (i < n)%nat -> (j < n)%nat -> me G i j = if (i =? j)%nat then nth i cs 0 * nth i gs 0 else 0).
  { assert (GI := rank_one_inv n _ _ (sum2 (me zi)) g MA eq_refl AN G0).
    intros i j Hi Hj. rewrite (GV i j Hi Hj). 
    refine (minv_unique K n _ _ (fun i j => if (i =? j)%nat then nth i cs 0 * nth i gs 0 else 0) GI _ i j Hi Hj).
    clear i j Hi Hj. intros i j Hi Hj. rewrite (nsum_ext K n _ (fun k => kron i k * ((s + 1 / g - nth k es 0) / nth k cs 0 * (if (k =? j)%nat then nth k cs 0 * nth k gs 0 else 0)))).
    2:{ intros k Hk. rewrite zm_if, (SE i k Hi Hk), EZ. unfold of_cpa, kron. destruct (Nat.eqb_spec i k) as [<-|Ne]; ring. }
    rewrite (kron_sum K n i (fun k => (s + 1 / g - nth k es 0) / nth k cs 0 * (if (k =? j)%nat then nth k cs 0 * nth k gs 0 else 0)) Hi).
    unfold kron. destruct (Nat.eqb_spec i j) as [<-|Ne]; [|ring]. destruct (CV i ltac:(congruence)) as (_ & ->).
    assert (EQ : 1 / (1 / g - nth i es 0 + s) = 1 / (s + 1 / g - nth i es 0)) by (f_equal; ring). rewrite EQ. assert (Di := DN i Hi). set (d := s + 1 / g - nth i es 0) in *. field. split; [exact Di|now apply CN]. }
  split; [exact GD|]. rewrite <- AV1. apply nsum_ext. intros i Hi. now rewrite (GD i i Hi Hi), Nat.eqb_refl.
Qed.
End Hop.
End B.
