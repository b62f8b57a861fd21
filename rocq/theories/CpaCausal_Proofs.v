(** * Causality of the coherent potential approximation, gftool/cpa.py *)
From Coq Require Import List Arith Lia Bool Reals Lra Field.
From Coquelicot Require Import Coquelicot.
From Verif Require Import Base FSum CBase Cpa_Model Cpa_Proofs Fourier_Filon LatInt_Spec LatBz_Spec CpaCausal_Spec.
Import ListNotations.

(** ** when the root equation can be evaluated *)
Section Tot.
Variable K : Fld.
Add Field CCF : (Fth K).
Local Open Scope fld_scope.
Variable ht : K -> result K.
Lemma cmpt_total z s g es : ht (z - s) = Ok g -> g <> 0 -> (forall e, In e es -> 1 / g - e + s <> 0) -> exists gs, gf_cmpt_z ht z s es = Ok gs.
Proof.
  intros Hg G0 He. unfold gf_cmpt_z. rewrite Hg. cbn [bind]. apply mapM_total. intros e Ie. eexists. apply fdiv_intro. intros E. apply (He e Ie).
  transitivity ((1 - (e - s) * g) / g); [field; exact G0|]. rewrite E. field. exact G0.
Qed.
Lemma root_total z s g es cs gs : ht (z - s) = Ok g -> g <> 0 -> length es = length cs -> lsum cs = 1 -> gf_cmpt_z ht z s es = Ok gs ->
  lsum (map (fun p => fst p * snd p) (combine cs gs)) <> 0 -> exists r, self_root_eq ht s z es cs = Ok r.
Proof.
  intros Hg G0 HL Hc HG A0. unfold gf_cmpt_z in HG. rewrite Hg in HG. cbn [bind] in HG.
  assert (exists ts, mapM (fun ec => fdiv (snd ec * (fst ec - s)) (1 - (fst ec - s) * g)) (combine es cs) = Ok ts) as (ts & T).
  { apply mapM_total. intros (e, c) Hin. apply in_combine_l in Hin. apply mapM_inv in HG.
    assert (D : 1 - (e - s) * g <> 0).
    { clear -HG Hin. induction HG as [|a b l bs H _ IH]; [destruct Hin|]. destruct Hin as [->|Hin]; [|now apply IH].
      apply fdiv_ok in H. exact (proj1 H). }
    eexists. now apply fdiv_intro. }
  assert (S := average_sum K g s es cs ts gs HL T HG). rewrite Hc in S.
  unfold self_root_eq. rewrite Hg. cbn [bind]. rewrite HL, Nat.eqb_refl, T. cbn [bind]. eexists. apply fdiv_intro. intros E. apply A0. rewrite S.
  transitivity (g * (1 + lsum ts * g)); [ring|]. rewrite E. ring.
Qed.
End Tot.

Local Open Scope R_scope.
(** ** the disc of the values with Im 1/h >= y *)
Definition n2 (h : C) : R := fst h * fst h + snd h * snd h.
Definition disc (y m : R) (h : C) : Prop := y * n2 h <= - snd h /\ m <= - snd h.
Lemma n2_pos h : h <> RtoC 0 -> 0 < n2 h.
Proof.
  intros H. unfold n2. destruct (Req_dec (fst h) 0) as [E|E]; [|nra]. destruct (Req_dec (snd h) 0) as [F|F]; [|nra].
  exfalso. apply H. destruct h as (a, b). cbn in E, F. now subst.
Qed.
Lemma inv_parts d : fst (/ d)%C = fst d / n2 d /\ snd (/ d)%C = - snd d / n2 d.
Proof. unfold n2. split; cbn; f_equal; ring. Qed.
Lemma im_pos_neq0 (d : C) : 0 < snd d -> d <> RtoC 0.
Proof. intros H E. rewrite E in H. cbn in H. lra. Qed.
Lemma im_neg_neq0 (d : C) : snd d < 0 -> d <> RtoC 0.
Proof. intros H E. rewrite E in H. cbn in H. lra. Qed.
Lemma inv_disc y B (d : C) : 0 < y -> y <= snd d -> n2 d <= B -> disc y (y / B) (/ d)%C.
Proof.
  intros Hy Hd HB. assert (N := n2_pos d (im_pos_neq0 d ltac:(lra))). destruct (inv_parts d) as (E1 & E2). unfold disc.
  assert (EN : n2 (/ d)%C = / n2 d). { unfold n2 at 1. rewrite E1, E2. unfold n2 in *. field. lra. }
  rewrite EN, E2. assert (I := Rinv_0_lt_compat _ N). split.
  - unfold Rdiv. nra.
  - apply Rle_trans with (y / n2 d); [apply Rmult_le_compat_l; [lra|]; apply Rinv_le_contravar; lra|]. unfold Rdiv. nra.
Qed.
Lemma disc_out y m h : 0 < y -> 0 < m -> disc y m h -> h <> RtoC 0 /\ y <= snd (/ h)%C /\ snd h < 0.
Proof.
  intros Hy Hm (D1 & D2). assert (S : snd h < 0) by lra. assert (N0 := im_neg_neq0 h S). assert (N := n2_pos h N0). split; [exact N0|]. split; [|exact S].
  destruct (inv_parts h) as (_ & ->). apply (Rmult_le_reg_r (n2 h)); [exact N|]. replace (- snd h / n2 h * n2 h) with (- snd h) by (field; lra). exact D1.
Qed.
(** a value which satisfies every linear inequality valid on the disc lies in the disc *)
Lemma disc_lin y m (G : C) : 0 <= y ->
  (forall a b c, (forall h, disc y m h -> 0 <= a * fst h + b * snd h + c) -> 0 <= a * fst G + b * snd G + c) -> disc y m G.
Proof.
  intros Hy H. split.
  - assert (E := H (- (2 * y * fst G)) (- 1 - 2 * y * snd G) (y * n2 G)). unfold n2 in *. 
    enough (X : 0 <= - (2 * y * fst G) * fst G + (- 1 - 2 * y * snd G) * snd G + y * (fst G * fst G + snd G * snd G)) by nra.
    apply E. intros h (D1 & _). unfold n2 in D1.
    assert (0 <= y * ((fst h - fst G) * (fst h - fst G) + (snd h - snd G) * (snd h - snd G))) by (apply Rmult_le_pos; [exact Hy|]; apply Rplus_le_le_0_compat; apply Rle_0_sqr). nra.
  - assert (E := H 0 (- 1) (- m)). enough (0 <= 0 * fst G + - 1 * snd G + - m) by lra. apply E. intros h (_ & D2). lra.
Qed.

(** averages over lists and intervals *)
Lemma lin_list a b c (l : list (R * C)) : (forall p, In p l -> 0 <= fst p /\ 0 <= a * fst (snd p) + b * snd (snd p) + c) ->
  let G := lsum (K := CF) (map (fun p => Cmult (RtoC (fst p)) (snd p)) l) : C in 0 <= a * fst G + b * snd G + c * fold_right Rplus 0 (map fst l).
Proof.
  induction l as [|p l IH]; intros H; cbv zeta; [cbn; lra|]. specialize (IH (fun q Hq => H q (or_intror Hq))). cbv zeta in IH.
  cbn [map fold_right]. rewrite (lsum_cons CF). change (Fadd (f := CF)) with Cplus. 
  set (G := lsum (K := CF) _ : C) in *. destruct (H p (or_introl eq_refl)) as (P1 & P2).
  change (fst (RtoC (fst p) * snd p + G)%C) with (fst p * fst (snd p) - 0 * snd (snd p) + fst G). change (snd (RtoC (fst p) * snd p + G)%C) with (fst p * snd (snd p) + 0 * fst (snd p) + snd G).
  assert (0 <= fst p * (a * fst (snd p) + b * snd (snd p) + c)) by (apply Rmult_le_pos; assumption). nra.
Qed.
Lemma lin_avg a b c u v (h : R -> C) (G : C) : u <= v -> is_CInt h u v G -> (forall t, u < t < v -> 0 <= a * fst (h t) + b * snd (h t) + c) ->
  0 <= a * fst G + b * snd G + c * (v - u).
Proof.
  intros Huv (I1 & I2) H.
  assert (I : is_RInt (V := R_NormedModule) (fun t => a * fst (h t) + b * snd (h t) + c) u v (a * fst G + b * snd G + (v - u) * c)).
  { apply (is_RInt_plus (V := R_NormedModule)); [|apply (is_RInt_const (V := R_NormedModule))].
    apply (is_RInt_plus (V := R_NormedModule)); apply (is_RInt_scal (V := R_NormedModule)); assumption. }
  apply Rle_trans with (RInt (V := R_CompleteNormedModule) (fun t => a * fst (h t) + b * snd (h t) + c) u v).
  - apply RInt_ge_0; [exact Huv|eexists; exact I|exact H].
  - right. transitivity (a * fst G + b * snd G + (v - u) * c); [exact (is_RInt_unique _ _ _ _ I)|ring].
Qed.
Lemma lin_dens a b c u v (w : R -> R) (h : R -> C) (G : C) : u <= v -> (forall t, u < t < v -> 0 <= w t) -> is_RInt w u v 1 ->
  is_CInt (fun t => Cmult (RtoC (w t)) (h t)) u v G -> (forall t, u < t < v -> 0 <= a * fst (h t) + b * snd (h t) + c) -> 0 <= a * fst G + b * snd G + c.
Proof.
  intros Huv W0 W1 (I1 & I2) H.
  assert (I : is_RInt (V := R_NormedModule) (fun t => w t * (a * fst (h t) + b * snd (h t) + c)) u v (a * fst G + b * snd G + c * 1)).
  { apply (is_RInt_ext (V := R_NormedModule) (fun t => plus (plus (scal a (fst (RtoC (w t) * h t)%C)) (scal b (snd (RtoC (w t) * h t)%C))) (scal c (w t)))).
    { intros t _. cbn. unfold plus, scal; cbn; unfold mult; cbn. ring. }
    apply (is_RInt_plus (V := R_NormedModule)); [|apply (is_RInt_scal (V := R_NormedModule)); exact W1].
    apply (is_RInt_plus (V := R_NormedModule)); apply (is_RInt_scal (V := R_NormedModule)); assumption. }
  apply Rle_trans with (RInt (V := R_CompleteNormedModule) (fun t => w t * (a * fst (h t) + b * snd (h t) + c)) u v).
  - apply RInt_ge_0; [exact Huv|eexists; exact I|]. intros t Ht. apply Rmult_le_pos; [now apply W0|now apply H].
  - right. transitivity (a * fst G + b * snd G + c * 1); [exact (is_RInt_unique _ _ _ _ I)|ring].
Qed.

Lemma bound_list (l : list C) : exists B, 0 < B /\ forall d, In d l -> n2 d <= B.
Proof.
  induction l as [|d l (B & B0 & HB)]; [exists 1; split; [lra|intros d []]|]. exists (B + n2 d). assert (0 <= n2 d) by (unfold n2; nra).
  split; [lra|]. intros e [<-|He]; [lra|]. specialize (HB e He). lra.
Qed.

(** ** Hilbert transforms of positive spectra *)

Theorem list_average (l : list (R * C)) y : 0 < y -> (forall p, In p l -> 0 <= fst p /\ y <= snd (snd p)) -> fold_right Rplus 0 (map fst l) = 1 ->
  let G := lsum (K := CF) (map (fun p => Cmult (RtoC (fst p)) (Cinv (snd p))) l) : C in G <> RtoC 0 /\ y <= snd (/ G)%C /\ snd G < 0.
Proof.
  intros Hy H S G. destruct (bound_list (map snd l)) as (B & B0 & HB).
  apply (disc_out y (y / B)); [exact Hy|now apply Rdiv_lt_0_compat|]. apply disc_lin; [lra|]. intros a b c Hl.
  assert (X := lin_list a b c (map (fun p => (fst p, Cinv (snd p))) l)). cbv zeta in X. rewrite !map_map in X. cbn [fst snd] in X.
  fold G in X. replace (map (fun x : R * C => fst x) l) with (map fst l) in X by reflexivity. rewrite S, Rmult_1_r in X. apply X.
  intros q Hq. apply in_map_iff in Hq. destruct Hq as (p & <- & Hp). cbn [fst snd]. destruct (H p Hp) as (P1 & P2). split; [exact P1|]. apply Hl. apply inv_disc; [exact Hy|exact P2|].
  apply HB. now apply in_map.
Qed.

(** average over a Brillouin zone of any shape *)
Lemma pi2 : 0 < PI - - PI.
Proof. assert (H := PI_RGT_0). lra. Qed.
Lemma res_disc (z : C) (E : R) M : 0 < snd z -> Rabs E <= M -> disc (snd z) (snd z / ((Rabs (fst z) + M) * (Rabs (fst z) + M) + snd z * snd z)) (1 / (z - RtoC E))%C.
Proof.
  intros Hz HE. replace (1 / (z - RtoC E))%C with (/ (z - RtoC E))%C by (unfold Cdiv; ring). apply inv_disc; [exact Hz|cbn; lra|].
  unfold n2. cbn. replace (snd z + - 0) with (snd z) by ring. apply Rplus_le_compat_r.
  replace (fst z + - E) with (fst z - E) by ring. assert (A := Rabs_triang (fst z) (- E)). rewrite Rabs_Ropp in A. assert (B := Rabs_pos (fst z - E)).
  rewrite <- (Rabs_right ((fst z - E) * (fst z - E))) by (apply Rle_ge, Rle_0_sqr). rewrite Rabs_mult. change (fst z + - E) with (fst z - E) in A. apply Rmult_le_compat; lra.
Qed.
Lemma res_mpos (z : C) M : 0 < snd z -> 0 < snd z / ((Rabs (fst z) + M) * (Rabs (fst z) + M) + snd z * snd z).
Proof. intros Hz. apply Rdiv_lt_0_compat; [exact Hz|]. assert (0 <= (Rabs (fst z) + M) * (Rabs (fst z) + M)) by apply Rle_0_sqr. nra. Qed.

Lemma res_disc' (z e : C) M : 0 < snd z -> snd e = 0 /\ Rabs (fst e) <= M -> disc (snd z) (snd z / ((Rabs (fst z) + M) * (Rabs (fst z) + M) + snd z * snd z)) (1 / (z - e))%C.
Proof. intros Hz (E0 & HE). destruct e as (a, b). cbn [fst snd] in *. subst b. exact (res_disc z a M Hz HE). Qed.
Lemma mpi_pi : - PI <= PI.
Proof. assert (H := PI_RGT_0). lra. Qed.
Theorem chain_average (z G : C) (E : R -> R) M : 0 < snd z -> (forall k, Rabs (E k) <= M) ->
  is_CInt (fun k => 1 / (z - RtoC (E k)))%C (- PI) PI (RtoC (2 * PI) * G)%C -> G <> RtoC 0 /\ snd z <= snd (/ G)%C /\ snd G < 0.
Proof.
  intros Hz HE I. apply (disc_out _ (snd z / ((Rabs (fst z) + M) * (Rabs (fst z) + M) + snd z * snd z))); [exact Hz|now apply res_mpos|]. apply disc_lin; [lra|]. intros a b c Hl.
  assert (X := lin_avg a b c _ _ _ _ mpi_pi I (fun k _ => Hl _ (res_disc z (E k) M Hz (HE k)))). cbn [fst snd Cmult RtoC] in X. assert (P := PI_RGT_0).
  apply (Rmult_le_reg_l (2 * PI)); [lra|]. nra.
Qed.
Theorem plane_average (z G : C) (E : R * R -> C) M : 0 < snd z -> (forall k, snd (E k) = 0 /\ Rabs (fst (E k)) <= M) ->
  is_bz_average (fun k => 1 / (z - E k))%C G -> G <> RtoC 0 /\ snd z <= snd (/ G)%C /\ snd G < 0.
Proof.
  intros Hz HE (inner & I1 & I2). apply (disc_out _ (snd z / ((Rabs (fst z) + M) * (Rabs (fst z) + M) + snd z * snd z))); [exact Hz|now apply res_mpos|]. apply disc_lin; [lra|]. intros a b c Hl.
  assert (X := lin_avg a b (c * (PI - - PI)) _ _ _ _ mpi_pi I2 (fun k1 _ => lin_avg a b c _ _ _ _ mpi_pi (I1 k1) (fun k2 _ => Hl _ (res_disc' z (E (k1, k2)) M Hz (HE _))))).
  cbn [fst snd Cmult RtoC] in X. assert (P := PI_RGT_0). apply (Rmult_le_reg_l (4 * (PI * PI))); [nra|]. nra.
Qed.
Theorem space_average (z G : C) (E : R * R * R -> C) M : 0 < snd z -> (forall k, snd (E k) = 0 /\ Rabs (fst (E k)) <= M) ->
  is_bz_average3 (fun k => 1 / (z - E k))%C G -> G <> RtoC 0 /\ snd z <= snd (/ G)%C /\ snd G < 0.
Proof.
  intros Hz HE (inner & middle & I1 & I2 & I3). apply (disc_out _ (snd z / ((Rabs (fst z) + M) * (Rabs (fst z) + M) + snd z * snd z))); [exact Hz|now apply res_mpos|]. apply disc_lin; [lra|]. intros a b c Hl.
  assert (X := lin_avg a b (c * (PI - - PI) * (PI - - PI)) _ _ _ _ mpi_pi I3 (fun k1 _ => lin_avg a b (c * (PI - - PI)) _ _ _ _ mpi_pi (I2 k1)
     (fun k2 _ => lin_avg a b c _ _ _ _ mpi_pi (I1 k1 k2) (fun k3 _ => Hl _ (res_disc' z (E (k1, k2, k3)) M Hz (HE _)))))).
  cbn [fst snd Cmult RtoC] in X. assert (P := PI_RGT_0). assert (P3 : 0 < PI * PI * PI) by (assert (0 < PI * PI) by nra; nra).
  apply (Rmult_le_reg_l (8 * (PI * PI * PI))); [lra|]. match type of X with _ <= ?u => match goal with |- _ <= ?v => replace v with u by ring end end. lra.
Qed.
(** a density of states *)
Theorem density_average (z G : C) (d : R -> R) D : 0 < snd z -> 0 <= D -> (forall e, - D < e < D -> 0 <= d e) -> is_RInt d (- D) D 1 ->
  is_hilbert d D z G -> G <> RtoC 0 /\ snd z <= snd (/ G)%C /\ snd G < 0.
Proof.
  intros Hz HD D0 D1 H. apply (disc_out _ (snd z / ((Rabs (fst z) + D) * (Rabs (fst z) + D) + snd z * snd z))); [exact Hz|now apply res_mpos|]. apply disc_lin; [lra|]. intros a b c Hl.
  apply (lin_dens a b c (- D) D d (fun e => 1 / (z - RtoC e))%C G); [lra|exact D0|exact D1| |].
  - unfold is_hilbert in H. destruct H as (H1 & H2). assert (X : forall e, (RtoC (d e) / (z - RtoC e))%C = (RtoC (d e) * (1 / (z - RtoC e)))%C) by (intros e; unfold Cdiv; ring).
    split; [refine (is_RInt_ext _ _ _ _ _ _ H1)|refine (is_RInt_ext _ _ _ _ _ _ H2)]; intros e _; now rewrite X.
  - intros e He. apply Hl, res_disc; [exact Hz|]. apply Rabs_le. lra.
Qed.

(** ** one step of the fixed-point iteration *)
Lemma map_fst_combine {A B} (a : list A) (b : list B) : length a = length b -> map fst (combine a b) = a.
Proof. revert b. induction a as [|x a IH]; intros [|y b] L; try discriminate L; [reflexivity|]. cbn. f_equal. apply IH. now injection L. Qed.
Section Step.
Variable ht : C -> result C.
Hypothesis HT : retarded_ht ht.
Variables (z s : C) (es : list C).
Hypothesis Hz : 0 < snd z.
Hypothesis Hs : snd s <= 0.
Hypothesis He : forall e, In e es -> snd e <= 0.

Lemma coherent : exists g : C, ht (z - s)%C = Ok g /\ g <> RtoC 0 /\ snd z <= snd (1 / g + s)%C /\
  forall e, In e es -> snd (1 / g + s)%C <= snd (1 / g - e + s)%C.
Proof.
  destruct (HT (z - s)%C) as (g & Hg & G0 & I); [cbn; lra|]. exists g. split; [exact Hg|]. split; [exact G0|].
  replace (1 / g)%C with (/ g)%C by (unfold Cdiv; ring). change (snd (/ g + s)%C) with (snd (/ g)%C + snd s). change (snd (z - s)%C) with (snd z - snd s) in I.
  split; [lra|]. intros e Ie. change (snd (/ g - e + s)%C) with (snd (/ g)%C - snd e + snd s). specialize (He e Ie). lra.
Qed.

Theorem components_retarded : exists gs : list C, gf_cmpt_z (K := CF) ht z s es = Ok gs /\ length gs = length es /\
  forall g : C, In g gs -> g <> RtoC 0 /\ snd g < 0 /\ snd z <= snd (/ g)%C.
Proof.
  destruct coherent as (g & Hg & G0 & I & IE).
  assert (N : forall e, In e es -> (1 / g - e + s)%C <> RtoC 0) by (intros e Ie; apply im_pos_neq0; specialize (IE e Ie); lra).
  destruct (cmpt_total CF ht z s g es Hg G0 N) as (gs & HG). exists gs. split; [exact HG|]. destruct (cmpt_value CF ht z s g es gs Hg G0 HG) as (L & V). split; [exact L|].
  intros h Ih. destruct (In_nth _ _ (RtoC 0) Ih) as (i & Hi & Eh). assert (Hi' : (i < length es)%nat) by exact (eq_ind _ (fun m => (i < m)%nat) Hi _ L). clear Hi. rename Hi' into Hi. destruct (V i Hi) as (_ & E).
  assert (Eh' : h = (1 / (1 / g - nth i es (RtoC 0) + s))%C) by exact (eq_trans (eq_sym Eh) E). rewrite Eh'. assert (IE' := IE _ (nth_In es (RtoC 0) Hi)).
  set (d := (1 / g - nth i es (RtoC 0) + s)%C) in *. assert (Y : snd z <= snd d) by lra. replace (1 / d)%C with (/ d)%C by (unfold Cdiv; ring).
  assert (X := inv_disc (snd z) (n2 d) d Hz Y (Rle_refl _)). assert (ND := n2_pos d (im_pos_neq0 d ltac:(lra))).
  destruct (disc_out _ _ _ Hz (Rdiv_lt_0_compat _ _ Hz ND) X) as (X1 & X2 & X3). auto.
Qed.

Theorem step_physical (ps : list R) : length es = length ps -> (forall p, In p ps -> 0 <= p) -> fold_right Rplus 0 ps = 1 ->
  exists s' : C, self_fxdpnt_eq (K := CF) ht s z es (map RtoC ps) = Ok s' /\ snd s' <= 0.
Proof.
  intros L P0 P1. destruct coherent as (g & Hg & G0 & I & IE).
  assert (N : forall e, In e es -> (1 / g - e + s)%C <> RtoC 0) by (intros e Ie; apply im_pos_neq0; specialize (IE e Ie); lra).
  destruct (cmpt_total CF ht z s g es Hg G0 N) as (gs & HG). destruct (cmpt_value CF ht z s g es gs Hg G0 HG) as (LG & V).
  assert (LC : length es = length (map RtoC ps)) by (now rewrite map_length).
  assert (SC : lsum (K := CF) (map RtoC ps) = RtoC 1).
  { rewrite <- P1. clear. induction ps as [|p ps IH]; [reflexivity|]. cbn [map fold_right]. rewrite (lsum_cons CF), IH. symmetry. exact (RtoC_plus _ _). }
  set (w := snd (1 / g + s)%C) in *. set (l := combine ps (map (fun e => (1 / g - e + s)%C) es)).
  destruct (list_average l w) as (A0 & A1 & A2); [lra| | |].
  { intros (p, d) Hp. assert (Q1 := in_combine_l _ _ _ _ Hp). assert (Q2 := in_combine_r _ _ _ _ Hp). cbn [fst snd]. split; [now apply P0|].
    apply in_map_iff in Q2. destruct Q2 as (e & <- & Ie). now apply IE. }
  { unfold l. rewrite map_fst_combine; [exact P1|rewrite map_length; symmetry; exact L]. }
  assert (AV : lsum (K := CF) (map (fun p => Fmul (f := CF) (fst p) (snd p)) (combine (map RtoC ps) gs)) = lsum (K := CF) (map (fun p => Cmult (RtoC (fst p)) (Cinv (snd p))) l)).
  { f_equal. unfold l. clear -L LG V. revert ps L gs LG V. induction es as [|e t IH]; intros [|p ps] L [|x gs] LG V; try discriminate; [reflexivity|].
    cbn [map combine fst snd]. f_equal.
    - destruct (V 0%nat ltac:(cbn; lia)) as (_ & E). cbn [nth] in E. rewrite E. change (RtoC p * (1 / (1 / g - e + s)) = RtoC p * / (1 / g - e + s))%C. unfold Cdiv. now rewrite Cmult_1_l.
    - apply IH; [now injection L|now injection LG|]. intros i Hi. exact (V (S i) (proj1 (Nat.succ_lt_mono _ _) Hi)). }
  set (avg := lsum (K := CF) (map (fun p => Cmult (RtoC (fst p)) (Cinv (snd p))) l) : C) in *.
  destruct (root_total CF ht z s g es (map RtoC ps) gs Hg G0 LC SC HG) as (r & HR); [exact (eq_ind_r (fun x : C => x <> RtoC 0) A0 AV)|].
  destruct (root_eq_value CF ht z s g es (map RtoC ps) Hg LC SC r G0 HR) as (gs' & HG' & _ & ER). rewrite HG in HG'. injection HG' as <-.
  cbv zeta in ER. exists (s + r)%C. split; [unfold self_fxdpnt_eq; rewrite HR; reflexivity|].
  assert (ER' : r = (1 / g - 1 / avg)%C) by exact (eq_trans ER (f_equal (fun x : C => (1 / g - 1 / x)%C) AV)). rewrite ER'. replace (s + (1 / g - 1 / avg))%C with ((1 / g + s) - / avg)%C by (unfold Cdiv; ring).
  change (snd (1 / g + s - / avg)%C) with (w - snd (/ avg)%C). lra.
Qed.
End Step.

(** ** the restricted root equation *)
Definition point_ok (p : C * (list C * list C)) : Prop := 0 < snd (fst p) /\ (forall e, In e (fst (snd p)) -> snd e <= 0) /\
  exists ps, snd (snd p) = map RtoC ps /\ length (fst (snd p)) = length ps /\ (forall x, In x ps -> 0 <= x) /\ fold_right Rplus 0 ps = 1.
Lemma root_vec_total ht pars selfs : retarded_ht ht -> length pars = length selfs -> (forall p, In p pars -> point_ok p) -> (forall s, In s selfs -> snd s <= 0) ->
  exists r, root_vec (K := CF) ht pars selfs = Ok r.
Proof.
  intros HT L HP HS. unfold root_vec. change (@length (CF * (list CF * list CF))) with (@length (C * (list C * list C))). change (@length CF) with (@length C). rewrite L, Nat.eqb_refl.
  apply mapM_total. intros (p, s) Hin. assert (Q1 := in_combine_l _ _ _ _ Hin). assert (Q2 := in_combine_r _ _ _ _ Hin). cbn [fst snd].
  destruct (HP p Q1) as (Z & E & ps & EP & LP & P0 & P1). destruct p as (z, (es, cs)). cbn [fst snd] in *. subst cs.
  destruct (step_physical ht HT z s es Z (HS s Q2) E ps LP P0 P1) as (s' & H & _). unfold self_fxdpnt_eq in H.
  destruct (self_root_eq (K := CF) ht s z es (map RtoC ps)) as [r|] eqn:R; [|discriminate]. now exists r.
Qed.
Lemma clip_le s : snd (clip s) <= 0.
Proof. unfold clip. destruct (Rlt_dec 0 (snd s)); cbn; lra. Qed.
Theorem restricted_total ht pars selfs : retarded_ht ht -> length pars = length selfs -> (forall p, In p pars -> point_ok p) ->
  exists r s', restrict (root_vec (K := CF) ht pars) selfs = (Ok r, s').
Proof.
  intros HT L HP. unfold restrict. destruct (existsb unphysical selfs) eqn:E.
  - destruct (root_vec_total ht pars (map clip selfs) HT) as (r & ->); [now rewrite map_length|exact HP|intros s Hs; apply in_map_iff in Hs; destruct Hs as (t & <- & _); apply clip_le|].
    cbn [bind]. eauto.
  - destruct (root_vec_total ht pars selfs HT L HP) as (r & ->); [|eauto]. intros s Hs. destruct (Rle_dec (snd s) 0) as [|N]; [assumption|]. exfalso.
    assert (X : existsb unphysical selfs = true); [|congruence]. apply existsb_exists. exists s. split; [exact Hs|]. unfold unphysical. destruct (Rlt_dec 0 (snd s)); [reflexivity|lra].
Qed.
