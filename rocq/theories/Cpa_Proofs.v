(** * Proofs about gftool/cpa.py *)
From Coq Require Import List Arith Reals Bool Lia Lra.
From Coquelicot Require Import Coquelicot.
From Verif Require Import Base FSum CBase Cpa_Model.
Import ListNotations.

Lemma mapM_inv {A B} (f : A -> result B) l bs : mapM f l = Ok bs -> Forall2 (fun a b => f a = Ok b) l bs.
Proof.
  revert bs. induction l as [|a l IH]; intros bs H; cbn in H; [injection H as <-; constructor|].
  destruct (f a) as [b|] eqn:E; [|discriminate]. cbn in H. destruct (mapM f l) as [r|]; [|discriminate]. cbn in H. injection H as <-.
  constructor; auto.
Qed.
Lemma mapM_intro {A B} (f : A -> result B) l bs : Forall2 (fun a b => f a = Ok b) l bs -> mapM f l = Ok bs.
Proof. induction 1 as [|a b l bs H _ IH]; [reflexivity|]. cbn. now rewrite H, IH. Qed.
Lemma mapM_length {A B} (f : A -> result B) l bs : mapM f l = Ok bs -> length bs = length l.
Proof. intros H. apply mapM_inv in H. induction H; cbn; congruence. Qed.
Lemma mapM_total {A B} (f : A -> result B) l : (forall a, In a l -> exists b, f a = Ok b) -> exists bs, mapM f l = Ok bs.
Proof.
  induction l as [|a l IH]; intros H; [now exists []|]. destruct (H a (or_introl eq_refl)) as (b & E).
  destruct IH as (bs & Ebs); [intros; apply H; now right|]. exists (b :: bs). cbn. now rewrite E, Ebs.
Qed.

(** ** join / split *)
Section Arr.
Context {X : Type}.
Lemma cut_length (l : list X) sizes : length (cut l sizes) = S (length sizes).
Proof. revert l. induction sizes as [|s r IH]; intros l; [reflexivity|]. cbn. now rewrite IH. Qed.
Lemma cut_concat (l : list X) sizes : concat (cut l sizes) = l.
Proof. revert l. induction sizes as [|s r IH]; intros l; cbn; [apply app_nil_r|]. now rewrite IH, firstn_skipn. Qed.
Lemma removelast_length {A} (l : list A) : length (removelast l) = (length l - 1)%nat.
Proof. induction l as [|a [|b l] IH]; [reflexivity|reflexivity|]. cbn [removelast length] in *. rewrite IH. lia. Qed.

Lemma firstn_app_len (a b : list X) n : length a = n -> firstn n (a ++ b) = a.
Proof. intros <-. rewrite firstn_app, Nat.sub_diag, firstn_all. cbn. apply app_nil_r. Qed.
Lemma skipn_app_len (a b : list X) n : length a = n -> skipn n (a ++ b) = b.
Proof. intros <-. rewrite skipn_app, Nat.sub_diag, skipn_all. reflexivity. Qed.
Lemma cut_join (args : list (ndarray X)) : args <> [] -> (forall a, In a args -> wf a) ->
  cut (concat (map data args)) (map prod (removelast (map shape args))) = map data args.
Proof.
  intros H0 HW. induction args as [|a [|b args] IH]; [contradiction|cbn; now rewrite app_nil_r|].
  cbn [map concat removelast cut]. assert (W := HW a (or_introl eq_refl)).
  cbn [map concat removelast] in IH. rewrite (firstn_app_len _ _ _ W), (skipn_app_len _ _ _ W). f_equal.
  apply IH; [discriminate|]. intros c Hc. apply HW. now right.
Qed.
Theorem split_join (args : list (ndarray X)) v shs : (forall a, In a args -> wf a) ->
  (forall a, In a (removelast args) -> shape a <> []) -> join args = Ok (v, shs) -> split_arr v shs = Ok args.
Proof.
  intros HW HS HJ. assert (H0 : args <> []) by (intros ->; discriminate).
  assert (E : v = concat (map data args) /\ shs = map shape args) by (unfold join in HJ; destruct args; [discriminate|]; now injection HJ as <- <-).
  destruct E as (-> & ->). unfold split_arr.
  assert (S0 : existsb is_scalar (removelast (map shape args)) = false).
  { apply not_true_is_false. intros T. apply existsb_exists in T. destruct T as (sh & I & T).
    assert (R : removelast (map shape args) = map shape (removelast args)).
    { clear. induction args as [|a [|b args] IH]; [reflexivity|reflexivity|]. cbn [map removelast] in *. now rewrite IH. }
    rewrite R in I. apply in_map_iff in I. destruct I as (a & <- & I). apply (HS a I). now destruct (shape a). }
  rewrite S0, cut_join by assumption. apply mapM_intro. clear HS HJ H0 S0.
  induction args as [|a args IH]; cbn; constructor.
  - unfold reshape. cbn [fst snd]. rewrite (HW a) by (now left). rewrite Nat.eqb_refl. destruct a; reflexivity.
  - apply IH. intros c Hc. apply HW. now right.
Qed.
Theorem join_split (v : list X) shs args : shs <> [] -> split_arr v shs = Ok args -> join args = Ok (v, shs) /\ forall a, In a args -> wf a.
Proof.
  intros H0 H. unfold split_arr in H. destruct (existsb _ _); [discriminate|]. apply mapM_inv in H.
  assert (L : length (cut v (map prod (removelast shs))) = length shs).
  { rewrite cut_length, map_length, removelast_length. destruct shs; [contradiction|]. cbn [length]. lia. }
  assert (D : concat (cut v (map prod (removelast shs))) = v) by apply cut_concat.
  revert H L D. generalize (cut v (map prod (removelast shs))). intros ps H L D.
  assert (Y : map data args = ps /\ map shape args = shs /\ forall a, In a args -> wf a).
  { clear H0 D. revert shs args H L. induction ps as [|p ps IH]; intros [|sh shs] args H L; try discriminate L; inversion H; subst.
    - repeat split; auto. intros a [].
    - injection L as L. destruct (IH _ _ H4 L) as (A & B & W). unfold reshape in H2. cbn [fst snd] in H2.
      destruct (Nat.eqb_spec (length p) (prod sh)) as [Q|]; [|discriminate]. injection H2 as <-. cbn. rewrite A, B. repeat split.
      intros a [<-|I]; [exact Q|now apply W]. }
  destruct Y as (A & B & W). split; [|exact W]. unfold join. destruct args as [|a args]; [subst shs; now destruct H0|].
  now rewrite A, B, D.
Qed.
Theorem split_scalar (v : list X) shs : In [] (removelast shs) -> split_arr v shs = Err TypeError.
Proof.
  intros H. unfold split_arr. assert (E : existsb is_scalar (removelast shs) = true); [|now rewrite E].
  apply existsb_exists. exists []. now split.
Qed.
End Arr.

(** ** The CPA condition *)
Section Point.
Variable K : Fld.
Add Field PF : (Fth K).
Local Open Scope fld_scope.
Variable ht : K -> result K.

Lemma fdiv_ok (x y : K) r : fdiv x y = Ok r -> y <> 0 /\ r = x / y.
Proof. unfold fdiv. destruct (Feq_dec y 0); [discriminate|]. intros H. injection H as <-. auto. Qed.
Lemma fdiv_intro (x y : K) : y <> 0 -> fdiv x y = Ok (x / y).
Proof. unfold fdiv. now destruct (Feq_dec y 0). Qed.

Lemma average_sum (g s : K) (es cs ts gs : list K) : length es = length cs ->
  mapM (fun ec => fdiv (snd ec * (fst ec - s)) (1 - (fst ec - s) * g)) (combine es cs) = Ok ts ->
  mapM (fun e => fdiv g (1 - (e - s) * g)) es = Ok gs ->
  lsum (map (fun p => fst p * snd p) (combine cs gs)) = g * lsum cs + g * g * lsum ts.
Proof.
  revert cs ts gs. induction es as [|e es IH]; intros [|c cs] ts gs L HT HG; try discriminate L; apply mapM_inv in HT, HG.
  - inversion HT; inversion HG; subst. cbn. ring.
  - cbn [combine] in HT. inversion HT as [|? t ? ts' T1 T2]; inversion HG as [|? g' ? gs' G1 G2]; subst. injection L as L.
    cbn [fst snd] in T1. apply fdiv_ok in T1, G1. destruct T1 as (D & ->), G1 as (_ & ->).
    cbn [combine map fst snd]. rewrite !lsum_cons. rewrite (IH cs ts' gs' L); [|now apply mapM_intro|now apply mapM_intro].
    field. exact D.
Qed.

Section Cond.
Variables (z s g : K) (es cs : list K).
Hypothesis Hg : ht (z - s) = Ok g.
Hypothesis HL : length es = length cs.
Hypothesis Hc : lsum cs = 1.

Lemma root_gf r : self_root_eq ht s z es cs = Ok r -> exists gs, gf_cmpt_z ht z s es = Ok gs.
Proof.
  unfold self_root_eq, gf_cmpt_z. rewrite Hg. cbn [bind]. rewrite HL, Nat.eqb_refl. intros H.
  destruct (mapM _ (combine es cs)) as [ts|] eqn:T; [|discriminate]. apply mapM_inv in T. clear H.
  apply mapM_total. intros e He.
  assert (exists c, In (e, c) (combine es cs)) as (c & Hin).
  { clear -He HL. revert cs HL. induction es as [|a l IH]; intros [|c cs] HL; try discriminate HL; [destruct He|].
    destruct He as [->|He]; [exists c; now left|]. injection HL as HL. destruct (IH He cs HL) as (c' & H). exists c'. now right. }
  assert (X : 1 - (e - s) * g <> 0).
  { clear -T Hin. induction T as [|a b l bs H _ IH]; [destruct Hin|]. destruct Hin as [->|Hin]; [|now apply IH].
    apply fdiv_ok in H. exact (proj1 H). }
  eexists. now apply fdiv_intro.
Qed.

(** r = 1/g - 1/<g_i> *)
Theorem root_eq_value r : g <> 0 -> self_root_eq ht s z es cs = Ok r ->
  exists gs, gf_cmpt_z ht z s es = Ok gs /\
    let avg := lsum (map (fun p => fst p * snd p) (combine cs gs)) in avg <> 0 /\ r = 1 / g - 1 / avg.
Proof.
  intros G0 H. destruct (root_gf r H) as (gs & HG). exists gs. split; [exact HG|].
  unfold self_root_eq in H. unfold gf_cmpt_z in HG. rewrite Hg in *. cbn [bind] in *. rewrite HL, Nat.eqb_refl in H.
  destruct (mapM _ (combine es cs)) as [ts|] eqn:T; [|discriminate]. cbn [bind] in H. apply fdiv_ok in H. destruct H as (D & ->).
  cbv zeta. rewrite (average_sum g s es cs ts gs HL T HG), Hc.
  replace (g * 1 + g * g * lsum ts) with (g * (1 + lsum ts * g)) by ring. split; [now apply fmul_neq0|]. field. split; assumption.
Qed.

Theorem root_iff gs : g <> 0 -> gf_cmpt_z ht z s es = Ok gs ->
  self_root_eq ht s z es cs = Ok 0 <-> lsum (map (fun p => fst p * snd p) (combine cs gs)) = g.
Proof.
  intros G0 HG. split.
  - intros H. destruct (root_eq_value 0 G0 H) as (gs' & HG' & A & B). rewrite HG in HG'. injection HG' as <-.
    cbv zeta in A, B. set (avg := lsum (map (fun p : K * K => fst p * snd p) (combine cs gs))) in *. assert (Q : 1 / g = 1 / avg) by (apply (proj1 (fsub_eq0 K _ _)); symmetry; exact B).
    transitivity (avg * g * (1 / g)); [field; assumption|]. rewrite Q. field. assumption.
  - intros HA. unfold gf_cmpt_z in HG. rewrite Hg in HG. cbn [bind] in HG.
    assert (exists ts, mapM (fun ec => fdiv (snd ec * (fst ec - s)) (1 - (fst ec - s) * g)) (combine es cs) = Ok ts) as (ts & T).
    { apply mapM_total. intros (e, c) Hin. apply in_combine_l in Hin. apply mapM_inv in HG.
      assert (D : 1 - (e - s) * g <> 0).
      { clear -HG Hin. induction HG as [|a b l bs H _ IH]; [destruct Hin|]. destruct Hin as [->|Hin]; [|now apply IH].
        apply fdiv_ok in H. exact (proj1 H). }
      eexists. now apply fdiv_intro. }
    assert (S := average_sum g s es cs ts gs HL T HG). rewrite HA, Hc in S.
    assert (T0 : lsum ts = 0).
    { apply (fmul_cancel_l K (g * g)); [now apply fmul_neq0|]. transitivity (g * 1 + g * g * lsum ts - g); [ring|]. rewrite <- S. ring. }
    unfold self_root_eq. rewrite Hg. cbn [bind]. rewrite HL, Nat.eqb_refl, T. cbn [bind]. rewrite T0, fdiv_intro.
    + apply (f_equal Ok). field; first [exact (F1_neq_0 K) | intros E; apply (F1_neq_0 K); rewrite <- E; ring].
    + intros E. apply (F1_neq_0 K). refine (eq_trans _ E). ring.
Qed.
End Cond.

Theorem fxdpnt_iff z s es cs : self_fxdpnt_eq ht s z es cs = Ok s <-> self_root_eq ht s z es cs = Ok 0.
Proof.
  unfold self_fxdpnt_eq. destruct (self_root_eq ht s z es cs) as [r|]; cbn [bind]; [|split; discriminate]. split; intros H.
  - injection H as H. apply (f_equal Ok). replace r with (s + r - s) by ring. rewrite H. ring.
  - injection H as ->. apply (f_equal Ok). ring.
Qed.
(** one component: a single iteration gives the on-site energy, from every starting point *)
Theorem fxdpnt_single z s g e : ht (z - s) = Ok g -> 1 - (e - s) * g <> 0 -> self_fxdpnt_eq ht s z [e] [1] = Ok e.
Proof.
  intros Hg D. unfold self_fxdpnt_eq, self_root_eq. rewrite Hg. cbn [bind length Nat.eqb combine mapM fst snd]. rewrite fdiv_intro by exact D.
  cbn [bind]. unfold lsum. cbn [fold_right].
  assert (X : 1 + (1 * (e - s) / (1 - (e - s) * g) + 0) * g = 1 / (1 - (e - s) * g)) by (field; exact D).
  rewrite X, fdiv_intro.
  - cbn [bind]. apply (f_equal Ok). field. split; [exact D|]. exact (F1_neq_0 K).
  - intros E. apply (F1_neq_0 K). replace 1 with (1 / (1 - (e - s) * g) * (1 - (e - s) * g)) at 1 by (field; exact D). rewrite E. ring.
Qed.
(** a common shift of frequency, on-site energies and self-energy drops out *)
Theorem root_shift z s es cs mu : self_root_eq ht (s + mu) (z + mu) (map (fun e => e + mu) es) cs = self_root_eq ht s z es cs.
Proof.
  unfold self_root_eq. replace (z + mu - (s + mu)) with (z - s) by ring. destruct (ht (z - s)) as [g|]; [|reflexivity]. cbn [bind].
  rewrite map_length. destruct (length es =? length cs)%nat; [|reflexivity].
  assert (E : mapM (fun ec => fdiv (snd ec * (fst ec - (s + mu))) (1 - (fst ec - (s + mu)) * g)) (combine (map (fun e => e + mu) es) cs)
     = mapM (fun ec => fdiv (snd ec * (fst ec - s)) (1 - (fst ec - s) * g)) (combine es cs)).
  { revert cs. induction es as [|e es' IH]; intros [|c cs']; try reflexivity. cbn [map combine mapM fst snd]. rewrite IH.
    replace (e + mu - (s + mu)) with (e - s) by ring. reflexivity. }
  now rewrite E.
Qed.

Lemma root_vec_inv pars selfs r : root_vec ht pars selfs = Ok r ->
  length pars = length selfs /\ length r = length selfs /\
  forall i z es cs s, nth_error pars i = Some (z, (es, cs)) -> nth_error selfs i = Some s -> exists x, nth_error r i = Some x /\ self_root_eq ht s z es cs = Ok x.
Proof.
  unfold root_vec. destruct (Nat.eqb_spec (length pars) (length selfs)) as [L|]; [|discriminate]. intros H. split; [exact L|].
  assert (L2 := mapM_length _ _ _ H). rewrite combine_length, L, Nat.min_id in L2. split; [exact L2|]. apply mapM_inv in H.
  intros i z es cs s Hp Hs. clear L2. revert selfs r i L H Hp Hs. induction pars as [|p pars IH]; intros [|s0 selfs] r i L H Hp Hs; try discriminate L.
  - destruct i; discriminate Hp.
  - cbn [combine] in H. inversion H as [|? x ? r' H1 H2]; subst. destruct i as [|i].
    + cbn in Hp, Hs. injection Hp as ->. injection Hs as ->. exists x. split; [reflexivity|exact H1].
    + cbn in Hp, Hs |- *. injection L as L. eapply IH; eassumption.
Qed.
End Point.

(** ** Restriction to physical self-energies *)
Local Open Scope R_scope.
Lemma penalty_nonzero s r : 0 < snd s -> penalty s r <> RtoC 0.
Proof.
  intros H E. unfold penalty in E. destruct (Rlt_dec 0 (snd s)) as [P|]; [|contradiction]. cbv zeta in E. apply (f_equal fst) in E. cbn [fst RtoC] in E.
  unfold sign_ge0 in E. destruct (Rle_dec 0 (fst r * (1 + snd s))); nra.
Qed.
Lemma penalty_physical s r : snd s <= 0 -> penalty s r = r.
Proof. intros H. unfold penalty. destruct (Rlt_dec 0 (snd s)); [lra|reflexivity]. Qed.
Lemma clip_physical s : snd s <= 0 -> clip s = s.
Proof. intros H. unfold clip. destruct (Rlt_dec 0 (snd s)); [lra|reflexivity]. Qed.
Lemma clip_im s : snd (clip s) <= 0.
Proof. unfold clip. destruct (Rlt_dec 0 (snd s)); cbn; lra. Qed.
Lemma unphysical_false selfs : existsb unphysical selfs = false <-> forall s, In s selfs -> snd s <= 0.
Proof.
  split.
  - intros H s Hs. destruct (Rlt_dec 0 (snd s)) as [P|]; [|lra]. exfalso. assert (T : existsb unphysical selfs = true); [|congruence].
    apply existsb_exists. exists s. split; [exact Hs|]. unfold unphysical. destruct (Rlt_dec 0 (snd s)); [reflexivity|contradiction].
  - intros H. apply not_true_is_false. intros T. apply existsb_exists in T. destruct T as (s & Hs & T). unfold unphysical in T.
    specialize (H s Hs). destruct (Rlt_dec 0 (snd s)); [lra|discriminate].
Qed.
Theorem restrict_physical root selfs : (forall s, In s selfs -> snd s <= 0) -> restrict root selfs = (root selfs, selfs).
Proof. intros H. unfold restrict. apply unphysical_false in H. now rewrite H. Qed.

Theorem restrict_zero (root : list C -> result (list C)) selfs r s' : (forall x y, root x = Ok y -> length y = length x) ->
  restrict root selfs = (Ok r, s') -> (forall x, In x r -> x = RtoC 0) ->
  (forall s, In s selfs -> snd s <= 0) /\ root selfs = Ok r /\ s' = selfs.
Proof.
  intros HL H H0. unfold restrict in H. destruct (existsb unphysical selfs) eqn:E.
  - exfalso. apply existsb_exists in E. destruct E as (s & Hs & P). unfold unphysical in P. destruct (Rlt_dec 0 (snd s)) as [D|]; [|discriminate].
    injection H as H _. destruct (root (map clip selfs)) as [r0|] eqn:E0; [|discriminate]. cbn [bind] in H. injection H as <-.
    apply HL in E0. rewrite map_length in E0. apply (In_nth _ _ (RtoC 0)) in Hs. destruct Hs as (i & Hi & <-).
    apply (penalty_nonzero (nth i selfs (RtoC 0)) (nth i r0 (RtoC 0)) D). apply H0. apply in_map_iff. exists (nth i selfs (RtoC 0), nth i r0 (RtoC 0)).
    split; [reflexivity|]. rewrite <- combine_nth by (symmetry; exact E0). apply nth_In. rewrite combine_length. lia.
  - injection H as -> ->. split; [now apply unphysical_false|]. auto.
Qed.

(** the residual of the physical entries is not touched, the array left behind is physical *)
Theorem restrict_values (root : list C -> result (list C)) selfs r s' : (forall x y, root x = Ok y -> length y = length x) ->
  restrict root selfs = (Ok r, s') ->
  s' = map clip selfs /\ (forall s, In s s' -> snd s <= 0) /\ length r = length selfs /\
  exists r0, root s' = Ok r0 /\ (forall i, (i < length selfs)%nat -> snd (nth i selfs (RtoC 0)) <= 0 -> nth i r (RtoC 0) = nth i r0 (RtoC 0)) /\
    (forall i, (i < length selfs)%nat -> 0 < snd (nth i selfs (RtoC 0)) -> nth i r (RtoC 0) <> RtoC 0 /\ Cmod (nth i r0 (RtoC 0)) <= Cmod (nth i r (RtoC 0))).
Proof.
  intros HL H. unfold restrict in H. destruct (existsb unphysical selfs) eqn:E.
  - assert (A := f_equal snd H). cbn in A. apply (f_equal fst) in H. cbn [fst] in H. subst s'.
    destruct (root (map clip selfs)) as [r0|] eqn:E0; [|discriminate]. cbn [bind] in H. injection H as <-.
    assert (L := HL _ _ E0). rewrite map_length in L. split; [reflexivity|]. split.
    { intros s Hs. apply in_map_iff in Hs. destruct Hs as (x & <- & _). apply clip_im. }
    split; [rewrite map_length, combine_length; lia|]. exists r0. split; [reflexivity|].
    assert (N : forall i, (i < length selfs)%nat -> nth i (map (fun p => penalty (fst p) (snd p)) (combine selfs r0)) (RtoC 0)
      = penalty (nth i selfs (RtoC 0)) (nth i r0 (RtoC 0))).
    { intros i Hi. rewrite (nth_indep _ _ (penalty (fst (RtoC 0, RtoC 0)) (snd (RtoC 0, RtoC 0)))) by (rewrite map_length, combine_length; lia).
      rewrite (map_nth (fun p => penalty (fst p) (snd p))). rewrite combine_nth by (symmetry; exact L). reflexivity. }
    split; intros i Hi P.
    + rewrite N by exact Hi. now apply penalty_physical.
    + rewrite N by exact Hi. split; [now apply penalty_nonzero|]. set (x := nth i selfs (RtoC 0)) in *. set (y := nth i r0 (RtoC 0)).
      unfold penalty. destruct (Rlt_dec 0 (snd x)) as [D|]; [|contradiction]. unfold Cmod. apply sqrt_le_1_alt. cbn [fst snd].
      assert (M : forall t d, 0 < d -> t ^ 2 <= (t * (1 + d) + / 1000 * d * sign_ge0 (t * (1 + d))) ^ 2).
      { intros t d Hd. unfold sign_ge0. destruct (Rle_dec 0 (t * (1 + d))) as [Q|Q].
        - assert (0 <= t) by nra. apply pow_incr. nra.
        - assert (t < 0) by nra. assert (t ^ 2 = (- t) ^ 2) as -> by ring.
          assert ((t * (1 + d) + / 1000 * d * -1) ^ 2 = (- (t * (1 + d)) + / 1000 * d) ^ 2) as -> by ring. apply pow_incr. nra. }
      apply Rplus_le_compat; now apply M.
  - injection H as H <-. assert (P := proj1 (unphysical_false selfs) E).
    assert (CL : selfs = map clip selfs).
    { clear -P. induction selfs as [|a l IH]; [reflexivity|]. cbn. rewrite (clip_physical a) by (apply P; now left). f_equal. apply IH. intros; apply P; now right. }
    split; [exact CL|]. split; [exact P|]. split; [now apply HL|]. exists r. split; [exact H|]. split; [auto|].
    intros i Hi D. exfalso. assert (Q := P (nth i selfs (RtoC 0)) (nth_In _ _ Hi)). lra.
Qed.

Lemma root_vec_len (ht : C -> result C) pars x y : root_vec (K := CF) ht pars x = Ok y -> length y = length x.
Proof. intros H. apply (root_vec_inv CF) in H. tauto. Qed.

(** ** The solvers *)
Section Solve.
Variable ht : C -> result C.
Variable opt : forall X, (list X -> result (list X) * list X) -> list X -> result (list X * bool).

Theorem solve_root_spec pars self0 restricted : exists x0 f,
  f = root_eq_of restricted (root_vec (K := CF) ht pars) /\
  match opt C f x0 with
  | Ok (x, true) => solve_root ht opt pars self0 restricted = Ok x
  | Ok (_, false) => solve_root ht opt pars self0 restricted = Err RuntimeError
  | Err e => solve_root ht opt pars self0 restricted = Err e
  end.
Proof.
  eexists. exists (root_eq_of restricted (root_vec (K := CF) ht pars)). split; [reflexivity|]. unfold solve_root.
  match goal with |- context [opt C ?f ?a] => destruct (opt C f a) as [(y, [|])|ex] eqn:E end; rewrite E; reflexivity.
Qed.

(** the point the root finder reported as success is a zero of the restricted function *)
Theorem root_zero pars restricted x r x' :
  root_eq_of restricted (root_vec (K := CF) ht pars) x = (Ok r, x') -> (forall y, In y r -> y = RtoC 0) ->
  x' = x /\ length pars = length x /\
  (forall i z es cs s, nth_error pars i = Some (z, (es, cs)) -> nth_error x i = Some s -> self_root_eq (K := CF) ht s z es cs = Ok (RtoC 0)) /\
  (restricted = true -> forall s, In s x -> snd s <= 0).
Proof.
  intros H H0.
  assert (R : x' = x /\ root_vec (K := CF) ht pars x = Ok r /\ (restricted = true -> forall s, In s x -> snd s <= 0)).
  { unfold root_eq_of in H. destruct restricted.
    - destruct (restrict_zero _ _ _ _ (root_vec_len ht pars) H H0) as (A & B & D). auto.
    - injection H as -> ->. repeat split. discriminate. }
  destruct R as (-> & R & P). apply (root_vec_inv CF) in R. destruct R as (L1 & L2 & R). split; [reflexivity|]. split; [exact L1|]. split; [|exact P].
  intros i z es cs s A B. destruct (R i z es cs s A B) as (y & Y & E). assert (y = RtoC 0) as -> by (apply H0; now apply nth_error_In in Y). exact E.
Qed.

Variable density_iw : list C -> list C -> R -> list R -> list R -> nat -> result R.
Variable chempot : (R -> result R) -> R -> result R.

Lemma fxdocc_zero iws es cs beta occ weights n_fit restricted n x r m re im :
  fxdocc_root_eq ht density_iw iws es cs beta occ weights n_fit restricted [[1%nat]; [n]; [n]] x = Ok r -> (forall y, In y r -> y = 0) -> 
  split_arr x [[1%nat]; [n]; [n]] = Ok [m; re; im] -> (0 < length iws)%nat -> length es = length iws -> length cs = length iws ->
  let mu := nth 0 (data m) 0 in
  let self : list C := map (fun p => (fst p - mu, snd p)) (combine (data re) (data im)) in
  length self = length iws /\
  (forall i w e c s, nth_error iws i = Some w -> nth_error es i = Some e -> nth_error cs i = Some c -> nth_error self i = Some s ->
     self_root_eq (K := CF) ht s w (map (fun x => Cminus x (RtoC mu)) e) c = Ok (RtoC 0)) /\
  (restricted = true -> forall s, In s self -> snd s <= 0) /\
  exists gf o, mapM (fun p => ht (Cminus (fst p) (snd p))) (combine iws self) = Ok gf /\ occ = Some o /\
    density_iw iws gf beta weights [1; fst (last self (RtoC 0))] n_fit = Ok o.
Proof.
  intros H H0 HS N0 LE LC mu self. unfold fxdocc_root_eq in H. rewrite HS in H. cbn [bind] in H. fold mu in H. fold self in H.
  set (pars := shift_pars iws es cs mu) in H.
  assert (LP : length pars = length iws). { unfold pars, shift_pars. rewrite !combine_length, map_length. lia. }
  destruct (root_eq_of restricted (root_vec (K := CF) ht pars) self) as (rr, self') eqn:E.
  destruct rr as [rr|]; [|discriminate]. cbn [bind] in H. destruct (occ_diff _ _ _ _ _ _ _ self') as [d|] eqn:D; [|discriminate].
  cbn [bind] in H. injection H as <-.
  assert (Z : forall y, In y rr -> y = RtoC 0).
  { intros y Hy. apply C_ext; [apply H0; right; apply in_or_app; left|apply H0; right; apply in_or_app; right]; now apply in_map. }
  destruct (root_zero _ _ _ _ _ E Z) as (-> & L & R & P).
  assert (LS : length self = length iws) by exact (eq_trans (eq_sym L) LP). split; [exact LS|]. split.
  { intros i w e c s A1 A2 A3 A4. apply (R i w); [|exact A4]. unfold pars, shift_pars.
    assert (NC : forall (X Y : Type) (a : list X) (b : list Y) i x y, nth_error a i = Some x -> nth_error b i = Some y -> nth_error (combine a b) i = Some (x, y)).
    { clear. intros X Y a. induction a as [|u a IH]; intros [|v b] [|i] x y A B; try discriminate; cbn in *; [now injection A as ->; injection B as ->|now apply IH]. }
    apply NC; [exact A1|]. apply NC; [|exact A3]. rewrite nth_error_map, A2. reflexivity. }
  split; [exact P|]. unfold occ_diff in D. rewrite LS, Nat.eqb_refl in D.
  destruct (mapM _ (combine iws self)) as [gf|]; [|discriminate]. cbn [bind] in D. exists gf.
  destruct self as [|s0 sl] eqn:ES; [rewrite <- LS in N0; cbn in N0; lia|]. rewrite <- ES in *.
  destruct (density_iw _ _ _ _ _ _) as [o|] eqn:DE; [|discriminate]. cbn [bind] in D. destruct occ as [o'|]; [|discriminate]. injection D as <-.
  exists o'. split; [reflexivity|]. split; [reflexivity|].
  assert (Q : INR (length rr) * (o - o') = 0) by (apply H0; now left).
  assert (LR : length rr = length self).
  { unfold root_eq_of in E. destruct restricted.
    - destruct (restrict_values _ _ _ _ (root_vec_len ht pars) E) as (_ & _ & X & _). exact X.
    - injection E as E. now apply root_vec_len in E. }
  apply Rmult_integral in Q. destruct Q as [Q|Q].
  - exfalso. change 0 with (INR 0) in Q. apply INR_eq in Q. lia.
  - replace o' with o by lra. reflexivity.
Qed.

Theorem solve_fxdocc_spec iws es cs beta occ self0 mu0 weights n_fit restricted self mu :
  solve_fxdocc_root ht opt density_iw chempot iws es cs beta occ self0 mu0 weights n_fit restricted = Ok (self, mu) ->
  exists n x0 x, let f := fun x => (fxdocc_root_eq ht density_iw iws es cs beta occ weights n_fit restricted [[1%nat]; [n]; [n]] x, x) in
    opt R f x0 = Ok (x, true) /\
    ((0 < length iws)%nat -> length es = length iws -> length cs = length iws ->
     (exists r, fst (f x) = Ok r /\ forall y, In y r -> y = 0) ->
     length self = length iws /\
     (forall i w e c s, nth_error iws i = Some w -> nth_error es i = Some e -> nth_error cs i = Some c -> nth_error self i = Some s ->
        self_root_eq (K := CF) ht s w (map (fun x => Cminus x (RtoC mu)) e) c = Ok (RtoC 0)) /\
     (restricted = true -> forall s, In s self -> snd s <= 0) /\
     exists gf o, mapM (fun p => ht (Cminus (fst p) (snd p))) (combine iws self) = Ok gf /\ occ = Some o /\
       density_iw iws gf beta weights [1; fst (last self (RtoC 0))] n_fit = Ok o).
Proof.
  intros H. unfold solve_fxdocc_root in H. cbv zeta in H.
  destruct (chempot _ mu0) as [mu1|]; [|discriminate]. cbn [bind] in H.
  destruct (fxdpnt_vec _ _ _) as [ata|]; [|discriminate]. cbn [bind] in H.
  destruct (chempot _ mu1) as [mu2|]; [|discriminate]. cbn [bind join] in H.
  match type of H with context [map shape [Arr [1%nat] _; Arr [?n] _; Arr [?n] _]] => exists n end.
  cbn [map shape data] in H.
  match type of H with context [opt R ?f ?a] => exists a; destruct (opt R f a) as [(x1, b)|] eqn:E; [|discriminate] end.
  cbn [bind fst snd] in H. destruct b; [|discriminate]. exists x1. cbv zeta. split; [exact E|].
  destruct (split_arr x1 _) as [parts|] eqn:S; [|discriminate]. cbn [bind] in H.
  destruct parts as [|m [|re [|im [|]]]]; try discriminate. destruct (data m) as [|mu' [|]] eqn:DM; try discriminate.
  injection H as <- <-. intros N0 LE LC (r & HR & HZ). cbn [fst] in HR.
  destruct (fxdocc_zero _ _ _ _ _ _ _ _ _ _ _ _ _ _ HR HZ S N0 LE LC) as (A & B & D & F). rewrite DM in A, B, D, F. cbn [nth] in A, B, D, F. auto.
Qed.
Theorem solve_fxdocc_failure iws es cs beta occ self0 mu0 weights n_fit restricted :
  (forall f x0 x, opt R f x0 <> Ok (x, true)) ->
  forall r, solve_fxdocc_root ht opt density_iw chempot iws es cs beta occ self0 mu0 weights n_fit restricted <> Ok r.
Proof.
  intros HN (self, mu) H. destruct (solve_fxdocc_spec _ _ _ _ _ _ _ _ _ _ _ _ H) as (n & x0 & x & E & _). now apply HN in E.
Qed.
End Solve.

Theorem solve_root_correct (ht : C -> result C) (opt : forall X, (list X -> result (list X) * list X) -> list X -> result (list X * bool)) pars self0 restricted x :
  (forall f x0 y, opt C f x0 = Ok (y, true) -> exists r, fst (f y) = Ok r /\ forall e, In e r -> e = RtoC 0) ->
  solve_root ht opt pars self0 restricted = Ok x ->
  length pars = length x /\
  (forall i z es cs s, nth_error pars i = Some (z, (es, cs)) -> nth_error x i = Some s -> self_root_eq (K := CF) ht s z es cs = Ok (RtoC 0)) /\
  (restricted = true -> forall s, In s x -> snd s <= 0).
Proof.
  intros HO H. destruct (solve_root_spec ht opt pars self0 restricted) as (x0 & f & Ef & M). destruct (opt C f x0) as [(y, [|])|] eqn:E; rewrite M in H; try discriminate H.
  injection H as <-. apply HO in E. destruct E as (r & Er & Z). destruct (f y) as (a, x') eqn:Ey. cbn in Er. subst a f.
  destruct (root_zero ht pars restricted y r x' Ey Z) as (_ & A & B & D). auto.
Qed.

Section Cmp.
Variable K : Fld.
Add Field CMF : (Fth K).
Local Open Scope fld_scope.
Theorem cmpt_value (ht : K -> result K) z s g es gs : ht (z - s) = Ok g -> g <> 0 -> gf_cmpt_z ht z s es = Ok gs ->
  length gs = length es /\ forall i, (i < length es)%nat -> 1 / g - nth i es 0 + s <> 0 /\ nth i gs 0 = 1 / (1 / g - nth i es 0 + s).
Proof.
  intros Hg G0 H. unfold gf_cmpt_z in H. rewrite Hg in H. cbn [bind] in H. split; [now apply mapM_length in H|]. apply mapM_inv in H.
  induction H as [|e y es gs E F IH]; intros i Hi; [cbn in Hi; lia|]. destruct i as [|i]; [|apply IH; cbn in Hi; lia]. cbn [nth].
  apply fdiv_ok in E. destruct E as (D & ->). assert (N : 1 / g - e + s <> 0).
  { intros E. apply D. transitivity (g * (1 / g - e + s)); [field; exact G0|]. rewrite E. ring. }
  split; [exact N|]. field. repeat split; first [exact G0|exact D|idtac].
  change (1 - e * g + s * g <> 0). intros E. apply D. rewrite <- E. ring.
Qed.
End Cmp.
