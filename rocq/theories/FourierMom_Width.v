(** * The width chosen by izp2tau and tau2izp *)
From Coq Require Import List Arith ZArith Reals Lia Lra Bool String Field.
From Coquelicot Require Import Coquelicot.
From Verif Require Import Base FSum CBase CExp Herm_Proofs Stat_Model Stat_Proofs Linalg_Model Linalg_Proofs Mat Backend Matrix_Time Pole_Model Pole_Proofs2 Pole_Time Pole_Fit Pole_Spec Pole_Bridge
  Fourier_Model FourierMom_Model FourierMom_Proofs FourierMom_Main.
Import ListNotations.
Local Open Scope R_scope.

(** a minimiser: no argument at which the objective has a value gives a smaller one *)
Definition is_minimizer (minimize_scalar : (R -> result R) -> result R) : Prop :=
  forall f x, minimize_scalar f = Ok x -> forall w e, f w = Ok e -> exists e0, f x = Ok e0 /\ e0 <= e.

Lemma sqrt_le_inv a b : 0 <= a -> 0 <= b -> sqrt a <= sqrt b -> a <= b.
Proof. intros Ha Hb H. now apply sqrt_le_0. Qed.
Lemma nsum_sq_pos n (f : nat -> R) : 0 <= nsum (K := RF) n (fun i => f i ^ 2).
Proof. induction n as [|n IH]; [cbn; lra|]. cbn [nsum]. cbn [Fadd RF]. assert (0 <= f n ^ 2) by apply pow2_ge_0. lra. Qed.

Lemma poles_of_0 n : poles_of 0 n = repeat 0 n.
Proof.
  unfold poles_of. rewrite map_map. apply (list_ext _ _ 0); [now rewrite map_length, seq_length, repeat_length|]. rewrite map_length, seq_length. intros i Hi.
  rewrite nth_map_seq by exact Hi. rewrite nth_repeat. ring.
Qed.
Lemma ones_rank n : (1 <= n)%nat -> full_row_rank RF (vander (poles_of 0 n) 1).
Proof.
  intros Hn u Hz i Hi. cbn [vander nr nc me] in *. assert (i = 0)%nat by lia. subst i. rewrite poles_of_length in Hz. specialize (Hz 0%nat ltac:(lia)).
  cbn [nsum fpow] in Hz. cbn [Fadd Fmul F0 F1 RF car] in *. lra.
Qed.
(** all poles at zero and only the first moment *)
Lemma green_z_zero n z (r : list R) : List.length r = n -> gfun z (repeat 0 n) r = Cdiv (RtoC (moments (K := RF) (repeat 0 n) r 1)) z.
Proof.
  intros Hr. rewrite gfun_spec, (moments_spec RF). revert r Hr. induction n as [|n IH]; intros [|a r] Hr; try discriminate Hr; cbn [repeat green_z moment fpow].
  - apply C_ext; cbn; ring.
  - rewrite IH by (cbn in Hr; lia). cbn [Fadd Fmul F1 RF car]. rewrite RtoC_plus, RtoC_mult. unfold Cdiv. replace (z - RtoC 0)%C with z by ring. ring.
Qed.
Lemma green_tau_zero n beta t (r : list R) : List.length r = n -> green_tau t (repeat 0 n) r beta = - (moments (K := RF) (repeat 0 n) r 1) / 2.
Proof.
  intros Hr. rewrite (moments_spec RF). revert r Hr. induction n as [|n IH]; intros [|a r] Hr; try discriminate Hr; cbn [repeat green_tau moment fpow].
  - cbn. field.
  - rewrite IH by (cbn in Hr; lia). cbn [Fadd Fmul F1 RF car]. rewrite !Rmult_0_r, Ropp_0, exp_0. field.
Qed.

Section Fit.
Variable qr : mat RF -> mat RF * mat RF.
Variable tri : mat RF -> list R -> result (list R).
Variable lstsq : mat RF -> list R -> list R * list R.
Variable allclose0 : list R -> bool.
Hypothesis HB : backend_ok RF (fun x => x) rle qr tri lstsq allclose0.
Notation EC := (Linalg_Model.lstsq_ec (K := RF) (fun x => x) qr tri lstsq allclose0).
Variable minimize_scalar : (R -> result R) -> result R.
Hypothesis HM : is_minimizer minimize_scalar.

Lemma from_z_zero z gfz n m : List.length gfz = List.length z -> (1 <= n)%nat -> (forall w, In w z -> w <> RtoC 0) ->
  exists r : list R, gf_from_z lstsq EC z gfz n [m] (Some 0) None = Ok (repeat 0 n, r) /\ List.length r = n /\ moments (K := RF) (repeat 0 n) r 1 = m.
Proof.
  intros Hg Hn Hz. unfold gf_from_z. rewrite pts_ok by exact Hn. cbn [bind]. fold (fit_width (Some 0) [m] n). fold (poles_of (fit_width (Some 0) [m] n) n).
  change (fit_width (Some 0) [m] n) with 0. set (ps := poles_of 0 n).
  assert (Hp : List.length ps = n) by apply poles_of_length.
  assert (HH : hits_pole z ps = false). { apply hits_pole_false. intros w p Hw Hin. unfold ps in Hin. rewrite poles_of_0 in Hin. apply repeat_spec in Hin. subst p. now apply Hz. }
  rewrite HH. change (List.length [m]) with 1%nat. replace (n <? 1)%nat with false by (symmetry; apply Nat.ltb_ge; lia). change (0 <? 1)%nat with true. cbv iota.
  destruct (lstsq_ec_full RF (fun x => x) qr tri lstsq allclose0 rle CJR (z_matrix z ps None) (z_rhs gfz None) (vander ps 1) [m] HB)
      as (x & E & Hx & Hcx & _); [cbn; lia|reflexivity|rewrite z_rhs_length; cbn [z_matrix nr]; lia|reflexivity|now apply ones_rank|].
  change (list (car RF)) with (list R) in *. rewrite E. cbn [bind]. exists x. assert (Lx : List.length x = n) by exact (eq_trans Hx Hp).
  split; [apply (f_equal Ok); apply (f_equal (fun q => (q, x))); exact (poles_of_0 n)|]. split; [exact Lx|].
  unfold ps in Hcx. rewrite poles_of_0 in Hcx. apply (proj1 (vander_moments (repeat 0 n) x [m] 1 n (repeat_length _ _) Lx eq_refl)) with (k := 0%nat) in Hcx; [exact Hcx|lia].
Qed.
Lemma from_tau_zero g n beta m weight : 0 <= beta -> (1 <= n)%nat ->
  exists r : list R, gf_from_tau lstsq EC g n beta [m] 0 0 weight = Ok (repeat 0 n, r) /\ List.length r = n /\ moments (K := RF) (repeat 0 n) r 1 = m.
Proof.
  intros Hb Hn. unfold gf_from_tau. rewrite pts_ok by exact Hn. cbn [bind]. fold (poles_of 0 n). set (ps := poles_of 0 n).
  rewrite tau_ok_true by lra. rewrite andb_false_r. rewrite (proj2 (truthy_false 0) eq_refl).
  assert (Hp : List.length ps = n) by apply poles_of_length.
  set (a := tau_matrix (List.length g) ps beta weight). set (b := map _ (seq 0 (List.length g))).
  assert (Hrb : List.length b = nr a) by (unfold b; now rewrite map_length, seq_length).
  cbn [List.length Nat.ltb Nat.leb orb]. rewrite trunc_0, (proj2 (Z.ltb_ge _ _)) by lia. cbn [Nat.eqb].
  destruct (lstsq_ec_full RF (fun x => x) qr tri lstsq allclose0 rle CJR a b (vander ps 1) [m] HB)
      as (x & E & Hx & Hcx & _); [cbn; lia|reflexivity|exact Hrb|reflexivity|now apply ones_rank|].
  change (list (car RF)) with (list R) in *. rewrite E. cbn [bind]. exists x. assert (Lx : List.length x = n) by exact (eq_trans Hx Hp).
  split; [apply (f_equal Ok); apply (f_equal (fun q => (q, x))); exact (poles_of_0 n)|]. split; [exact Lx|].
  unfold ps in Hcx. rewrite poles_of_0 in Hcx. apply (proj1 (vander_moments (repeat 0 n) x [m] 1 n (repeat_length _ _) Lx eq_refl)) with (k := 0%nat) in Hcx; [exact Hcx|lia].
Qed.

Lemma not_real_hits (z : list C) (ps : list R) : (forall w, In w z -> snd w <> 0) -> forall w p, In w z -> In p ps -> w <> RtoC p.
Proof. intros Hz w p Hw _ E. apply (Hz w Hw). now rewrite E. Qed.
Lemma eval_z_ok (z : list C) p r : (forall w, In w z -> snd w <> 0) -> eval_z p r z = Ok (map (fun w => gfun w p r) z).
Proof. intros Hz. unfold eval_z. rewrite (proj2 (hits_pole_false z p)); [reflexivity|]. now apply not_real_hits. Qed.
Lemma norm_z (z gfz : list C) p r : List.length gfz = List.length z ->
  nsum (K := RF) (List.length gfz) (fun i => (Cmod (Cminus (nth i gfz (RtoC 0)) (nth i (map (fun w => gfun w p r) z) (RtoC 0)))) ^ 2) = dist_z z gfz None p r.
Proof.
  intros Hg. unfold dist_z. rewrite Hg. apply (nsum_ext RF). intros i Hi. rewrite (nth_map_in _ _ _ _ (RtoC 0)) by exact Hi. rewrite gfun_spec. cbn [weight_at]. rewrite Rmult_1_l.
  f_equal. rewrite <- Cmod_opp. f_equal. ring.
Qed.
Lemma linspace_pt beta n i : linspace 0 beta n i = beta * (INR i / INR (n - 1)).
Proof. unfold linspace. ring. Qed.
Lemma norm_tau g beta p r :
  nsum (K := RF) (List.length g) (fun i => (nth i g 0 - nth i (map (fun t => green_tau t p r beta) (tau_grid beta (List.length g))) 0) ^ 2) = dist_tau g beta None p r.
Proof.
  unfold dist_tau. apply (nsum_ext RF). intros i Hi. unfold tau_grid. rewrite map_map, nth_map_seq by exact Hi. rewrite linspace_pt. cbn [weight_at]. match goal with |- @eq _ ?a ?b => change (@eq R a b) end. ring.
Qed.
Lemma eval_tau_ok beta n p r : 0 <= beta -> eval_tau p r (tau_grid beta n) beta = Ok (map (fun t => green_tau t p r beta) (tau_grid beta n)).
Proof.
  intros Hb. unfold eval_tau. apply mapM_map. intros t Ht. apply gf_tau_spec. unfold tau_grid in Ht. apply in_map_iff in Ht. destruct Ht as (i & <- & Hi).
  apply in_seq in Hi. apply linspace_range; [exact Hb|lia].
Qed.
Lemma dist_z_pos z g w p r : 0 <= dist_z z g w p r.
Proof. apply nsum_sq_pos. Qed.
Lemma dist_tau_pos g b w p r : 0 <= dist_tau g b w p r.
Proof. apply nsum_sq_pos. Qed.

(** izp2tau *)
Theorem izp2tau_width (izp gfz : list C) (tau : list R) beta (moms out : list R) :
  List.length gfz = List.length izp -> izp <> [] -> (forall w, In w izp -> snd w <> 0) -> (List.length moms <= List.length izp)%nat -> (forall t, In t tau -> 0 <= t <= beta) ->
  izp2tau lstsq EC minimize_scalar izp gfz tau beta moms = Ok out ->
  let n := List.length izp in
  exists x r, out = map (fun t => green_tau t (poles_of x n) r beta) tau /\
    (x <> 0 -> List.length r = n /\ (forall k, (k < List.length moms)%nat -> moment (K := RF) (poles_of x n) r k = nth k moms 0) /\
       (forall w (r' : list R), w <> 0 -> List.length r' = n -> (forall k, (k < List.length moms)%nat -> moment (K := RF) (poles_of w n) r' k = nth k moms 0) ->
          dist_z izp gfz None (poles_of x n) r <= dist_z izp gfz None (poles_of w n) r') /\
       (forall m ms, moms = m :: ms -> dist_z izp gfz None (poles_of x n) r <= nsum (K := RF) n (fun i => Cmod (RtoC m / nth i izp (RtoC 0) - nth i gfz (RtoC 0))%C ^ 2))).
Proof.
  intros Hg Hne Hz Hm Ht H. cbv zeta. set (n := List.length izp). assert (Hn : (1 <= n)%nat) by (unfold n; destruct izp; [congruence|cbn; lia]).
  unfold izp2tau, z2polegf in H. fold n in H. cbv zeta in H. match type of H with context [minimize_scalar ?f] => set (err := f) in H end.
  destruct (minimize_scalar err) as [x|] eqn:Ex; [|discriminate H]. cbn [bind] in H. assert (Opt := HM err x Ex).
  destruct (gf_from_z lstsq EC izp gfz n moms (Some x) None) as [[p r]|] eqn:Ef; [|discriminate H]. cbn [bind fst snd] in H.
  assert (Ep := from_z_poles qr tri lstsq allclose0 _ _ _ _ _ _ _ _ Hn Ef). change (fit_width (Some x) moms n) with x in Ep. subst p.
  exists x, r. split.
  { unfold eval_tau in H. rewrite (mapM_map _ (fun t => green_tau t (poles_of x n) r beta)) in H; [now injection H as <-|]. intros t Hin. apply gf_tau_spec. now apply Ht. }
  intros Hx.
  assert (ERR : forall w, w <> 0 -> exists r' : list R, err w = Ok (sqrt (dist_z izp gfz None (poles_of w n) r')) /\ List.length r' = n /\
     gf_from_z lstsq EC izp gfz n moms (Some w) None = Ok (poles_of w n, r') /\
     (forall k, (k < List.length moms)%nat -> moment (K := RF) (poles_of w n) r' k = nth k moms 0) /\
     (forall r'' : list R, List.length r'' = n -> (forall k, (k < List.length moms)%nat -> moment (K := RF) (poles_of w n) r'' k = nth k moms 0) -> dist_z izp gfz None (poles_of w n) r' <= dist_z izp gfz None (poles_of w n) r'')).
  { intros w Hw. destruct (gf_from_z_spec qr tri lstsq allclose0 HB izp gfz n moms (Some w) None Hg Hn Hm ltac:(congruence) ltac:(now apply not_real_hits)) as (p' & r' & E & _ & L & _ & _ & M & O).
    assert (Ep := from_z_poles qr tri lstsq allclose0 _ _ _ _ _ _ _ _ Hn E). change (fit_width (Some w) moms n) with w in Ep. subst p'.
    exists r'. repeat split.
    - unfold err. rewrite (proj2 (truthy_true w) Hw). rewrite E. cbn [bind fst snd]. rewrite eval_z_ok by exact Hz. cbn [bind]. now rewrite norm_z.
    - exact L.
    - exact E.
    - intros k Hk. rewrite <- (moments_spec RF). now apply M.
    - intros r'' L'' M''. rewrite <- !z_cost_spec. apply O; [exact L''|]. intros k Hk. rewrite (moments_spec RF). now apply M''. }
  destruct (ERR x Hx) as (rx & Ex0 & Lx & Efx & Mx & Ox). rewrite Ef in Efx. injection Efx as <-.
  split; [exact Lx|]. split; [exact Mx|]. split.
  - intros w r' Hw Lr' Mr'. destruct (ERR w Hw) as (rw & Ew & _ & _ & _ & Ow). destruct (Opt w _ Ew) as (e0 & E0 & Le). rewrite Ex0 in E0. injection E0 as <-.
    apply sqrt_le_inv in Le; [|apply dist_z_pos|apply dist_z_pos]. eapply Rle_trans; [exact Le|]. now apply Ow.
  - intros m ms Em. destruct (from_z_zero izp gfz n m Hg Hn) as (r0 & E & L0 & M0). { intros w Hw E. apply (Hz w Hw). now rewrite E. }
    assert (E1 : err 0 = Ok (sqrt (dist_z izp gfz None (repeat 0 n) r0))).
    { unfold err. rewrite (proj2 (truthy_false 0) eq_refl). rewrite Em. cbn [firstn]. rewrite E. cbn [bind fst snd]. rewrite eval_z_ok by exact Hz. cbn [bind]. now rewrite norm_z. }
    destruct (Opt 0 _ E1) as (e0 & E0 & Le). rewrite Ex0 in E0. injection E0 as <-.
    apply sqrt_le_inv in Le; [|apply dist_z_pos|apply dist_z_pos]. eapply Rle_trans; [exact Le|]. apply Req_le. unfold dist_z. fold n. apply (nsum_ext RF). intros i Hi.
    rewrite <- gfun_spec, green_z_zero by exact L0. rewrite M0. cbn [weight_at]. now rewrite Rmult_1_l.
Qed.

(** tau2izp; [P w r] are the admissible residues of the fit with width w *)
Definition admissible (n : nat) (moms : list R) (beta occ w : R) (r : list R) : Prop :=
  List.length r = n /\ (forall k, (k < List.length moms)%nat -> moment (K := RF) (poles_of w n) r k = nth k moms 0) /\ (occ <> 0 -> occupation (poles_of w n) r beta = occ).
Definition best (n : nat) (moms : list R) (gftau : list R) (beta occ : R) weight w r : Prop :=
  admissible n moms beta occ w r /\ forall r', admissible n moms beta occ w r' -> dist_tau gftau beta weight (poles_of w n) r <= dist_tau gftau beta weight (poles_of w n) r'.
Lemma from_tau_best g n beta moms occ weight w : 0 < beta -> (1 <= n)%nat -> w <> 0 -> moms <> [] ->
  (occ = 0 /\ (List.length moms <= n)%nat \/ occ <> 0 /\ List.length moms = 1%nat /\ (2 <= n)%nat /\ (1 + trunc occ <= Z.of_nat n)%Z) ->
  exists r, gf_from_tau lstsq EC g n beta moms occ w weight = Ok (poles_of w n, r) /\ best n moms g beta occ weight w r.
Proof.
  intros Hb Hn Hw Hne [[-> Hm]|(Ho & H1 & Hn2 & Ht)].
  - destruct (gf_from_tau_moments qr tri lstsq allclose0 HB g n beta moms w weight ltac:(lra) Hn Hm Hw) as (p' & r' & E & _ & L & _ & _ & M & O).
    assert (Ep := from_tau_poles qr tri lstsq allclose0 g n beta moms 0 w weight p' r' Hn E). subst p'. exists r'. split; [exact E|]. split.
    + split; [exact L|]. split; [intros k Hk; rewrite <- (moments_spec RF); now apply M|]. intros X. now elim X.
    + intros r'' (L'' & M'' & _). rewrite <- !tau_cost_spec by lra. apply O; [exact L''|]. intros k Hk. rewrite (moments_spec RF). now apply M''.
  - destruct moms as [|m [|]]; try discriminate H1.
    destruct (gf_from_tau_occ1 qr tri lstsq allclose0 HB g n beta m occ w weight Hb Ho Hn2 Ht Hw) as (p' & r' & E & _ & L & M & OC & O).
    assert (Ep := from_tau_poles qr tri lstsq allclose0 g n beta [m] occ w weight p' r' Hn E). subst p'. exists r'. split; [exact E|]. split.
    + split; [exact L|]. split; [|intros _; now rewrite <- occ_spec]. intros k Hk. cbn in Hk. replace k with 0%nat by lia. rewrite <- (moments_spec RF). exact M.
    + intros r'' (L'' & M'' & OC''). rewrite <- !tau_cost_spec by lra. apply O; [exact L''| |rewrite occ_spec; now apply OC'']. rewrite (moments_spec RF). apply (M'' 0%nat). cbn; lia.
Qed.
Theorem tau2izp_width (gftau : list R) beta (izp : list C) (moments_arg : option (list R)) occ weight out :
  let n := List.length izp in
  let m1 := - last gftau 0 - nth 0 gftau 0 in
  let moms := match moments_arg with None => [m1] | Some l => l end in
  0 < beta -> gftau <> [] -> (1 <= n)%nat -> (forall w, In w izp -> snd w <> 0) -> moms <> [] ->
  (occ = 0 /\ (List.length moms <= n)%nat \/ occ <> 0 /\ List.length moms = 1%nat /\ (2 <= n)%nat /\ (1 + trunc occ <= Z.of_nat n)%Z) ->
  tau2izp lstsq EC minimize_scalar gftau beta izp moments_arg occ weight = Ok out ->
  exists x r, out = map (fun z => green_z z (poles_of x n) r) izp /\
    (x <> 0 -> best n moms gftau beta occ weight x r /\
       (forall w, w <> 0 -> exists r', best n moms gftau beta occ weight w r' /\ dist_tau gftau beta None (poles_of x n) r <= dist_tau gftau beta None (poles_of w n) r') /\
       (occ = 0 -> dist_tau gftau beta None (poles_of x n) r <= nsum (K := RF) (List.length gftau) (fun i => (- m1 / 2 - nth i gftau 0) ^ 2))).
Proof.
  intros n m1 moms Hb Hgt Hn Hz Hm Hc H. unfold tau2izp, tau2polegf in H. fold n in H.
  destruct gftau as [|g0 gr]; [congruence|]. cbv zeta in H. change (- last (g0 :: gr) 0 - g0) with m1 in H. set (gftau := g0 :: gr) in *.
  match type of H with (do _ <- (do _ <- ?m; _); _) = _ => assert (Em : m = Ok moms) end.
  { unfold moms in *. destruct moments_arg as [[|]|]; [congruence|reflexivity|reflexivity]. }
  rewrite Em in H. cbn [bind] in H. clear Em. match type of H with context [minimize_scalar ?f] => set (err := f) in H end.
  destruct (minimize_scalar err) as [x|] eqn:Ex; [|discriminate H]. cbn [bind] in H. assert (Opt := HM err x Ex).
  destruct (gf_from_tau lstsq EC gftau n beta moms occ x weight) as [[p r]|] eqn:Ef; [|discriminate H]. cbn [bind fst snd] in H.
  assert (Ep := from_tau_poles qr tri lstsq allclose0 _ _ _ _ _ _ _ _ _ Hn Ef). subst p.
  exists x, r. split.
  { rewrite eval_z_ok in H by exact Hz. injection H as <-. apply map_ext. intros w. apply gfun_spec. }
  intros Hx.
  assert (ERR : forall w, w <> 0 -> exists r' : list R, err w = Ok (sqrt (dist_tau gftau beta None (poles_of w n) r')) /\
     gf_from_tau lstsq EC gftau n beta moms occ w weight = Ok (poles_of w n, r') /\ best n moms gftau beta occ weight w r').
  { intros w Hw. destruct (from_tau_best gftau n beta moms occ weight w Hb Hn Hw Hm Hc) as (r' & E & B). exists r'. split; [|now split].
    unfold err. rewrite (proj2 (truthy_true w) Hw). rewrite E. cbn [bind fst snd]. rewrite eval_tau_ok by lra. cbn [bind]. now rewrite norm_tau. }
  destruct (ERR x Hx) as (rx & Ex0 & Efx & Bx). rewrite Ef in Efx. injection Efx as <-.
  split; [exact Bx|]. split.
  - intros w Hw. destruct (ERR w Hw) as (rw & Ew & _ & Bw). exists rw. split; [exact Bw|]. destruct (Opt w _ Ew) as (e0 & Ee0 & Le). rewrite Ex0 in Ee0. injection Ee0 as <-.
    apply sqrt_le_inv in Le; [exact Le|apply dist_tau_pos|apply dist_tau_pos].
  - intros ->. destruct (from_tau_zero gftau n beta m1 weight ltac:(lra) Hn) as (r0 & E & L0 & M0).
    assert (E1 : err 0 = Ok (sqrt (dist_tau gftau beta None (repeat 0 n) r0))).
    { unfold err. rewrite (proj2 (truthy_false 0) eq_refl). rewrite E. cbn [bind fst snd]. rewrite eval_tau_ok by lra. cbn [bind]. now rewrite norm_tau. }
    destruct (Opt 0 _ E1) as (e0 & Ee0 & Le). rewrite Ex0 in Ee0. injection Ee0 as <-.
    apply sqrt_le_inv in Le; [|apply dist_tau_pos|apply dist_tau_pos]. eapply Rle_trans; [exact Le|]. apply Req_le. unfold dist_tau. apply (nsum_ext RF). intros i Hi.
    rewrite green_tau_zero by exact L0. rewrite M0. cbn [weight_at]. now rewrite Rmult_1_l.
Qed.
End Fit.

(** a minimiser that always succeeds if there is a minimum *)
From Coq Require Import ClassicalEpsilon.
Definition minimum_at (f : R -> result R) (x : R) : Prop := forall w e, f w = Ok e -> exists e0, f x = Ok e0 /\ e0 <= e.
Definition minimize_eps (f : R -> result R) : result R :=
  match excluded_middle_informative (exists x, minimum_at f x) with left H => Ok (proj1_sig (constructive_indefinite_description _ H)) | right _ => Err OutOfFuel end.
Lemma minimize_eps_ok : is_minimizer minimize_eps /\ forall f, (exists x, minimum_at f x) -> exists x, minimize_eps f = Ok x.
Proof.
  split.
  - intros f x. unfold minimize_eps. destruct (excluded_middle_informative _) as [H|]; [|discriminate]. destruct (constructive_indefinite_description _ H) as (y & Hy). cbn [proj1_sig]. intros [= <-]. exact Hy.
  - intros f H. unfold minimize_eps. destruct (excluded_middle_informative _) as [H'|]; [|contradiction]. eexists. reflexivity.
Qed.
Lemma poles_of_1 w : poles_of w 1 = [0].
Proof. unfold poles_of. cbn [seq map]. f_equal. unfold cheb. cbn [INR]. replace (1 / 2 * PI / 1 * (- (1) + 1 + 2 * 0)) with 0 by field. rewrite sin_0. ring. Qed.
Lemma izp2tau_eps qr tri lstsq allclose0 (HB : backend_ok RF (fun x => x) rle qr tri lstsq allclose0) (z g : C) m : snd z <> 0 ->
  izp2tau lstsq (Linalg_Model.lstsq_ec (K := RF) (fun x => x) qr tri lstsq allclose0) minimize_eps [z] [g] [0; 1] 1 [m] = Ok [- m / 2; - m / 2].
Proof.
  intros Hz. set (EC := Linalg_Model.lstsq_ec _ _ _ _ _).
  assert (Hz' : forall w, In w [z] -> snd w <> 0) by (intros w [<-|[]]; exact Hz).
  assert (FIT : forall x, gf_from_z lstsq EC [z] [g] 1 [m] (Some x) None = Ok ([0], [m])).
  { assert (U : forall r : list R, List.length r = 1%nat -> moments (K := RF) [0] r 1 = m -> r = [m]).
    { intros [|a [|]] L M; try discriminate L. unfold moments in M. cbn in M. f_equal. lra. }
    intros x. destruct (Req_dec x 0) as [->|Hx].
    - destruct (from_z_zero qr tri lstsq allclose0 HB [z] [g] 1 m eq_refl (le_n 1)) as (r & E & L & M). { intros w Hw E. apply (Hz' w Hw). now rewrite E. }
      rewrite (U r L M) in E. exact E.
    - destruct (gf_from_z_spec qr tri lstsq allclose0 HB [z] [g] 1 [m] (Some x) None eq_refl (le_n 1) (le_n 1) ltac:(congruence) ltac:(now apply not_real_hits)) as (p' & r' & E & _ & L & _ & _ & M & _).
      assert (Ep := from_z_poles qr tri lstsq allclose0 _ _ _ _ _ _ _ _ (le_n 1) E). change (fit_width (Some x) [m] 1) with x in Ep. rewrite poles_of_1 in Ep. subst p'.
      rewrite (U r' L (M 0%nat ltac:(cbn; lia))) in E. exact E. }
  unfold izp2tau, z2polegf. cbn [List.length]. match goal with |- context [minimize_eps ?f] => set (err := f) end.
  destruct (proj2 minimize_eps_ok err) as (x & Ex).
  { exists 0. assert (C0 : forall w w', err w = err w'). { intros w w'. unfold err. cbn [firstn]. replace (if truthy w then [m] else [m]) with [m] by (now destruct (truthy w)). replace (if truthy w' then [m] else [m]) with [m] by (now destruct (truthy w')). now rewrite !FIT. }
    intros w e He. exists e. split; [now rewrite (C0 0 w)|lra]. }
  rewrite Ex. cbn [bind]. rewrite FIT. cbn [bind fst snd]. unfold eval_tau. rewrite (mapM_map _ (fun t => green_tau t [0] [m] 1)) by (intros t [<-|[<-|[]]]; apply gf_tau_spec; lra).
  cbn [map]. rewrite !(green_tau_zero 1 1 _ [m] eq_refl). unfold moments. cbn. do 2 f_equal; [|f_equal]; field.
Qed.
