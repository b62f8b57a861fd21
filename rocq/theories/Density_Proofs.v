(** * Proofs about density_iw and chemical_potential *)
From Coq Require Import List Arith ZArith Reals Lia Lra Bool Psatz.
From Coquelicot Require Import Coquelicot.
From Verif Require Import Base FSum CBase CExp Stat_Model Stat_Proofs Herm_Proofs LinPred_Burg Linalg_Model Linalg_Proofs Mat Cauchy Backend
  Pole_Model Pole_Proofs Pole_Proofs2 Pole_Time Pole_Fit Density_Model.
Import ListNotations.
Local Open Scope R_scope.

(** ** chemical_potential *)
Section CP.
Variable f : R -> R.
Variable root_scalar : (R -> R) -> R * R -> result (R * bool).

Definition reach (mu0 step : R) (k : nat) : R := mu0 + step * 2 ^ k.
Definition prev (mu0 step : R) (k : nat) : R := match k with O => mu0 | S j => reach mu0 step j end.
Definition finish (mu0 step : R) (k : nat) : result R :=
  do res <- root_scalar f (Rmin (prev mu0 step k) (reach mu0 step k), Rmax (prev mu0 step k) (reach mu0 step k));
  if snd res then Ok (fst res) else Err RuntimeError.

Lemma search_spec K mu0 s step mu1 :
  (exists k, (k <= K)%nat /\ (forall j, (j < k)%nat -> sgn (f (reach mu0 step j)) = s) /\ sgn (f (reach mu0 step k)) <> s /\
     search f K mu0 s mu1 step = Ok (match k with O => mu1 | S j => reach mu0 step j end, reach mu0 step k)) \/
  ((forall j, (j <= K)%nat -> sgn (f (reach mu0 step j)) = s) /\ search f K mu0 s mu1 step = Err RuntimeError).
Proof.
  revert step mu1; induction K as [|K IH]; intros step mu1; cbn [search];
    assert (R0 : reach mu0 step 0 = mu0 + step) by (unfold reach; cbn; ring);
    (destruct (Req_EM_T (sgn (f (mu0 + step))) s) as [E|E];
      [|left; exists 0%nat; split; [lia|]; split; [intros; lia|]; rewrite R0; split; [exact E|reflexivity]]).
  - right. split; [|reflexivity]. intros j Hj. replace j with 0%nat by lia. now rewrite R0.
  - assert (RS : forall j, reach mu0 (step * 2) j = reach mu0 step (S j)) by (intros j; unfold reach; cbn [pow]; ring).
    destruct (IH (step * 2) (mu0 + step)) as [(k & Hk & H1 & H2 & H3)|(H1 & H2)].
    + left. exists (S k). split; [lia|]. split; [|split].
      * intros [|j] Hj; [now rewrite R0|]. rewrite <- RS. apply H1. lia.
      * now rewrite <- RS.
      * rewrite H3. rewrite <- RS. destruct k; [now rewrite R0|now rewrite RS].
    + right. split; [|exact H2]. intros [|j] Hj; [now rewrite R0|]. rewrite <- RS. apply H1. lia.
Qed.

Theorem chemical_potential_cases mu0 step0 : let step := - step0 * f mu0 in
  (f mu0 = 0 /\ chemical_potential f root_scalar mu0 step0 = Ok mu0) \/
  (f mu0 <> 0 /\ (exists k, (k <= 100)%nat /\ (forall j, (j < k)%nat -> sgn (f (reach mu0 step j)) = sgn (f mu0)) /\
      sgn (f (reach mu0 step k)) <> sgn (f mu0) /\ chemical_potential f root_scalar mu0 step0 = finish mu0 step k)) \/
  (f mu0 <> 0 /\ (forall j, (j <= 100)%nat -> sgn (f (reach mu0 step j)) = sgn (f mu0)) /\
      chemical_potential f root_scalar mu0 step0 = Err RuntimeError).
Proof.
  cbv zeta. unfold chemical_potential. destruct (Req_EM_T (f mu0) 0) as [E|E]; [left; auto|right].
  destruct (search_spec 100 mu0 (sgn (f mu0)) (- step0 * f mu0) mu0) as [(k & Hk & H1 & H2 & H3)|(H1 & H2)].
  - left. split; [exact E|]. exists k. repeat split; auto. rewrite H3. cbn [bind fst snd]. unfold finish.
    destruct k; reflexivity.
  - right. rewrite H2. auto.
Qed.

Lemma sgn_neg x : x < 0 -> sgn x = -1.
Proof. intros H. unfold sgn. destruct (Rlt_dec 0 x); [lra|]. destruct (Rlt_dec x 0); lra. Qed.
Lemma sgn_pos x : 0 < x -> sgn x = 1.
Proof. intros H. unfold sgn. destruct (Rlt_dec 0 x); lra. Qed.
Lemma sgn_eq x y : x <> 0 -> (sgn x = sgn y <-> 0 < x * y).
Proof.
  intros Hx. unfold sgn. destruct (Rlt_dec 0 x); destruct (Rlt_dec 0 y); destruct (Rlt_dec x 0); destruct (Rlt_dec y 0); split; intros; try lra; try nra.
Qed.

(** what a successful return means *)
Theorem chemical_potential_ok mu0 step0 mu : chemical_potential f root_scalar mu0 step0 = Ok mu ->
  (mu = mu0 /\ f mu0 = 0) \/
  (exists a b, a <= b /\ f a * f b <= 0 /\ root_scalar f (a, b) = Ok (mu, true)).
Proof.
  intros H. destruct (chemical_potential_cases mu0 step0) as [(E & E2)|[(E & k & Hk & H1 & H2 & H3)|(E & H1 & H2)]].
  - left. rewrite E2 in H. injection H as <-. auto.
  - right. rewrite H3 in H. unfold finish in H. set (step := - step0 * f mu0) in *.
    set (a := prev mu0 step k) in *. set (b := reach mu0 step k) in *. exists (Rmin a b), (Rmax a b).
    split; [apply Rle_trans with a; [apply Rmin_l|apply Rmax_l]|]. split.
    + assert (Sa : sgn (f a) = sgn (f mu0)) by (unfold a; destruct k; [reflexivity|apply H1; lia]).
      assert (P : f a * f b <= 0).
      { destruct (Rle_dec (f a * f b) 0) as [|N]; [assumption|]. exfalso. apply H2. rewrite <- Sa. symmetry. apply sgn_eq; nra. }
      unfold Rmin, Rmax. destruct (Rle_dec a b); lra.
    + destruct (root_scalar f (Rmin a b, Rmax a b)) as [[r c]|]; [|discriminate]. cbn [bind fst snd] in H. destruct c; [|discriminate].
      now injection H as ->.
  - rewrite H2 in H. discriminate.
Qed.
(** ... with a continuous occupation and a root finder that finds a root of every valid bracket *)
Theorem chemical_potential_root mu0 step0 mu :
  (forall a b r, a <= b -> f a * f b <= 0 -> root_scalar f (a, b) = Ok (r, true) -> f r = 0) ->
  chemical_potential f root_scalar mu0 step0 = Ok mu -> f mu = 0.
Proof.
  intros HR H. apply chemical_potential_ok in H. destruct H as [(-> & E)|(a & b & H1 & H2 & H3)]; [exact E|]. now apply (HR a b).
Qed.
Theorem chemical_potential_not_converged mu0 step0 :
  (forall b, exists r, root_scalar f b = Ok (r, false)) -> f mu0 <> 0 -> chemical_potential f root_scalar mu0 step0 = Err RuntimeError.
Proof.
  intros HR Hf. destruct (chemical_potential_cases mu0 step0) as [(E & _)|[(E & k & Hk & H1 & H2 & H3)|(E & H1 & H2)]].
  - contradiction.
  - rewrite H3. unfold finish. destruct (HR (Rmin (prev mu0 (- step0 * f mu0) k) (reach mu0 (- step0 * f mu0) k), Rmax (prev mu0 (- step0 * f mu0) k) (reach mu0 (- step0 * f mu0) k))) as (r & ->).
    reflexivity.
  - exact H2.
Qed.

(** monotone occupation: a bracket is found iff a sign change lies within reach of the last step *)
Theorem chemical_potential_monotone mu0 step0 : (forall x y, x <= y -> f x <= f y) -> 0 < step0 -> f mu0 <> 0 ->
  let last := reach mu0 (- step0 * f mu0) 100 in
  (0 < f last * f mu0 -> chemical_potential f root_scalar mu0 step0 = Err RuntimeError) /\
  (f last * f mu0 <= 0 -> exists k, (k <= 100)%nat /\ chemical_potential f root_scalar mu0 step0 = finish mu0 (- step0 * f mu0) k /\
      f (prev mu0 (- step0 * f mu0) k) * f (reach mu0 (- step0 * f mu0) k) <= 0).
Proof.
  intros HM Hs Hf last. assert (Est : exists step, step = - step0 * f mu0) by (eexists; reflexivity). destruct Est as (step & Est). unfold last. clear last. rewrite <- Est. set (last := reach mu0 step 100).
  assert (MR : forall j, (j <= 100)%nat -> (0 < step -> reach mu0 step j <= last) /\ (step < 0 -> last <= reach mu0 step j)).
  { intros j Hj. unfold last, reach. assert (P : 2 ^ j <= 2 ^ 100) by (apply Rle_pow; [lra|exact Hj]).
    split; intros Hst; nra. }
  assert (S0 : f mu0 < 0 /\ 0 < step \/ 0 < f mu0 /\ step < 0).
  { rewrite Est. destruct (Rtotal_order (f mu0) 0) as [L|[L|L]]; [left|contradiction|right]; split; nra. }
  destruct (chemical_potential_cases mu0 step0) as [(E & _)|[(E & k & Hk & H1 & H2 & H3)|(E & H1 & H2)]]; [contradiction| |]; try rewrite <- Est in *.
  - split.
    + intros HL. exfalso. apply H2. symmetry. apply sgn_eq; [exact Hf|]. destruct (MR k Hk) as (M1 & M2).
      destruct S0 as [(A & B)|(A & B)].
      * assert (X := HM _ _ (M1 B)). nra.
      * assert (X := HM _ _ (M2 B)). nra.
    + intros _. exists k. split; [exact Hk|]. split; [exact H3|].
      assert (Sa : sgn (f (prev mu0 step k)) = sgn (f mu0)) by (destruct k; [reflexivity|apply H1; lia]).
      destruct (Rle_dec (f (prev mu0 step k) * f (reach mu0 step k)) 0) as [|N]; [assumption|]. exfalso. apply H2. rewrite <- Sa. symmetry. apply sgn_eq; nra.
  - split; [intros _; exact H2|]. intros HL. exfalso. assert (X := H1 100%nat (le_n _)). fold last in X. symmetry in X. apply sgn_eq in X; [nra|exact Hf].
Qed.
End CP.

Lemma nsum_nonpos_0 (g : nat -> R) m : (forall i, 0 <= g i) -> nsum (K := RF) m g <= 0 -> forall i, (i < m)%nat -> g i = 0.
Proof.
  intros P. assert (Q : forall m, 0 <= nsum (K := RF) m g).
  { intros k. induction k as [|k IH]; [cbn; lra|]. cbn [nsum]. specialize (P k). cbn [Fadd RF]. lra. }
  induction m as [|m IH]; intros H i Hi; [lia|]. cbn [nsum] in H. specialize (P m) as Pm. specialize (Q m) as Qm. cbn [Fadd RF] in H.
  destruct (Nat.eq_dec i m) as [->|N]; [lra|apply IH; [lra|lia]].
Qed.

(** ** density_iw *)
Section D.
Variable qr : mat RF -> mat RF * mat RF.
Variable tri : mat RF -> list R -> result (list R).
Variable lstsq : mat RF -> list R -> list R * list R.
Variable allclose0 : list R -> bool.
Variable solve : mat RF -> list R -> result (list R).
Hypothesis HB : backend_ok RF (fun x => x) rle qr tri lstsq allclose0.
Hypothesis HS : solve_spec RF solve.
Notation EC := (Linalg_Model.lstsq_ec (K := RF) (fun x => x) qr tri lstsq allclose0).
Notation density := (density_iw lstsq EC solve).

(** error of the quadrature of a pole function *)
Definition quad (iws : list C) (beta : R) (weights poles resid : list R) : R :=
  2 / beta * nsum (K := RF) (length iws) (fun i => nth i weights 0 * fst (gfun (nth i iws 0%C) poles resid)).

Lemma density_given iws gf_iw beta weights moms n_fit poles resid :
  (if (n_fit =? 0)%nat then gf_from_moments (K := RF) Rabs (fun x => x) solve moms None
   else gf_from_z lstsq EC iws gf_iw (n_fit + length moms) moms None (Some (map (fun w => (snd w) ^ (length moms + n_fit)) iws))) = Ok (poles, resid) ->
  (forall (w : C) (p : R), In w iws -> In p poles -> w <> RtoC p) ->
  density iws gf_iw beta weights moms n_fit
  = Ok (2 / beta * nsum (K := RF) (length iws) (fun i => nth i weights 0 * fst (nth i gf_iw 0%C)) - quad iws beta weights poles resid + pole_occ poles resid beta).
Proof.
  intros E Hz. unfold density_iw. cbv zeta. refine (eq_trans (f_equal (fun r => bind r _) E) _). cbn [bind]. apply hits_pole_false in Hz. rewrite Hz. apply (f_equal Ok).
  unfold quad. fold (gfun). apply (f_equal (fun x => x + pole_occ poles resid beta)).
  rewrite <- Rmult_minus_distr_l. apply (f_equal (Rmult (2 / beta))).
  etransitivity; [|exact (nsum_sub RF _ _ _)]. apply (nsum_ext RF). intros i Hi. exact (Rmult_minus_distr_l _ _ _).
Qed.

(** every pole function: the error is the quadrature error of the difference to the tail *)
Theorem density_iw_error iws beta weights moms P W poles resid :
  gf_from_moments (K := RF) Rabs (fun x => x) solve moms None = Ok (poles, resid) ->
  (forall (w : C) (p : R), In w iws -> In p poles -> w <> RtoC p) ->
  exists n, density iws (map (fun z => gfun z P W) iws) beta weights moms 0 = Ok n /\
    n - pole_occ P W beta = (quad iws beta weights P W - pole_occ P W beta) - (quad iws beta weights poles resid - pole_occ poles resid beta).
Proof.
  intros E Hz. rewrite (density_given _ _ _ _ _ 0%nat poles resid) by assumption. eexists. split; [reflexivity|].
  unfold quad at 2.
  rewrite (nsum_ext RF (length iws) _ (fun i => nth i weights 0 * fst (gfun (nth i iws 0%C) P W))).
  - unfold quad. ring.
  - intros i Hi. apply (f_equal (fun x : C => nth i weights 0 * fst x)). exact (nth_map_in _ _ _ _ (RtoC 0) Hi).
Qed.
Corollary density_iw_tail iws beta weights moms : moms <> [] ->
  exists poles resid, gf_from_moments (K := RF) Rabs (fun x => x) solve moms None = Ok (poles, resid) /\
    (forall k, (k < length moms)%nat -> moments (K := RF) poles resid (S k) = nth k moms 0) /\
    ((forall (w : C) (p : R), In w iws -> In p poles -> w <> RtoC p) ->
     density iws (map (fun z => gfun z poles resid) iws) beta weights moms 0 = Ok (pole_occ poles resid beta)).
Proof.
  intros Hm. destruct (gf_from_moments_spec RF Rabs (fun x => x) solve (fun x y E => E) HS moms None Hm ltac:(discriminate)) as (p & r & E & _ & _ & _ & _ & HM).
  exists p, r. split; [exact E|]. split.
  - intros k Hk. specialize (HM k Hk). now rewrite map_id in HM.
  - intros Hz. destruct (density_iw_error iws beta weights moms p r p r E Hz) as (n & En & Hn). rewrite En. f_equal. lra.
Qed.

(** n_fit: a pole function on the fitted poles with the given moments is recovered *)
Theorem density_iw_fit (iws : list C) beta weights (moms : list R) n_fit (resid0 : list R) : (1 <= n_fit)%nat ->
  let n := (n_fit + length moms)%nat in
  let poles := poles_of (fit_width None moms n) n in
  NoDup iws -> (forall w : C, In w iws -> 0 < snd w) -> (n <= 2 * length iws)%nat ->
  length resid0 = n -> (forall k, (k < length moms)%nat -> moments (K := RF) poles resid0 (S k) = nth k moms 0) ->
  density iws (map (fun z => gfun z poles resid0) iws) beta weights moms n_fit = Ok (pole_occ poles resid0 beta).
Proof.
  intros Hf n poles HND Him HN Hr0 HM0. set (gf := map (fun z => gfun z poles resid0) iws).
  assert (Hz : forall (w : C) (p : R), In w iws -> In p poles -> w <> RtoC p).
  { intros w p Hw _ E. specialize (Him w Hw). rewrite E in Him. cbn in Him. lra. }
  set (weight := Some (map (fun w : C => (snd w) ^ (length moms + n_fit)) iws)).
  assert (Hgl : length gf = length iws) by (unfold gf; now rewrite map_length).
  assert (Hgn : forall i, (i < length iws)%nat -> nth i gf 0%C = gfun (nth i iws 0%C) poles resid0) by (intros i Hi; exact (nth_map_in _ _ _ _ (RtoC 0) Hi)).
  destruct (gf_from_z_spec qr tri lstsq allclose0 HB iws gf n moms None weight Hgl ltac:(unfold n; lia) ltac:(unfold n; lia) ltac:(discriminate) Hz)
    as (ps & r & E & Lp & Lr & _ & _ & HM & Hopt).
  assert (Eps : ps = poles).
  { unfold gf_from_z in E. rewrite pts_ok in E by (unfold n; lia). cbn [bind] in E.
    destruct (if (0 <? length moms)%nat then _ else _) as [x|]; [|discriminate]. cbn [bind] in E. now injection E as <- _. }
  subst ps.
  assert (Hwt : forall i, (i < length iws)%nat -> 0 < wt weight i).
  { intros i Hi. unfold weight, wt. rewrite (nth_map_in _ _ _ _ (RtoC 0)) by exact Hi. apply pow_lt. apply Him, nth_In, Hi. }
  assert (C0 : z_cost iws gf weight poles resid0 = 0).
  { unfold z_cost. apply (nsum_0' RF). intros i Hi. rewrite (Hgn i Hi).
    replace (gfun (nth i iws 0) poles resid0 - gfun (nth i iws 0) poles resid0)%C with (RtoC 0) by ring. rewrite Cmod_0. change ((wt weight i * 0) ^ 2 = 0). ring. }
  assert (Hle := Hopt resid0 Hr0 HM0). rewrite C0 in Hle.
  assert (Heq : forall i, (i < length iws)%nat -> gfun (nth i iws 0%C) poles r = gfun (nth i iws 0%C) poles resid0).
  { assert (T : forall i, (i < length iws)%nat -> (wt weight i * Cmod (gfun (nth i iws 0%C) poles r - nth i gf 0%C)%C) ^ 2 = 0).
    { apply (nsum_nonpos_0 (fun i => (wt weight i * Cmod (gfun (nth i iws 0%C) poles r - nth i gf 0%C)%C) ^ 2)); [intros; apply pow2_ge_0|exact Hle]. }
    intros i Hi. specialize (T i Hi). specialize (Hwt i Hi).
    assert (Z : Cmod (gfun (nth i iws 0%C) poles r - nth i gf 0%C)%C = 0).
    { set (c := Cmod _) in *. clearbody c. clear - T Hwt. generalize dependent (wt weight i). intros v T Hv. assert (v * c = 0) by nra. destruct (Rmult_integral _ _ H); lra. }
    apply Cmod_eq_0 in Z. rewrite (Hgn i Hi) in Z.
    replace (gfun (nth i iws 0%C) poles r) with (gfun (nth i iws 0%C) poles r - gfun (nth i iws 0%C) poles resid0 + gfun (nth i iws 0%C) poles resid0)%C by ring.
    rewrite Z. ring. }
  (* residues are unique *)
  assert (Er : r = resid0).
  { assert (W : fit_width None moms n <> 0) by (apply width_nonzero; unfold n; [lia|lia|discriminate]).
    assert (Lpo : length poles = n) by apply poles_of_length.
    set (zz := fun i => if (i <? length iws)%nat then nth i iws 0%C else Cconj (nth (i - length iws) iws 0%C)).
    assert (HD : forall j, (j < n)%nat -> RtoC (nth j r 0 - nth j resid0 0) = RtoC 0).
    { apply (cauchy_inj CF n (fun j => RtoC (nth j poles 0)) zz (fun j => RtoC (nth j r 0 - nth j resid0 0))).
      - intros i j Hi Hj EE. apply (poles_of_distinct (fit_width None moms n) n W i j Hi Hj). now apply RtoC_inj.
      - intros i j Hi Hj EE. unfold zz in EE.
        assert (PI1 : forall k, (k < length iws)%nat -> 0 < snd (nth k iws 0%C)) by (intros; apply Him, nth_In; assumption).
        destruct (Nat.ltb_spec i (length iws)) as [Li|Li]; destruct (Nat.ltb_spec j (length iws)) as [Lj|Lj].
        + apply (proj1 (NoDup_nth iws 0%C) HND i j Li Lj EE).
        + exfalso. assert (A := PI1 i Li). assert (B := PI1 (j - length iws)%nat ltac:(lia)). apply (f_equal snd) in EE. cbn [Cconj snd] in EE. lra.
        + exfalso. assert (A := PI1 j Lj). assert (B := PI1 (i - length iws)%nat ltac:(lia)). apply (f_equal snd) in EE. cbn [Cconj snd] in EE. lra.
        + assert (EE2 : nth (i - length iws) iws 0%C = nth (j - length iws) iws 0%C) by (rewrite <- (Cconj_conj (nth (i - length iws) iws 0%C)), EE; apply Cconj_conj).
          assert (X := proj1 (NoDup_nth iws 0%C) HND (i - length iws)%nat (j - length iws)%nat ltac:(lia) ltac:(lia) EE2). lia.
      - intros i j Hi Hj EE. unfold zz in EE. assert (PI1 : forall k, (k < length iws)%nat -> 0 < snd (nth k iws 0%C)) by (intros; apply Him, nth_In; assumption).
        apply (f_equal snd) in EE. destruct (Nat.ltb_spec i (length iws)) as [Li|Li].
        + specialize (PI1 i Li). cbn in EE. lra.
        + specialize (PI1 (i - length iws)%nat ltac:(lia)). cbn in EE. lra.
      - intros i Hi.
        assert (DZ : forall k, (k < length iws)%nat -> nsum (K := CF) n (fun j => Cdiv (RtoC (nth j r 0 - nth j resid0 0)) (Cminus (nth k iws 0%C) (RtoC (nth j poles 0)))) = RtoC 0).
        { intros k Hk. assert (Ek := Heq k Hk). 
          assert (G : forall rr, length rr = n -> gfun (nth k iws 0%C) poles rr = nsum (K := CF) n (fun j => Cdiv (RtoC (nth j rr 0)) (Cminus (nth k iws 0%C) (RtoC (nth j poles 0))))).
          { intros rr Hrr. unfold gfun. rewrite (lsum_nth CF). rewrite map_length, combine_length, Lpo, Hrr, Nat.min_id. apply (nsum_ext CF). intros j Hj.
            change (@F0 CF) with (RtoC 0). rewrite (nth_map_in _ _ _ _ (0, 0)) by (rewrite combine_length; lia). rewrite combine_nth by lia. reflexivity. }
          rewrite !G in Ek by assumption.
          transitivity (Cminus (nsum (K := CF) n (fun j => Cdiv (RtoC (nth j r 0)) (Cminus (nth k iws 0%C) (RtoC (nth j poles 0)))))
             (nsum (K := CF) n (fun j => Cdiv (RtoC (nth j resid0 0)) (Cminus (nth k iws 0%C) (RtoC (nth j poles 0)))))).
          - etransitivity; [|exact (nsum_sub CF _ _ _)]. apply (nsum_ext CF). intros j Hj. rewrite RtoC_minus. unfold Cdiv.
            match goal with |- ?x = Fsub ?y ?w => change (x = Cminus y w) end. ring.
          - rewrite Ek. match goal with |- ?x = _ => change (@eq C x (RtoC 0)) end. ring. }
        unfold zz. destruct (Nat.ltb_spec i (length iws)) as [Li|Li]; [exact (DZ i Li)|].
        specialize (DZ (i - length iws)%nat ltac:(lia)). apply (f_equal Cconj) in DZ.
        replace (Cconj (RtoC 0)) with (RtoC 0) in DZ by (apply C_ext; cbn; ring). refine (eq_trans _ DZ).
        rewrite nsum_conj.
        apply (nsum_ext CF). intros j Hj. 
        match goal with |- Fdiv ?x (Fsub ?y ?w) = _ => change (Cdiv x (Cminus y w) = Cconj (Cdiv x (Cminus (nth (i - length iws) iws 0%C) w))) end.
        set (zk := nth (i - length iws) iws 0%C). set (d := RtoC (nth j r 0 - nth j resid0 0)).
        assert (Hzp : Cminus zk (RtoC (nth j poles 0)) <> 0%C).
        { intros E0. apply (Hz zk (nth j poles 0)); [apply nth_In; lia|apply nth_In; lia|].
          replace zk with (Cplus (Cminus zk (RtoC (nth j poles 0))) (RtoC (nth j poles 0))) by ring. rewrite E0. ring. }
        assert (Cd : forall x : R, Cconj (RtoC x) = RtoC x) by (intros; apply C_ext; cbn; ring).
        apply (fmul_cancel_l CF (Cconj (Cminus zk (RtoC (nth j poles 0))))).
        { intros E0. apply Hzp. rewrite <- (Cconj_conj (Cminus zk (RtoC (nth j poles 0)))). change (Cconj (Cminus zk (RtoC (nth j poles 0))) = 0%C) in E0. rewrite E0. apply C_ext; cbn; ring. }
        change (Cmult (Cconj (Cminus zk (RtoC (nth j poles 0)))) (Cdiv d (Cminus (Cconj zk) (RtoC (nth j poles 0))))
           = Cmult (Cconj (Cminus zk (RtoC (nth j poles 0)))) (Cconj (Cdiv d (Cminus zk (RtoC (nth j poles 0)))))).
        rewrite <- Cconj_mult.
        replace (Cmult (Cminus zk (RtoC (nth j poles 0))) (Cdiv d (Cminus zk (RtoC (nth j poles 0))))) with d by (field; exact Hzp).
        assert (Em : Cconj (Cminus zk (RtoC (nth j poles 0))) = Cminus (Cconj zk) (RtoC (nth j poles 0))).
        { unfold Cminus. rewrite Cconj_plus. f_equal. apply C_ext; cbn; ring. }
        rewrite Em. unfold d at 2. rewrite Cd. fold d. field. rewrite <- Em. intros E0. apply Hzp.
        rewrite <- (Cconj_conj (Cminus zk (RtoC (nth j poles 0)))), E0. apply C_ext; cbn; ring. }
    apply (list_ext _ _ 0); [lia|]. intros j Hj. specialize (HD j ltac:(lia)). apply RtoC_inj in HD. change (nth j r 0 = nth j resid0 0). lra. }
  subst r.
  rewrite (density_given iws gf beta weights moms n_fit poles resid0); [| |exact Hz].
  - apply (f_equal Ok). unfold quad.
    rewrite (nsum_ext RF (length iws) (fun i => nth i weights 0 * fst (nth i gf 0%C)) (fun i => nth i weights 0 * fst (gfun (nth i iws 0%C) poles resid0))).
    + ring.
    + intros i Hi. apply (f_equal (fun x : C => nth i weights 0 * fst x)). exact (Hgn i Hi).
  - rewrite (proj2 (Nat.eqb_neq n_fit 0)) by lia. exact E.
Qed.
End D.
