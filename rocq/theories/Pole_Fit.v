(** * Proofs about the pole fits gf_from_z, gf_from_tau and density_iw *)
From Coq Require Import List Arith ZArith Reals Lia Lra Bool Psatz.
From Coquelicot Require Import Coquelicot.
From Verif Require Import Base FSum CBase CExp Stat_Model Stat_Proofs Herm_Proofs Linalg_Model Linalg_Proofs Mat ExpPoly Backend
  Pole_Model Pole_Proofs Pole_Proofs2 Pole_Time.
Import ListNotations.
Local Open Scope R_scope.

Ltac rring := match goal with |- @eq _ ?x ?y => change (@eq R x y) end; cbn [Fmul Fadd Fsub Fopp RF]; ring.

(** ** specification: weighted squared distances *)
Definition gfun (z : C) (poles resid : list R) : C :=
  lsum (K := CF) (map (fun pr => Cdiv (RtoC (snd pr)) (Cminus z (RtoC (fst pr)))) (combine poles resid)).
Definition z_cost (z gfz : list C) (weight : option (list R)) (poles resid : list R) : R :=
  nsum (K := RF) (length z) (fun i => (wt weight i * Cmod (gfun (nth i z 0%C) poles resid - nth i gfz 0%C)%C) ^ 2).
Definition tau_cost (gftau : list R) (beta : R) (weight : option (list R)) (poles resid : list R) : R :=
  nsum (K := RF) (length gftau) (fun i =>
    (wt weight i * (match gf_tau (beta * (INR i / INR (length gftau - 1))) poles resid beta with Ok g => g | Err _ => 0 end - nth i gftau 0)) ^ 2).

Lemma vsubR_length (u v : list R) : @length R (vsub (K := RF) u v) = Nat.min (@length R u) (@length R v).
Proof. exact (vsub_length RF u v). Qed.
Lemma vsubR_nth (u v : list R) i : (i < @length R u)%nat -> @length R u = @length R v -> @nth R i (vsub (K := RF) u v) 0 = @nth R i u 0 - @nth R i v 0.
Proof. exact (vsub_nth RF u v i). Qed.
Lemma mvR_length (A : mat RF) (v : list R) : @length R (mv A v) = nr A.
Proof. exact (mv_length RF A v). Qed.
Lemma mvR_nth (A : mat RF) (v : list R) i : (i < nr A)%nat -> @nth R i (mv A v) 0 = nsum (K := RF) (nc A) (fun j => me A i j * @nth R j v 0).
Proof. exact (mv_nth RF A v i). Qed.
Lemma sumsq_nsum (u : list R) n : length u = n -> fold_right (fun z s => (z * z + s)%R) 0 u = nsum (K := RF) n (fun i => nth i u 0 * nth i u 0).
Proof.
  revert n; induction u as [|a u IH]; intros n <-; [reflexivity|]. cbn [length fold_right]. rewrite (nsum_S_l RF). cbn [nth].
  now rewrite (IH (length u) eq_refl).
Qed.
Lemma rle_zero u v : rle u v -> (forall i, nth i v 0 = 0) -> forall i, nth i u 0 = 0.
Proof.
  intros H Hv. unfold rle in H.
  assert (Zv : fold_right (fun z s => (z * z + s)%R) 0 v = 0).
  { rewrite (sumsq_nsum v (length v) eq_refl). apply (nsum_0' RF). intros i Hi. rewrite Hv. cbn. ring. }
  rewrite Zv in H. clear Hv Zv v.
  assert (P : forall w : list R, 0 <= fold_right (fun z s => (z * z + s)%R) 0 w).
  { induction w as [|a w IH]; cbn; [lra|]. assert (X := Rle_0_sqr a). unfold Rsqr in X. lra. }
  induction u as [|a u IH]; intros [|i]; try reflexivity; cbn [fold_right nth] in *.
  - assert (X := Rle_0_sqr a). assert (Y := P u). apply Rsqr_0_uniq. unfold Rsqr in *. lra.
  - apply IH. assert (X := Rle_0_sqr a). unfold Rsqr in X. lra.
Qed.

Lemma fst_lsum (l : list C) : fst (lsum (K := CF) l) = lsum (K := RF) (map fst l).
Proof. induction l as [|x l IH]; [reflexivity|]. cbn [map]. rewrite (lsum_cons CF), (lsum_cons RF), <- IH. reflexivity. Qed.
Lemma snd_lsum (l : list C) : snd (lsum (K := CF) l) = lsum (K := RF) (map snd l).
Proof. induction l as [|x l IH]; [reflexivity|]. cbn [map]. rewrite (lsum_cons CF), (lsum_cons RF), <- IH. reflexivity. Qed.
Lemma lsum_combine2 (p r : list R) (f : R -> R -> R) n : length p = n -> length r = n ->
  lsum (K := RF) (map (fun pw => f (fst pw) (snd pw)) (combine p r)) = nsum (K := RF) n (fun j => f (nth j p 0) (nth j r 0)).
Proof. exact (lsum_combine RF p r f n). Qed.
Lemma Cdiv_real_l (r : R) (z : C) : Cdiv (RtoC r) z = Cmult (RtoC r) (Cdiv 1 z).
Proof. unfold Cdiv. ring. Qed.
Lemma gfun_re z p r n : length p = n -> length r = n ->
  fst (gfun z p r) = nsum (K := RF) n (fun j => nth j r 0 * fst (Cdiv 1 (Cminus z (RtoC (nth j p 0))))).
Proof.
  intros Hp Hr. unfold gfun. rewrite fst_lsum, map_map.
  rewrite <- (lsum_combine2 p r (fun p r => r * fst (Cdiv 1 (Cminus z (RtoC p)))) n Hp Hr). f_equal. apply map_ext.
  intros [a b]. cbn [fst snd]. rewrite Cdiv_real_l. cbn. ring.
Qed.
Lemma gfun_im z p r n : length p = n -> length r = n ->
  snd (gfun z p r) = nsum (K := RF) n (fun j => nth j r 0 * snd (Cdiv 1 (Cminus z (RtoC (nth j p 0))))).
Proof.
  intros Hp Hr. unfold gfun. rewrite snd_lsum, map_map.
  rewrite <- (lsum_combine2 p r (fun p r => r * snd (Cdiv 1 (Cminus z (RtoC p)))) n Hp Hr). f_equal. apply map_ext.
  intros [a b]. cbn [fst snd]. rewrite Cdiv_real_l. cbn. ring.
Qed.

Lemma z_rhs_length gfz weight : length (z_rhs gfz weight) = (2 * length gfz)%nat.
Proof. unfold z_rhs. rewrite app_length, !map_length, !seq_length. lia. Qed.

Lemma z_cost_eq z gfz weight (poles resid : list R) n : length gfz = length z -> length poles = n -> length resid = n ->
  fold_right (fun z s => (z * z + s)%R) 0 (vsub (K := RF) (mv (z_matrix z poles weight) resid) (z_rhs gfz weight))
  = z_cost z gfz weight poles resid.
Proof.
  intros Hg Hp Hr. set (a := z_matrix z poles weight). set (b := z_rhs gfz weight). set (N := length z).
  assert (HL : @length R (mv a resid) = (2 * N)%nat) by (rewrite mvR_length; reflexivity).
  assert (HB : length b = (2 * N)%nat) by (unfold b; rewrite z_rhs_length; lia).
  rewrite (sumsq_nsum _ (N + N)) by (rewrite vsubR_length, HL, HB; lia). rewrite (nsum_split RF).
  unfold z_cost. fold N. rewrite <- (nsum_add RF). apply (nsum_ext RF). intros i Hi.
  assert (E1 : nth i (vsub (K := RF) (mv a resid) b) 0 = wt weight i * (fst (gfun (nth i z 0%C) poles resid) - fst (nth i gfz 0%C))).
  { rewrite vsubR_nth by lia. rewrite mvR_nth by (cbn; fold N; lia). rewrite (gfun_re _ _ _ n) by assumption.
    unfold b, z_rhs. rewrite app_nth1 by (rewrite map_length, seq_length; lia). rewrite nth_map_seq by lia.
    cbn [a z_matrix nc me]. fold N. rewrite (proj2 (Nat.ltb_lt i N) Hi). rewrite Hp.
    rewrite (nsum_ext RF n _ (fun j => wt weight i * (nth j resid 0 * fst (Cdiv 1 (Cminus (nth i z 0%C) (RtoC (nth j poles 0))))))).
    2:{ intros j Hj. rring. }
    rewrite (nsum_mul_l RF). rring. }
  assert (E2 : nth (N + i) (vsub (K := RF) (mv a resid) b) 0 = wt weight i * (snd (gfun (nth i z 0%C) poles resid) - snd (nth i gfz 0%C))).
  { rewrite vsubR_nth by lia. rewrite mvR_nth by (cbn; fold N; lia). rewrite (gfun_im _ _ _ n) by assumption.
    unfold b, z_rhs. rewrite app_nth2 by (rewrite map_length, seq_length; lia). rewrite map_length, seq_length.
    replace (N + i - length gfz)%nat with i by lia. rewrite nth_map_seq by lia.
    cbn [a z_matrix nc me]. fold N. rewrite (proj2 (Nat.ltb_ge (N + i) N)) by lia. rewrite Hp. replace (N + i - N)%nat with i by lia.
    rewrite (nsum_ext RF n _ (fun j => wt weight i * (nth j resid 0 * snd (Cdiv 1 (Cminus (nth i z 0%C) (RtoC (nth j poles 0))))))).
    2:{ intros j Hj. rring. }
    rewrite (nsum_mul_l RF). rring. }
  change (nth i (vsub (K := RF) (mv a resid) b) 0 * nth i (vsub (K := RF) (mv a resid) b) 0 +
          nth (N + i) (vsub (K := RF) (mv a resid) b) 0 * nth (N + i) (vsub (K := RF) (mv a resid) b) 0
          = (wt weight i * Cmod (gfun (nth i z 0%C) poles resid - nth i gfz 0%C)%C) ^ 2).
  rewrite E1, E2. rewrite Rpow_mult_distr. replace (Cmod (gfun (nth i z 0%C) poles resid - nth i gfz 0%C)%C ^ 2) with
    ((fst (gfun (nth i z 0%C) poles resid) - fst (nth i gfz 0%C)) ^ 2 + (snd (gfun (nth i z 0%C) poles resid) - snd (nth i gfz 0%C)) ^ 2).
  - ring.
  - assert (M := Cmod_sqr (gfun (nth i z 0%C) poles resid - nth i gfz 0%C)%C). cbn [fst snd Cminus Cplus Copp] in M.
    set (m := Cmod _) in *. cbn in M. cbn. nra.
Qed.

(** distinct poles make the moment constraints independent *)
Lemma vander_rank w n m : w <> 0 -> (m <= n)%nat -> full_row_rank RF (vander (poles_of w n) m).
Proof.
  intros Hw Hm u Hz i Hi. cbn [vander nr nc me] in *. rewrite poles_of_length in Hz.
  apply (poly_roots RF m n (fun j => nth j (poles_of w n) 0) u); [now apply poles_of_distinct|exact Hm|exact Hz|exact Hi].
Qed.
Lemma moments_nsum (poles resid : list R) n k : length poles = n -> length resid = n ->
  moments (K := RF) poles resid (S k) = nsum (K := RF) n (fun j => nth j resid 0 * fpow (K := RF) (nth j poles 0) k).
Proof.
  intros Hp Hr. unfold moments. cbn [Nat.sub]. rewrite Nat.sub_0_r.
  exact (lsum_combine2 poles resid (fun p r => r * fpow (K := RF) p k) n Hp Hr).
Qed.
Lemma vander_moments (poles resid moms : list R) m n : length poles = n -> length resid = n -> m = length moms ->
  (mv (vander poles m) resid = moms <-> forall k, (k < m)%nat -> moments (K := RF) poles resid (S k) = nth k moms 0).
Proof.
  intros Hp Hr Hm.
  assert (E : forall k, (k < m)%nat -> moments (K := RF) poles resid (S k) = nth k (mv (vander poles m) resid) 0).
  { intros k Hk. rewrite mvR_nth by exact Hk. cbn [vander nc me]. rewrite (moments_nsum poles resid n k Hp Hr), Hp. apply (nsum_ext RF). intros j Hj. rring. }
  split.
  - intros H k Hk. rewrite E by exact Hk. now rewrite H.
  - intros H. apply (list_ext _ _ 0); [rewrite mvR_length; cbn; exact Hm|]. rewrite mvR_length. cbn [vander nr]. intros k Hk.
    rewrite <- E by exact Hk. now apply H.
Qed.

Lemma hits_pole_false z poles : hits_pole z poles = false <-> forall w p, In w z -> In p poles -> w <> RtoC p.
Proof.
  unfold hits_pole. split.
  - intros H w p Hw Hp E. assert (X : existsb (fun w => existsb (fun p => if Ceq_dec (Cminus w (RtoC p)) 0 then true else false) poles) z = true).
    { apply existsb_exists. exists w. split; [exact Hw|]. apply existsb_exists. exists p. split; [exact Hp|].
      destruct (Ceq_dec (Cminus w (RtoC p)) 0) as [|N]; [reflexivity|]. exfalso. apply N. rewrite E. ring. }
    congruence.
  - intros H. destruct (existsb _ z) eqn:E; [|reflexivity]. exfalso. apply existsb_exists in E. destruct E as (w & Hw & E).
    apply existsb_exists in E. destruct E as (p & Hp & E). destruct (Ceq_dec _ _) as [Z|]; [|discriminate].
    apply (H w p Hw Hp). replace w with (Cplus (Cminus w (RtoC p)) (RtoC p)) by ring. rewrite Z. ring.
Qed.

Section Fit.
Variable qr : mat RF -> mat RF * mat RF.
Variable tri : mat RF -> list R -> result (list R).
Variable lstsq : mat RF -> list R -> list R * list R.
Variable allclose0 : list R -> bool.
Hypothesis HB : backend_ok RF (fun x => x) rle qr tri lstsq allclose0.
Notation EC := (Linalg_Model.lstsq_ec (K := RF) (fun x => x) qr tri lstsq allclose0).
Notation from_z := (gf_from_z lstsq EC).
Notation from_tau := (gf_from_tau lstsq EC).

Lemma CJR : conj_ok RF (fun x => x).
Proof. repeat split. Qed.

Definition fit_width (width : option R) (moms : list R) (n : nat) : R :=
  pick_width width (length moms) (Rabs (nth 1 moms 0)) (map (cheb n) (seq 0 n)).

Theorem gf_from_z_spec z gfz n moms width weight :
  length gfz = length z -> (1 <= n)%nat -> (length moms <= n)%nat -> width <> Some 0 ->
  (forall w p, In w z -> In p (poles_of (fit_width width moms n) n) -> w <> RtoC p) ->
  exists poles resid, from_z z gfz n moms width weight = Ok (poles, resid) /\
    length poles = n /\ length resid = n /\ NoDup poles /\
    (forall w, width = Some w -> forall p, In p poles -> Rabs p <= Rabs w) /\
    (forall k, (k < length moms)%nat -> moments (K := RF) poles resid (S k) = nth k moms 0) /\
    (forall resid' : list R, length resid' = n -> (forall k, (k < length moms)%nat -> moments (K := RF) poles resid' (S k) = nth k moms 0) ->
       z_cost z gfz weight poles resid <= z_cost z gfz weight poles resid').
Proof.
  intros Hg Hn Hm Hw Hz. unfold gf_from_z. rewrite pts_ok by exact Hn. cbn [bind].
  fold (fit_width width moms n). fold (poles_of (fit_width width moms n) n).
  set (w := fit_width width moms n) in *. set (ps := poles_of w n) in *.
  assert (W : w <> 0) by (apply width_nonzero; [exact Hn|lia|exact Hw]).
  assert (Hp : length ps = n) by apply poles_of_length.
  assert (Hnc : nc (z_matrix z ps weight) = n) by exact Hp.
  assert (Hrb : length (z_rhs gfz weight) = nr (z_matrix z ps weight)) by (rewrite z_rhs_length; cbn [z_matrix nr]; lia).
  apply hits_pole_false in Hz. rewrite Hz.
  assert (HND : NoDup ps) by (now apply poles_of_NoDup).
  assert (HBD : forall w0, width = Some w0 -> forall p, In p ps -> Rabs p <= Rabs w0).
  { intros w0 E p Hin. replace w0 with w; [now apply poles_of_bound with n|]. unfold w, fit_width, pick_width. now rewrite E. }
  destruct (Nat.ltb_spec 0 (length moms)) as [L|L].
  - rewrite (proj2 (Nat.ltb_ge n (length moms))) by lia.
    destruct (lstsq_ec_full RF (fun x => x) qr tri lstsq allclose0 rle CJR (z_matrix z ps weight) (z_rhs gfz weight) (vander ps (length moms)) moms HB)
      as (x & E & Hx & Hcx & Hopt); [cbn; lia|cbn; reflexivity|exact Hrb|reflexivity|now apply vander_rank|].
    change (list (car RF)) with (list R) in *. rewrite E. cbn [bind]. exists ps, x. split; [reflexivity|]. rewrite Hnc in *.
    split; [exact Hp|]. split; [exact Hx|]. split; [exact HND|]. split; [exact HBD|].
    assert (VM := fun r H => vander_moments ps r moms (length moms) n Hp H eq_refl).
    split; [now apply VM|]. intros r' Hr' HM. apply (VM r' Hr') in HM. assert (O := Hopt r' Hr' HM). unfold rle in O.
    rewrite !(z_cost_eq z gfz weight ps _ n) in O by assumption. exact O.
  - cbn [bind]. destruct HB as (_ & _ & HLS & _). destruct (HLS (z_matrix z ps weight) (z_rhs gfz weight) Hrb) as (Hx & Hopt).
    rewrite Hnc in *. eexists ps, _. split; [reflexivity|].
    split; [exact Hp|]. split; [exact Hx|]. split; [exact HND|]. split; [exact HBD|]. split; [intros; lia|].
    intros r' Hr' _. assert (O := Hopt r' Hr'). unfold rle in O.
    rewrite !(z_cost_eq z gfz weight ps _ n) in O by assumption. exact O.
Qed.
Theorem gf_from_z_overconstrained z gfz n moms width weight : (1 <= n)%nat -> (n < length moms)%nat ->
  from_z z gfz n moms width weight = Err ValueError.
Proof.
  intros Hn Hm. unfold gf_from_z. rewrite pts_ok by exact Hn. cbn [bind].
  rewrite (proj2 (Nat.ltb_lt 0 (length moms))) by lia. now rewrite (proj2 (Nat.ltb_lt n (length moms))) by lia.
Qed.
Theorem gf_from_z_nopoles z gfz moms width weight : from_z z gfz 0 moms width weight = Err ZeroDivisionError.
Proof. reflexivity. Qed.

(** ** gf_from_tau *)
Lemma tau_cost_eq gftau beta weight (poles resid : list R) n : 0 <= beta -> length poles = n -> length resid = n ->
  fold_right (fun z s => (z * z + s)%R) 0 (vsub (K := RF) (mv (tau_matrix (length gftau) poles beta weight) resid)
     (map (fun i => nth i gftau 0 * wt weight i) (seq 0 (length gftau))))
  = tau_cost gftau beta weight poles resid.
Proof.
  intros Hb Hp Hr. set (N := length gftau).
  rewrite (sumsq_nsum _ N).
  2:{ rewrite vsubR_length, mvR_length, map_length, seq_length. cbn [tau_matrix nr]. lia. }
  unfold tau_cost. fold N. apply (nsum_ext RF). intros i Hi.
  assert (T : 0 <= beta * (INR i / INR (N - 1)) <= beta).
  { destruct (Nat.eq_dec N 1) as [E|E].
    - replace i with 0%nat by lia. cbn [INR]. replace (beta * (0 / INR (N - 1))) with 0; [lra|]. unfold Rdiv. ring.
    - assert (P : 0 < INR (N - 1)) by (apply lt_0_INR; lia). assert (Q : 0 <= INR i) by apply pos_INR.
      assert (Q2 : INR i <= INR (N - 1)) by (apply le_INR; lia).
      assert (0 <= INR i / INR (N - 1) <= 1).
      { split; [apply Rmult_le_pos; [exact Q|apply Rlt_le, Rinv_0_lt_compat, P]|]. apply (Rmult_le_reg_r (INR (N - 1))); [exact P|].
        unfold Rdiv. rewrite Rmult_assoc, Rinv_l by lra. lra. }
      nra. }
  unfold gf_tau. rewrite tau_ok_true by exact T.
  rewrite (lsum_combine2 poles resid (fun p r => r * single_pole_gf_tau (beta * (INR i / INR (N - 1))) p beta) n Hp Hr).
  assert (E : nth i (vsub (K := RF) (mv (tau_matrix N poles beta weight) resid) (map (fun i => nth i gftau 0 * wt weight i) (seq 0 N))) 0
     = wt weight i * (nsum (K := RF) n (fun j => nth j resid 0 * single_pole_gf_tau (beta * (INR i / INR (N - 1))) (nth j poles 0) beta) - nth i gftau 0)).
  { rewrite vsubR_nth by (rewrite ?mvR_length, ?map_length, ?seq_length; cbn [tau_matrix nr]; lia).
    rewrite mvR_nth by (cbn [tau_matrix nr]; lia). rewrite nth_map_seq by lia. cbn [tau_matrix nc me]. rewrite Hp.
    rewrite (nsum_ext RF n _ (fun j => wt weight i * (nth j resid 0 * single_pole_gf_tau (beta * (INR i / INR (N - 1))) (nth j poles 0) beta))).
    2:{ intros j Hj. unfold linspace. replace (0 + (beta - 0) * (INR i / INR (N - 1))) with (beta * (INR i / INR (N - 1))) by ring. rring. }
    rewrite (nsum_mul_l RF). rring. }
  change (nth i (vsub (K := RF) (mv (tau_matrix N poles beta weight) resid) (map (fun i => nth i gftau 0 * wt weight i) (seq 0 N))) 0 *
     nth i (vsub (K := RF) (mv (tau_matrix N poles beta weight) resid) (map (fun i => nth i gftau 0 * wt weight i) (seq 0 N))) 0
     = (wt weight i * (nsum (K := RF) n (fun j => nth j resid 0 * single_pole_gf_tau (beta * (INR i / INR (N - 1))) (nth j poles 0) beta) - nth i gftau 0)) ^ 2).
  rewrite E. ring.
Qed.

Lemma truthy_false x : truthy x = false <-> x = 0.
Proof. unfold truthy. destruct (Req_EM_T x 0); split; congruence. Qed.
Lemma truthy_true x : truthy x = true <-> x <> 0.
Proof. unfold truthy. destruct (Req_EM_T x 0); split; congruence. Qed.
Lemma trunc_0 : trunc 0 = 0%Z.
Proof. unfold trunc. destruct (Rle_dec 0 0) as [|N]; [|lra]. apply Int_part_INR with (n := 0%nat). Qed.

(** occ not given (or 0): moments honoured exactly, optimal *)
Theorem gf_from_tau_moments gftau n beta moms width weight :
  0 <= beta -> (1 <= n)%nat -> (length moms <= n)%nat -> width <> 0 ->
  exists poles resid, from_tau gftau n beta moms 0 width weight = Ok (poles, resid) /\
    length poles = n /\ length resid = n /\ NoDup poles /\ (forall p, In p poles -> Rabs p <= Rabs width) /\
    (forall k, (k < length moms)%nat -> moments (K := RF) poles resid (S k) = nth k moms 0) /\
    (forall resid' : list R, length resid' = n -> (forall k, (k < length moms)%nat -> moments (K := RF) poles resid' (S k) = nth k moms 0) ->
       tau_cost gftau beta weight poles resid <= tau_cost gftau beta weight poles resid').
Proof.
  intros Hbe Hn Hm Hw. unfold gf_from_tau. rewrite pts_ok by exact Hn. cbn [bind]. fold (poles_of width n). set (ps := poles_of width n).
  rewrite tau_ok_true by lra. rewrite andb_false_r. rewrite (proj2 (truthy_false 0) eq_refl).
  assert (Hp : length ps = n) by apply poles_of_length.
  set (a := tau_matrix (length gftau) ps beta weight). set (b := map _ _).
  assert (Hnc : nc a = n) by exact Hp.
  assert (Hrb : length b = nr a) by (unfold b; now rewrite map_length, seq_length).
  assert (HND : NoDup ps) by (now apply poles_of_NoDup).
  assert (HBD : forall p, In p ps -> Rabs p <= Rabs width) by (intros p; apply poles_of_bound).
  rewrite orb_false_r.
  destruct (Nat.ltb_spec 0 (length moms)) as [L|L].
  - rewrite trunc_0, (proj2 (Z.ltb_ge _ _)) by lia. rewrite (proj2 (Nat.eqb_neq (length moms) 0)) by lia.
    destruct (lstsq_ec_full RF (fun x => x) qr tri lstsq allclose0 rle CJR a b (vander ps (length moms)) moms HB)
      as (x & E & Hx & Hcx & Hopt); [cbn; lia|cbn; reflexivity|exact Hrb|reflexivity|now apply vander_rank|].
    change (list (car RF)) with (list R) in *. rewrite E. cbn [bind]. exists ps, x. split; [reflexivity|]. rewrite Hnc in *.
    split; [exact Hp|]. split; [exact Hx|]. split; [exact HND|]. split; [exact HBD|].
    assert (VM := fun r H => vander_moments ps r moms (length moms) n Hp H eq_refl).
    split; [now apply VM|]. intros r' Hr' HM. apply (VM r' Hr') in HM. assert (O := Hopt r' Hr' HM). unfold rle in O.
    unfold a, b in O. rewrite !(tau_cost_eq gftau beta weight ps _ n) in O by assumption. exact O.
  - cbn [bind]. destruct HB as (_ & _ & HLS & _). destruct (HLS a b Hrb) as (Hx & Hopt).
    rewrite Hnc in *. eexists ps, _. split; [reflexivity|].
    split; [exact Hp|]. split; [exact Hx|]. split; [exact HND|]. split; [exact HBD|]. split; [intros; lia|].
    intros r' Hr' _. assert (O := Hopt r' Hr'). unfold rle in O.
    unfold a, b in O. rewrite !(tau_cost_eq gftau beta weight ps _ n) in O by assumption. exact O.
Qed.

Theorem gf_from_tau_overconstrained gftau n beta moms occ width weight :
  0 <= beta -> (1 <= n)%nat -> (0 < length moms)%nat -> (Z.of_nat n < Z.of_nat (length moms) + trunc occ)%Z ->
  from_tau gftau n beta moms occ width weight = Err ValueError.
Proof.
  intros Hbe Hn Hm Hz. unfold gf_from_tau. rewrite pts_ok by exact Hn. cbn [bind]. rewrite tau_ok_true by lra. rewrite andb_false_r.
  rewrite (proj2 (Nat.ltb_lt 0 (length moms)) Hm). cbn [orb]. now rewrite (proj2 (Z.ltb_lt _ _) Hz).
Qed.

(** *** constrained occupation *)
Lemma incr_map (f : nat -> R) n : forall s x, (forall i j, (s <= i)%nat -> (i < j)%nat -> (j < s + n)%nat -> f i < f j) -> x < f s ->
  incr x (map f (seq s n)).
Proof.
  induction n as [|n IH]; intros s x Hf Hx; [exact I|]. cbn [seq map incr]. split; [exact Hx|].
  destruct n as [|n]; [exact I|]. apply IH; [|apply Hf; lia]. intros; apply Hf; lia.
Qed.
(** zeros at all scaled Chebyshev points *)
Lemma cheb_zeros w n (P Q : list R) b : w <> 0 -> b <> 0 -> (length P + length Q <= n)%nat ->
  (forall j, (j < n)%nat -> epol b P Q (w * cheb n j) = 0) -> (forall c, In c P -> c = 0) /\ (forall c, In c Q -> c = 0).
Proof.
  intros Hw Hb HL Hz. set (f := fun j => Rabs w * cheb n j).
  assert (A : 0 < Rabs w) by (now apply Rabs_pos_lt).
  apply (epol_zeros b Hb Q P (f 0%nat - 1) (map f (seq 0 n))).
  - apply incr_map; [|lra]. intros i j _ Hij Hj. unfold f. apply Rmult_lt_compat_l; [exact A|]. apply cheb_incr; lia.
  - now rewrite map_length, seq_length.
  - intros y Hy. apply in_map_iff in Hy. destruct Hy as (j & <- & Hj). apply in_seq in Hj. unfold f.
    unfold Rabs. destruct (Rcase_abs w).
    + replace (- w * cheb n j) with (w * cheb n (n - 1 - j)) by (rewrite cheb_symm by lia; ring). apply Hz. lia.
    + apply Hz. lia.
Qed.

(** independent constraints: powers and one Fermi row *)
Definition occ_rows (poles : list R) (m : nat) (beta : R) : mat RF :=
  Mat (K := RF) (m + 1) (length poles) (fun i j => if (i <? m)%nat then fpow (K := RF) (nth j poles 0) i else fermi_fct (nth j poles 0) beta).
Lemma occ_rank w n m beta : w <> 0 -> beta <> 0 -> (1 <= m)%nat -> (2 * m <= n)%nat -> full_row_rank RF (occ_rows (poles_of w n) m beta).
Proof.
  intros Hw Hb Hm1 Hm u Hz. cbn [occ_rows nr nc me] in *. rewrite poles_of_length in Hz.
  set (P := @map nat R u (seq 0 m)). set (Q := padd P [u m]).
  assert (LP : length P = m) by (unfold P; now rewrite map_length, seq_length).
  assert (LQ : length Q = m) by (unfold Q; rewrite padd_length, LP; cbn; lia).
  destruct (cheb_zeros w n P Q beta Hw Hb ltac:(lia)) as (ZP & ZQ).
  - intros j Hj. assert (E := Hz j Hj). rewrite Nat.add_1_r in E. cbn [nsum] in E.
    rewrite (proj2 (Nat.ltb_ge m m)) in E by lia.
    rewrite (nsum_ext RF m _ (fun i => nth i P 0 * fpow (K := RF) (w * cheb n j) i)) in E.
    2:{ intros i Hi. rewrite (proj2 (Nat.ltb_lt i m) Hi). unfold P. rewrite nth_map_seq by exact Hi. now rewrite poles_of_nth. }
    rewrite <- (pev_nsum P m) in E by exact LP. rewrite poles_of_nth in E by exact Hj. set (p := w * cheb n j) in *.
    change (pev P p + u m * fermi_fct p beta = 0) in E. unfold epol, Q. rewrite pev_padd. cbn [pev].
    rewrite fermi_def in E. assert (X := exp_pos (beta * p)). set (e := exp (beta * p)) in *.
    assert (E2 : pev P p * (e + 1) + u m = 0).
    { apply (Rmult_eq_reg_r (/ (e + 1))); [|apply Rinv_neq_0_compat; lra]. rewrite Rmult_0_l, <- E. field. lra. }
    lra.
  - intros i Hi. assert (ZPi : forall k, (k < m)%nat -> u k = 0).
    { intros k Hk. apply ZP. unfold P. apply in_map. apply in_seq. lia. }
    destruct (Nat.eq_dec i m) as [->|N]; [|apply ZPi; lia].
    assert (ZQ0 : nth 0 Q 0 = 0) by (apply ZQ, nth_In; lia). unfold Q in ZQ0. rewrite nth_padd in ZQ0. cbn [nth] in ZQ0.
    unfold P in ZQ0. rewrite nth_map_seq in ZQ0 by lia. rewrite (ZPi 0%nat ltac:(lia)) in ZQ0. change (u m = 0). lra.
Qed.

Lemma pole_occ_nsum poles resid beta n : length poles = n -> length resid = n ->
  pole_occ poles resid beta = nsum (K := RF) n (fun j => nth j resid 0 * fermi_fct (nth j poles 0) beta).
Proof. intros Hp Hr. exact (lsum_combine2 poles resid (fun p r => r * fermi_fct p beta) n Hp Hr). Qed.

Lemma occ_matrix_iff (poles resid moms : list R) occ beta m n : length poles = n -> length resid = n -> m = length moms -> (1 <= m)%nat ->
  (mv (occ_matrix poles m beta) resid = moms ++ repeat occ m <->
   (forall k, (k < m)%nat -> moments (K := RF) poles resid (S k) = nth k moms 0) /\ pole_occ poles resid beta = occ).
Proof.
  intros Hp Hr Hm Hm1.
  assert (E1 : forall k, (k < m)%nat -> nth k (mv (occ_matrix poles m beta) resid) 0 = moments (K := RF) poles resid (S k)).
  { intros k Hk. rewrite mvR_nth by (cbn; lia). cbn [occ_matrix nc me]. rewrite (moments_nsum poles resid n k Hp Hr), Hp. apply (nsum_ext RF). intros j Hj.
    rewrite (proj2 (Nat.ltb_lt k m) Hk). rring. }
  assert (E2 : forall k, (m <= k)%nat -> (k < m + m)%nat -> nth k (mv (occ_matrix poles m beta) resid) 0 = pole_occ poles resid beta).
  { intros k Hk Hk2. rewrite mvR_nth by (cbn; lia). cbn [occ_matrix nc me]. rewrite Hp, (pole_occ_nsum _ _ _ n Hp Hr). apply (nsum_ext RF). intros j Hj.
    rewrite (proj2 (Nat.ltb_ge k m) Hk). rring. }
  split.
  - intros H. split.
    + intros k Hk. rewrite <- E1, H by exact Hk. now rewrite app_nth1 by lia.
    + rewrite <- (E2 m) by lia. rewrite H, app_nth2 by lia. apply nth_repeat_lt || (rewrite <- Hm, Nat.sub_diag; destruct m; [lia|reflexivity]).
  - intros (HM & HO). apply (list_ext _ _ 0); [rewrite mvR_length, app_length, repeat_length; cbn; lia|]. rewrite mvR_length. cbn [occ_matrix nr]. intros k Hk.
    destruct (Nat.lt_ge_cases k m) as [L|L].
    + rewrite E1 by exact L. rewrite app_nth1 by lia. now apply HM.
    + rewrite E2 by lia. rewrite app_nth2 by lia. rewrite HO. symmetry.
      assert (Hin : In (nth (k - length moms) (repeat occ m) 0) (repeat occ m)) by (apply nth_In; rewrite repeat_length; lia).
      now apply repeat_spec in Hin.
Qed.

Theorem gf_from_tau_occ gftau n beta moms occ width weight :
  0 < beta -> occ <> 0 -> (1 <= length moms)%nat -> (2 * length moms <= n)%nat ->
  (Z.of_nat (length moms) + trunc occ <= Z.of_nat n)%Z -> width <> 0 ->
  exists poles resid, from_tau gftau n beta moms occ width weight = Ok (poles, resid) /\
    length poles = n /\ length resid = n /\ NoDup poles /\ (forall p, In p poles -> Rabs p <= Rabs width) /\
    (forall k, (k < length moms)%nat -> moments (K := RF) poles resid (S k) = nth k moms 0) /\
    pole_occ poles resid beta = occ.
Proof.
  intros Hbe Ho Hm1 Hm2 Hz Hw. unfold gf_from_tau. rewrite pts_ok by lia. cbn [bind]. fold (poles_of width n). set (ps := poles_of width n).
  rewrite tau_ok_true by lra. rewrite andb_false_r. rewrite (proj2 (truthy_true occ) Ho), orb_true_r.
  rewrite (proj2 (Z.ltb_ge _ _) Hz). set (m := length moms) in *. rewrite (proj2 (Nat.eqb_neq m 0)) by lia.
  assert (Hp : length ps = n) by apply poles_of_length.
  set (a := tau_matrix (length gftau) ps beta weight). set (b := map _ _).
  assert (Hnc : nc a = n) by exact Hp.
  assert (Hrb : length b = nr a) by (unfold b; now rewrite map_length, seq_length).
  (* a solution of the constraints *)
  destruct (lstsq_ec_full RF (fun x => x) qr tri lstsq allclose0 rle CJR a b (occ_rows ps m beta) (moms ++ [occ]) HB)
      as (x' & _ & Hx' & Hcx' & _); [cbn; lia|reflexivity|exact Hrb|rewrite app_length; cbn; lia|apply occ_rank; [exact Hw|lra|lia|lia]|].
  rewrite Hnc in Hx'.
  assert (HS : mv (occ_matrix ps m beta) x' = moms ++ repeat occ m).
  { apply (occ_matrix_iff ps x' moms occ beta m n Hp Hx' eq_refl Hm1).
    assert (E : forall k, (k < m + 1)%nat -> nth k (mv (occ_rows ps m beta) x') 0 = nth k (moms ++ [occ]) 0) by (intros; now rewrite Hcx').
    split.
    - intros k Hk. assert (Ek := E k ltac:(lia)). rewrite app_nth1 in Ek by exact Hk. rewrite <- Ek.
      rewrite mvR_nth by (cbn; lia). cbn [occ_rows nc me]. rewrite (moments_nsum ps x' n k Hp Hx'), Hp. apply (nsum_ext RF). intros j Hj.
      rewrite (proj2 (Nat.ltb_lt k m) Hk). rring.
    - assert (Ek := E m ltac:(lia)). rewrite app_nth2 in Ek by (fold m; lia). fold m in Ek. rewrite Nat.sub_diag in Ek. cbn [nth] in Ek. rewrite <- Ek.
      rewrite mvR_nth by (cbn; lia). cbn [occ_rows nc me]. rewrite Hp, (pole_occ_nsum _ _ _ n Hp Hx'). apply (nsum_ext RF). intros j Hj.
      rewrite (proj2 (Nat.ltb_ge m m)) by lia. rring. }
  destruct (lstsq_ec_consistent' RF (fun x => x) qr tri lstsq allclose0 rle CJR a b (occ_matrix ps m beta) (moms ++ repeat occ m) HB rle_zero)
      as (x & E & Hx & Hcx); [cbn; lia|reflexivity|exact Hrb|rewrite app_length, repeat_length; cbn; fold m; lia|cbn; lia|exists x'; split; [lia|exact HS]|].
  change (list (car RF)) with (list R) in *. rewrite E. cbn [bind]. rewrite Hnc in Hx. exists ps, x. split; [reflexivity|].
  split; [exact Hp|]. split; [exact Hx|]. split; [now apply poles_of_NoDup|]. split; [intros p; apply poles_of_bound|].
  now apply (occ_matrix_iff ps x moms occ beta m n Hp Hx eq_refl Hm1).
Qed.

(** one moment and the occupation: additionally optimal *)
Theorem gf_from_tau_occ1 gftau n beta mom occ width weight :
  0 < beta -> occ <> 0 -> (2 <= n)%nat -> (1 + trunc occ <= Z.of_nat n)%Z -> width <> 0 ->
  exists poles resid, from_tau gftau n beta [mom] occ width weight = Ok (poles, resid) /\
    length poles = n /\ length resid = n /\
    moments (K := RF) poles resid 1 = mom /\ pole_occ poles resid beta = occ /\
    forall resid' : list R, length resid' = n -> moments (K := RF) poles resid' 1 = mom -> pole_occ poles resid' beta = occ ->
       tau_cost gftau beta weight poles resid <= tau_cost gftau beta weight poles resid'.
Proof.
  intros Hbe Ho Hn Hz Hw. unfold gf_from_tau. rewrite pts_ok by lia. cbn [bind]. fold (poles_of width n). set (ps := poles_of width n).
  rewrite tau_ok_true by lra. rewrite andb_false_r. rewrite (proj2 (truthy_true occ) Ho), orb_true_r. cbn [length].
  rewrite (proj2 (Z.ltb_ge _ _)) by lia. cbn [Nat.eqb].
  assert (Hp : length ps = n) by apply poles_of_length.
  set (a := tau_matrix (length gftau) ps beta weight). set (b := map _ _).
  assert (Hnc : nc a = n) by exact Hp.
  assert (Hrb : length b = nr a) by (unfold b; now rewrite map_length, seq_length).
  destruct (lstsq_ec_full RF (fun x => x) qr tri lstsq allclose0 rle CJR a b (occ_matrix ps 1 beta) ([mom] ++ repeat occ 1) HB)
      as (x & E & Hx & Hcx & Hopt); [cbn; lia|reflexivity|exact Hrb|reflexivity|apply (occ_rank width n 1); [exact Hw|lra|lia|lia]|].
  change (list (car RF)) with (list R) in *. rewrite E. cbn [bind]. rewrite Hnc in *. exists ps, x. split; [reflexivity|].
  split; [exact Hp|]. split; [exact Hx|].
  assert (OM := fun r H => occ_matrix_iff ps r [mom] occ beta 1 n Hp H eq_refl (le_n 1)).
  destruct (proj1 (OM x Hx) Hcx) as (M1 & M2). split; [exact (M1 0%nat ltac:(lia))|]. split; [exact M2|].
  intros r' Hr' HM HO. assert (Hc : mv (occ_matrix ps 1 beta) r' = [mom] ++ repeat occ 1).
  { apply (OM r' Hr'). split; [|exact HO]. intros k Hk. replace k with 0%nat by lia. exact HM. }
  assert (O := Hopt r' Hr' Hc). unfold rle in O. unfold a, b in O. rewrite !(tau_cost_eq gftau beta weight ps _ n) in O by (assumption || lra). exact O.
Qed.

(** more rows than poles: the triangular factor is not square *)
Theorem gf_from_tau_occ_shape gftau n beta moms occ width weight :
  0 <= beta -> occ <> 0 -> (1 <= n)%nat -> (n < 2 * length moms)%nat ->
  from_tau gftau n beta moms occ width weight = Err ValueError.
Proof.
  intros Hbe Ho Hn Hm. unfold gf_from_tau. rewrite pts_ok by exact Hn. cbn [bind]. rewrite tau_ok_true by lra. rewrite andb_false_r.
  rewrite (proj2 (truthy_true occ) Ho), orb_true_r. destruct (Z.ltb _ _); [reflexivity|].
  rewrite (proj2 (Nat.eqb_neq (length moms) 0)) by lia. fold (poles_of width n).
  set (ps := poles_of width n). assert (Hp : length ps = n) by apply poles_of_length.
  set (c := occ_matrix ps (length moms) beta). set (d := moms ++ repeat occ (length moms)).
  assert (Hd : length d = (2 * length moms)%nat) by (unfold d; rewrite app_length, repeat_length; lia).
  unfold Linalg_Model.lstsq_ec. cbn [tau_matrix nc]. rewrite Hp, (proj2 (Nat.eqb_neq n 0)) by lia.
  assert (HC : nr c = (2 * length moms)%nat) by (cbn; lia). rewrite HC, (proj2 (Nat.eqb_neq (2 * length moms) 0)) by lia.
  destruct HB as (HQ & _). assert (Q := HQ (ctr (fun x => x) c)). destruct (qr (ctr (fun x => x) c)) as [q r].
  destruct Q as (Q1 & Q2 & Q3 & Q4 & _). cbn [ctr nr nc] in Q1, Q2, Q3, Q4.
  match goal with |- context [negb (?x && ?y && ?w)%bool] => replace x with false end; [reflexivity|].
  symmetry. apply Nat.eqb_neq. cbn [rows_to nr nc]. rewrite Q3, Q4. change (@length (car RF) d) with (@length R d).
  change (nc c) with (length ps). lia.
Qed.
(** no moments: polyvander(deg=-1) *)
Theorem gf_from_tau_occ_only gftau n beta occ width weight : 0 <= beta -> occ <> 0 -> (1 <= n)%nat ->
  from_tau gftau n beta [] occ width weight = Err ValueError.
Proof.
  intros Hbe Ho Hn. unfold gf_from_tau. rewrite pts_ok by exact Hn. cbn [bind]. rewrite tau_ok_true by lra. rewrite andb_false_r.
  rewrite (proj2 (truthy_true occ) Ho), orb_true_r. destruct (Z.ltb _ _); reflexivity.
Qed.

(** occ = 0 is not distinguished from "not given" *)
Theorem gf_from_tau_occ_zero_ignored gftau beta weight : 0 <= beta ->
  exists resid, from_tau gftau 1 beta [1] 0 1 weight = Ok ([0], resid) /\ pole_occ [0] resid beta = 1 / 2.
Proof.
  intros Hbe. destruct (gf_from_tau_moments gftau 1 beta [1] 1 weight Hbe) as (p & r & E & L1 & L2 & _ & _ & HM & _); [lia|cbn; lia|lra|].
  assert (Ep : p = [0]).
  { unfold gf_from_tau in E. rewrite pts_ok in E by lia. cbn [bind] in E. rewrite tau_ok_true in E by lra. rewrite andb_false_r in E.
    rewrite (proj2 (truthy_false 0) eq_refl) in E. cbn [length Nat.ltb Nat.leb orb] in E. rewrite trunc_0 in E. cbn [Z.of_nat Z.ltb Z.add Z.compare Pos.compare Pos.compare_cont Nat.eqb Pos.of_succ_nat] in E.
    destruct (EC _ _ _ _) as [x|]; [|discriminate]. cbn [bind] in E. injection E as <- _. cbn [seq map]. f_equal.
    unfold cheb. cbn [INR]. replace (1 / 2 * PI / 1 * (- (1) + 1 + 2 * 0)) with 0 by field. rewrite sin_0. ring. }
  subst p. exists r. split; [exact E|]. assert (M := HM 0%nat ltac:(cbn; lia)). destruct r as [|x [|]]; try discriminate.
  unfold moments in M. cbn [combine map fst snd Nat.sub fpow nth] in M. rewrite (lsum_cons RF) in M. change (x * 1 + 0 = 1) in M.
  unfold pole_occ. cbn [combine map fst snd]. rewrite (lsum_cons RF). change (x * fermi_fct 0 beta + 0 = 1 / 2).
  rewrite fermi_def, Rmult_0_r, exp_0. lra.
Qed.
End Fit.
