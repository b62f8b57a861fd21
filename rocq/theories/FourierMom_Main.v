(** * Exact transforms: pole functions pass through every back-end that maps zero to zero *)
From Coq Require Import List Arith ZArith Reals Lia Lra Bool String Field.
From Coquelicot Require Import Coquelicot.
From Verif Require Import Base FSum CBase CExp Herm_Proofs Stat_Model Stat_Proofs Linalg_Model Linalg_Proofs Mat ExpPoly Backend Cauchy LinPred_Burg Matrix_Time
  Pole_Model Pole_Proofs Pole_Proofs2 Pole_Time Pole_Fit Cpa_Model Cpa_Proofs Fourier_Model Fourier_Dft Fourier_Filon Fourier_Lin Fourier_Series FourierMom_Model FourierMom_Proofs.
Import ListNotations.
Local Open Scope R_scope.

Lemma csub_self (f : C -> C) l : csub (map f l) (map f l) = repeat (RtoC 0) (List.length l).
Proof.
  unfold csub. rewrite map_length. apply (list_ext _ _ (RtoC 0)); [now rewrite map_length, seq_length, repeat_length|]. intros i Hi. rewrite map_length, seq_length in Hi.
  rewrite nth_map_seq by exact Hi. rewrite nth_repeat. ring.
Qed.
Lemma rsub_self (f : R -> R) l : rsub (map f l) (map f l) = repeat 0 (List.length l).
Proof.
  unfold rsub. rewrite map_length. apply (list_ext _ _ 0); [now rewrite map_length, seq_length, repeat_length|]. intros i Hi. rewrite map_length, seq_length in Hi.
  rewrite nth_map_seq by exact Hi. rewrite nth_repeat. ring.
Qed.
Lemma radd_0 l n : n = List.length l -> radd (repeat 0 n) l = l.
Proof.
  intros ->. unfold radd. rewrite repeat_length. apply (list_ext _ _ 0); [now rewrite map_length, seq_length|]. intros i Hi. rewrite map_length, seq_length in Hi.
  rewrite nth_map_seq by exact Hi. rewrite nth_repeat. ring.
Qed.
Lemma cadd_0 l n : n = List.length l -> cadd (repeat (RtoC 0) n) l = l.
Proof.
  intros ->. unfold cadd. rewrite repeat_length. apply (list_ext _ _ (RtoC 0)); [now rewrite map_length, seq_length|]. intros i Hi. rewrite map_length, seq_length in Hi.
  rewrite nth_map_seq by exact Hi. rewrite nth_repeat. ring.
Qed.
Lemma tau_grid_len beta n : List.length (tau_grid beta n) = n.
Proof. unfold tau_grid. now rewrite map_length, seq_length. Qed.

(** ** The back-ends map zero to zero *)
Lemma map_const {A B} (f : A -> B) c l : (forall a, In a l -> f a = c) -> map f l = repeat c (List.length l).
Proof. induction l as [|a l IH]; intros H; [reflexivity|]. cbn. rewrite H by now left. f_equal. apply IH. intros; apply H; now right. Qed.
Theorem iw2tau_dft_zero beta N : beta <> 0 -> (0 < N)%nat -> iw2tau_dft (repeat (RtoC 0) N) beta = Ok (repeat 0 (2 * N + 1)).
Proof.
  intros Hb HN. rewrite iw2tau_dft_ok; [|destruct N; [lia|discriminate]|exact Hb]. f_equal. rewrite repeat_length. rewrite (map_const _ 0), seq_length; [reflexivity|].
  intros k _. unfold iw2tau_at. rewrite (nsum_0' RF); [cbn; ring|]. intros j Hj. rewrite nth_repeat. cbn. ring.
Qed.
Lemma last_repeat {A} (x : A) n d : (0 < n)%nat -> last (repeat x n) d = x.
Proof. intros H. destruct n as [|n]; [lia|]. clear H. induction n as [|n IH]; [reflexivity|]. cbn [repeat] in *. cbn [last] in *. destruct (repeat x n); exact IH. Qed.
Theorem iw2tau_dft_soft_zero beta N : beta <> 0 -> (0 < N)%nat -> iw2tau_dft_soft (repeat (RtoC 0) N) beta = Ok (repeat 0 (2 * N + 1)).
Proof.
  intros Hb HN. unfold iw2tau_dft_soft. rewrite repeat_length, last_repeat by exact HN.
  rewrite (map_const _ (RtoC 0)) by (intros; ring). unfold soft_tail at 1. rewrite map_length, seq_length. rewrite <- repeat_app, iw2tau_dft_zero by (auto; lia). cbn [bind]. f_equal. unfold evens.
  rewrite repeat_length. rewrite (map_const _ 0) by (intros; apply nth_repeat). rewrite seq_length. f_equal.
  replace (2 * (N + N) + 1 + 1)%nat with ((2 * N + 1) * 2)%nat by lia. apply Nat.div_mul. lia.
Qed.
Lemma full_zero M : (0 < M)%nat -> forall k, nth k (full_range (repeat 0 M)) 0 = 0.
Proof.
  intros HM k. unfold full_range. destruct (lt_dec k (M - 1)) as [H|H].
  - rewrite app_nth1 by (rewrite map_length, removelast_len, repeat_length; lia). rewrite (nth_map_in _ _ _ _ 0) by (rewrite removelast_len, repeat_length; lia).
    rewrite nth_removelast by (rewrite repeat_length; lia). rewrite nth_repeat. ring.
  - rewrite app_nth2 by (rewrite map_length, removelast_len, repeat_length; lia). apply nth_repeat.
Qed.
Theorem tau2iw_dft_zero beta M : (2 <= M)%nat -> tau2iw_dft (repeat 0 M) beta = Ok (repeat (RtoC 0) (M / 2)).
Proof.
  intros HM. rewrite tau2iw_dft_ok by (rewrite repeat_length; exact HM). f_equal. rewrite repeat_length. rewrite (map_const _ (RtoC 0)), seq_length; [reflexivity|].
  intros l _. rewrite (nsum_0' CF); [unfold Cdiv; cring|]. intros k Hk. rewrite full_zero by lia. cring.
Qed.
Theorem tau2iw_ft_lin_zero beta M : (2 <= M)%nat -> tau2iw_ft_lin (repeat 0 M) beta = Ok (repeat (RtoC 0) (M / 2)).
Proof.
  intros HM. unfold tau2iw_ft_lin. set (full := full_range _). assert (Lf : List.length full = (2 * M - 1)%nat) by (unfold full; rewrite full_len, repeat_length; reflexivity).
  assert (Z : forall k, nth k full 0 = 0) by (apply full_zero; lia).
  assert (N1 : removelast full <> []). { intros E. assert (L := removelast_len full). rewrite E in L. cbn in L. lia. }
  assert (N2 : diff full <> []). { intros E. assert (L := diff_len full). rewrite E in L. cbn in L. lia. }
  rewrite (ihfft_ok _ N1), (ihfft_ok _ N2). cbn [bind]. f_equal. rewrite map_length, seq_length. rewrite removelast_len, Lf.
  replace ((2 * M - 1 - 1) / 2 + 1)%nat with M. 2:{ replace (2 * M - 1 - 1)%nat with ((M - 1) * 2)%nat by lia. rewrite Nat.div_mul; lia. }
  rewrite diff_len, Lf.
  rewrite (map_const _ (RtoC 0)), seq_length; [reflexivity|]. intros j Hj. apply in_seq in Hj.
  assert (G : forall x m, (forall k, nth k x 0 = 0) -> forall L n, nth m (map (fun m => (nsum (K := CF) L (fun k => RtoC (nth k x 0) * zeta L (Z.of_nat m * Z.of_nat k)) / RtoC (INR L))%C) (seq 0 n)) (RtoC 0) = RtoC 0).
  { intros x m Hx L n. destruct (lt_dec m n) as [Hm|Hm]; [|apply nth_overflow; rewrite map_length, seq_length; lia]. rewrite nth_map_seq by exact Hm.
    rewrite (nsum_0' CF); [unfold Cdiv; cring|]. intros k Hk. rewrite Hx. cring. }
  rewrite !G.
  - ring.
  - intros k. destruct (lt_dec k (List.length full - 1)) as [Hk|Hk]; [rewrite diff_nth by exact Hk; rewrite !Z; ring|]. apply nth_overflow. rewrite diff_len. lia.
  - intros k. destruct (lt_dec k (List.length full - 1)) as [Hk|Hk]; [rewrite nth_removelast by exact Hk; apply Z|]. apply nth_overflow. rewrite removelast_len. lia.
Qed.

Section Fit.
Variable qr : mat RF -> mat RF * mat RF.
Variable tri : mat RF -> list R -> result (list R).
Variable lstsq : mat RF -> list R -> list R * list R.
Variable allclose0 : list R -> bool.
Hypothesis HB : backend_ok RF (fun x => x) rle qr tri lstsq allclose0.
Notation EC := (Linalg_Model.lstsq_ec (K := RF) (fun x => x) qr tri lstsq allclose0).
Variable solve : mat RF -> list R -> result (list R).

(** iw2tau with fitted poles *)
Theorem iw2tau_fit_exact fourier beta moms n_fit N M (r : list R) : 0 < beta -> (1 <= n_fit)%nat ->
  let n := (n_fit + List.length moms)%nat in
  let p := poles_of (fit_width None moms n) n in
  (n <= N)%nat -> List.length r = n -> (forall k, (k < List.length moms)%nat -> moments (K := RF) p r (S k) = nth k moms 0) ->
  fourier (repeat (RtoC 0) N) beta = Ok (repeat 0 M) ->
  iw2tau lstsq EC solve fourier (map (fun j => gfun (matsubara_frequencies (Z.of_nat j) beta) p r) (seq 0 N)) beta moms n_fit
  = Ok (map (fun k => ptau p r beta (linspace 0 beta M k)) (seq 0 M)).
Proof.
  intros Hb Hf n p HN Lr HM HF. assert (Nb : beta <> 0) by lra. unfold iw2tau. destruct (Req_EM_T beta 0); [contradiction|]. destruct (Nat.eqb_spec n_fit 0); [lia|].
  rewrite map_length, seq_length. assert (Eg : map (fun j => gfun (matsubara_frequencies (Z.of_nat j) beta) p r) (seq 0 N) = map (fun w => gfun w p r) (iw_grid beta N)) by (unfold iw_grid; now rewrite map_map).
  rewrite Eg. assert (Lp : List.length p = n) by apply poles_of_length.
  assert (EX := from_z_exact qr tri lstsq allclose0 HB (iw_grid beta N) n moms None (Some (map (fun w => (snd w) ^ (List.length moms + n_fit)) (iw_grid beta N))) r).
  fold p in EX. cbv zeta. fold n. rewrite EX; clear EX.
  - cbn [bind fst snd]. rewrite eval_z_iw by exact Nb. cbn [bind]. rewrite csub_self, iw_grid_len, HF. cbn [bind]. rewrite repeat_length.
    rewrite eval_tau_grid by (lra || congruence). cbn [bind]. f_equal. rewrite radd_0 by (rewrite map_length, tau_grid_len; reflexivity). unfold tau_grid. now rewrite map_map.
  - rewrite iw_grid_len. exact HN.
  - unfold n. lia.
  - unfold n. lia.
  - discriminate.
  - apply (NoDup_nth _ (RtoC 0)). rewrite iw_grid_len. intros a b Ha Hb0 E. rewrite !iw_grid_nth in E by assumption. exact (iw_inj beta a b Nb E).
  - intros w x Hw _. unfold iw_grid in Hw. apply in_map_iff in Hw. destruct Hw as (j & <- & _). now apply iw_not_real.
  - rewrite iw_grid_len. intros i Hi. cbn [wt]. rewrite (nth_map_in _ _ _ _ (RtoC 0)) by (rewrite iw_grid_len; exact Hi). rewrite iw_grid_nth by exact Hi. apply pow_nonzero. now apply iw_imag.
  - exact Lr.
  - exact HM.
Qed.

(** tau2iw *)
Lemma ptau_ends p r beta n : List.length r = List.length p -> 0 < beta -> (2 <= n)%nat -> - last (map (ptau p r beta) (tau_grid beta n)) 0 - nth 0 (map (ptau p r beta) (tau_grid beta n)) 0 = lsum (K := RF) r.
Proof.
  intros Hl Hb Hn. set (g := map _ _). assert (Lg : List.length g = n) by (unfold g; now rewrite map_length, tau_grid_len).
  assert (E0 : nth 0 g 0 = ptau p r beta 0). { unfold g, tau_grid. rewrite map_map, nth_map_seq by lia. now rewrite linspace_0. }
  assert (E1 : last g 0 = ptau p r beta beta).
  { assert (EL : last g 0 = nth (n - 1) g 0). { destruct (exists_last (l := g)) as (l & a & Ea); [intros E; rewrite E in Lg; cbn in Lg; lia|]. rewrite Ea in *. rewrite last_last. rewrite app_length in Lg. cbn in Lg. rewrite app_nth2 by lia. replace (n - 1 - List.length l)%nat with 0%nat by lia. reflexivity. }
    rewrite EL. unfold g, tau_grid. rewrite map_map, nth_map_seq by lia. destruct n as [|n]; [lia|]. replace (S n - 1)%nat with n by lia. rewrite linspace_end by lia. reflexivity. }
  rewrite E0, E1. destruct (gf_tau_boundary p r beta (eq_sym Hl) ltac:(lra)) as (g0 & gb & H0 & H1 & H2). rewrite gf_tau_ptau in H0, H1 by (assumption || lra).
  injection H0 as <-. injection H1 as <-. lra.
Qed.
Theorem tau2iw_exact fourier beta moments_arg n_pole ntau M (r : list R) : 0 < beta -> (2 <= ntau)%nat ->
  let moms : list R := match moments_arg with None => [lsum (K := RF) r : R] | Some l => l end in
  let n := match n_pole with None => List.length moms | Some n => n end in
  let p := poles_of 1 n in
  moms <> [] -> (List.length moms <= n <= ntau)%nat -> List.length r = n -> (forall k, (k < List.length moms)%nat -> moments (K := RF) p r (S k) = nth k moms 0) ->
  fourier (repeat 0 ntau) beta = Ok (repeat (RtoC 0) M) ->
  tau2iw lstsq EC fourier (map (fun k => ptau p r beta (linspace 0 beta ntau k)) (seq 0 ntau)) beta n_pole moments_arg
  = Ok (map (fun j => gfun (matsubara_frequencies (Z.of_nat j) beta) p r) (seq 0 M)).
Proof.
  intros Hb H2 moms n p Hmo Hn Lr HM HF. assert (Nb : beta <> 0) by lra.
  assert (Eg : map (fun k => ptau p r beta (linspace 0 beta ntau k)) (seq 0 ntau) = map (ptau p r beta) (tau_grid beta ntau)) by (unfold tau_grid; now rewrite map_map).
  rewrite Eg. set (g := map (ptau p r beta) (tau_grid beta ntau)). assert (Lg : List.length g = ntau) by (unfold g; now rewrite map_length, tau_grid_len).
  assert (Lp : List.length p = n) by apply poles_of_length. assert (Lrp : List.length r = List.length p) by congruence.
  assert (Hends := ptau_ends p r beta ntau Lrp Hb H2). fold g in Hends.
  assert (Hl1 : (1 <= List.length moms)%nat) by (destruct moms; [congruence|cbn; lia]).
  unfold tau2iw. destruct g as [|g0 gr] eqn:Egg; [cbn in Lg; lia|]. rewrite <- Egg in *. cbv zeta.
  match goal with |- bind ?m _ = _ => assert (Em : m = Ok moms) end.
  { unfold moms. destruct moments_arg as [[|m ms]|]; [now elim Hmo|reflexivity|]. rewrite Egg in Hends. cbn [nth] in Hends. rewrite Egg. exact (f_equal (fun x : R => Ok [x]) Hends). }
  rewrite Em. cbn [bind]. fold n.
  assert (EX := from_tau_exact qr tri lstsq allclose0 HB ntau n beta moms 1 None r ltac:(lia) H2 ltac:(lia) ltac:(lia) R1_neq_R0 Hb). fold p in EX. cbv zeta in EX. change (map (ptau p r beta) (tau_grid beta ntau)) with g in EX.
  rewrite EX; clear EX; [|intros; cbn; lra|exact Lr|exact HM]. cbn [bind fst snd]. rewrite Lg.
  rewrite eval_tau_grid by (lra || exact Lrp). cbn [bind]. unfold g. rewrite rsub_self, tau_grid_len, HF. cbn [bind]. destruct (Req_EM_T beta 0); [contradiction|].
  rewrite repeat_length, eval_z_iw by exact Nb. cbn [bind]. f_equal. rewrite cadd_0 by (rewrite map_length, iw_grid_len; reflexivity). unfold iw_grid. now rewrite map_map.
Qed.

(** as many poles as moments: the subtracted function depends on the moments only, so every remainder goes through the back-end *)
Theorem tau2iw_moments moms beta : moms <> [] -> 0 < beta ->
  exists p r, List.length p = List.length moms /\ List.length r = List.length moms /\ NoDup p /\
    (forall k, (k < List.length moms)%nat -> moments (K := RF) p r (S k) = nth k moms 0) /\
    forall fourier rest, rest <> [] ->
      tau2iw lstsq EC fourier (map (fun k => ptau p r beta (linspace 0 beta (List.length rest) k) + nth k rest 0) (seq 0 (List.length rest))) beta None (Some moms)
      = do g <- fourier rest beta; Ok (map (fun j => (nth j g (RtoC 0) + gfun (matsubara_frequencies (Z.of_nat j) beta) p r)%C) (seq 0 (List.length g))).
Proof.
  intros Hm Hb. assert (Nb : beta <> 0) by lra. set (n := List.length moms). assert (Hn : (1 <= n)%nat) by (unfold n; destruct moms; [congruence|cbn; lia]).
  assert (HX : forall g, exists r : list R, gf_from_tau lstsq EC g n beta moms 0 1 None = Ok (poles_of 1 n, r) /\ List.length r = n /\ forall k, (k < n)%nat -> moments (K := RF) (poles_of 1 n) r (S k) = nth k moms 0).
  { intros g. destruct (gf_from_tau_moments qr tri lstsq allclose0 HB g n beta moms 1 None ltac:(lra) Hn (le_n n) R1_neq_R0) as (p' & r' & E & _ & L & _ & _ & HM & _).
    assert (Ep := from_tau_poles qr tri lstsq allclose0 g n beta moms 0 1 None p' r' Hn E). subst p'. exists r'. auto. }
  destruct (HX []) as (r & _ & Lr & HM). set (p := poles_of 1 n) in *. assert (Lp : List.length p = n) by apply poles_of_length.
  assert (U : forall r' : list R, List.length r' = n -> (forall k, (k < n)%nat -> moments (K := RF) p r' (S k) = nth k moms 0) -> r' = r).
  { intros r' Lr' HM'. apply (list_ext _ _ 0); [congruence|]. rewrite Lr'. intros j Hj.
    assert (V := vander_inj RF n (fun j => nth j p 0) (poles_of_distinct 1 n R1_neq_R0) (fun j => nth j r' 0 - nth j r 0)).
    assert (X : nth j r' 0 - nth j r 0 = 0).
    { apply V; [|exact Hj]. intros i Hi. assert (E := HM i Hi). assert (E' := HM' i Hi). rewrite (moments_nsum p r n i Lp Lr) in E. rewrite (moments_nsum p r' n i Lp Lr') in E'.
      transitivity (nsum (K := RF) n (fun j => nth j r' 0 * fpow (K := RF) (nth j p 0) i) - nsum (K := RF) n (fun j => nth j r 0 * fpow (K := RF) (nth j p 0) i)); [|rewrite E, E'; exact (Rminus_eq_0 _)].
      assert (T := nsum_sub RF n). cbn [Fsub RF] in T. rewrite <- T. apply (nsum_ext RF). intros k Hk. rring. }
    lra. }
  exists p, r. split; [exact Lp|]. split; [exact Lr|]. split; [apply poles_of_NoDup; exact R1_neq_R0|]. split; [exact HM|].
  intros fourier rest Hr. set (N := List.length rest). set (g := map _ (seq 0 N)). assert (Lg : List.length g = N) by (unfold g; now rewrite map_length, seq_length).
  assert (HN : (1 <= N)%nat) by (unfold N; destruct rest; [congruence|cbn; lia]).
  destruct (HX g) as (r' & EX & Lr' & HM'). assert (r' = r) by (apply U; assumption). subst r'.
  unfold tau2iw. destruct g as [|g0 gr] eqn:Egg; [cbn in Lg; lia|]. rewrite <- Egg in *. cbv zeta. match goal with |- bind ?m _ = _ => assert (Em : m = Ok moms) by (destruct moms; [congruence|reflexivity]) end. rewrite Em. cbn [bind]. fold n.
  rewrite EX. cbn [bind fst snd]. rewrite Lg. rewrite eval_tau_grid by (lra || exact (eq_trans Lr (eq_sym Lp))). cbn [bind].
  assert (Es : rsub g (map (ptau p r beta) (tau_grid beta N)) = rest).
  { unfold rsub. rewrite Lg. apply (list_ext _ _ 0); [now rewrite map_length, seq_length|]. intros k Hk. rewrite map_length, seq_length in Hk. rewrite nth_map_seq by exact Hk.
    rewrite Egg. fold g. rewrite <- Egg. unfold g at 1. rewrite nth_map_seq by exact Hk. unfold tau_grid. rewrite map_map, nth_map_seq by exact Hk. ring. }
  rewrite Es. destruct (fourier rest beta) as [t|]; [|reflexivity]. cbn [bind]. destruct (Req_EM_T beta 0); [contradiction|]. rewrite eval_z_iw by exact Nb. cbn [bind]. f_equal. unfold cadd. apply map_ext_in. intros j Hj. apply in_seq in Hj.
  f_equal. rewrite (nth_map_in _ _ _ _ (RtoC 0)) by (rewrite iw_grid_len; lia). now rewrite iw_grid_nth by lia.
Qed.

(** ** the fits with optimised width: whatever non-zero width the optimiser returns *)
Variable minimize_scalar : (R -> result R) -> result R.
Theorem izp2tau_exact izp tau beta moms x (r : list R) : 0 <= beta -> izp <> [] -> NoDup izp ->
  let n := List.length izp in
  let p := poles_of x n in
  x <> 0 -> (forall f, minimize_scalar f = Ok x) -> (List.length moms <= n)%nat -> (forall w y, In w izp -> In y p -> w <> RtoC y) -> (forall t, In t tau -> 0 <= t <= beta) ->
  List.length r = n -> (forall k, (k < List.length moms)%nat -> moments (K := RF) p r (S k) = nth k moms 0) ->
  izp2tau lstsq EC minimize_scalar izp (map (fun w => gfun w p r) izp) tau beta moms = Ok (map (ptau p r beta) tau).
Proof.
  intros Hb Hi ND n p Hx HO Hm Hp Ht Lr HM. unfold izp2tau, z2polegf. cbv zeta. rewrite HO. cbn [bind].
  assert (Hn : (1 <= n)%nat) by (unfold n; destruct izp; [congruence|cbn; lia]).
  assert (EX := from_z_exact qr tri lstsq allclose0 HB izp n moms (Some x) None r (le_n n) Hn Hm ltac:(congruence) ND). fold n. 
  change (fit_width (Some x) moms n) with x in EX. fold p in EX. rewrite EX; [|exact Hp|intros; cbn; lra|exact Lr|exact HM]. cbn [bind fst snd].
  unfold eval_tau. apply mapM_map. intros t Hin. apply gf_tau_ptau; [|now apply Ht]. assert (Lp : List.length p = n) by apply poles_of_length. congruence.
Qed.
Theorem tau2izp_exact ntau beta izp moms x weight (r : list R) : 0 < beta -> (2 <= ntau)%nat ->
  let n := List.length izp in
  let p := poles_of x n in
  x <> 0 -> (forall f, minimize_scalar f = Ok x) -> moms <> [] -> (List.length moms <= n <= ntau)%nat -> (forall w y, In w izp -> In y p -> w <> RtoC y) ->
  (forall i, (i < ntau)%nat -> wt weight i <> 0) ->
  List.length r = n -> (forall k, (k < List.length moms)%nat -> moments (K := RF) p r (S k) = nth k moms 0) ->
  tau2izp lstsq EC minimize_scalar (map (fun k => ptau p r beta (linspace 0 beta ntau k)) (seq 0 ntau)) beta izp (Some moms) 0 weight
  = Ok (map (fun w => gfun w p r) izp).
Proof.
  intros Hb H2 n p Hx HO Hm Hn Hp Hw Lr HM.
  assert (Eg : map (fun k => ptau p r beta (linspace 0 beta ntau k)) (seq 0 ntau) = map (ptau p r beta) (tau_grid beta ntau)) by (unfold tau_grid; now rewrite map_map).
  rewrite Eg. set (g := map (ptau p r beta) (tau_grid beta ntau)). assert (Lg : List.length g = ntau) by (unfold g; now rewrite map_length, tau_grid_len).
  assert (Hl1 : (1 <= List.length moms)%nat) by (destruct moms; [congruence|cbn; lia]).
  unfold tau2izp, tau2polegf. destruct g as [|g0 gr] eqn:Egg; [cbn in Lg; lia|]. rewrite <- Egg in *. cbv zeta. match goal with |- bind (bind ?m _) _ = _ => assert (Em : m = Ok moms) by (destruct moms; [congruence|reflexivity]) end. rewrite Em. cbn [bind]. rewrite HO. cbn [bind]. fold n.
  assert (EX := from_tau_exact qr tri lstsq allclose0 HB ntau n beta moms x weight r ltac:(lia) H2 ltac:(lia) ltac:(lia) Hx Hb). fold p in EX. cbv zeta in EX. change (map (ptau p r beta) (tau_grid beta ntau)) with g in EX.
  rewrite EX; [|exact Hw|exact Lr|exact HM]. cbn [bind fst snd]. unfold eval_z. apply hits_pole_false in Hp. rewrite Hp. reflexivity.
Qed.
End Fit.
