(** * Proofs about averaged *)
From Coq Require Import Reals List ZArith Lia Lra.
From Coquelicot Require Import Coquelicot.
From Verif Require Import Base CBase Pade_Model Pade_Spec Pade_Proofs PadeAvg_Model PadeKind_Proofs PadeMod_Spec PadeMod_Model PadeMod_Proofs PadeFull_Model PadeFull_Spec.
Import ListNotations.
Local Open Scope C_scope.

Lemma islice_go_map {A B} (f : A -> B) stop step : forall l idx next, islice_go idx next stop step (map f l) = map f (islice_go idx next stop step l).
Proof.
  induction l as [|x l IH]; intros idx next; [reflexivity|]. cbn [map islice_go]. destruct (stop <=? next)%Z; [reflexivity|].
  destruct (idx =? next)%Z; cbn [map]; now rewrite IH.
Qed.
Lemma islice_map {A B} (f : A -> B) k l : islice k (map f l) = map f (islice k l).
Proof. apply islice_go_map. Qed.
Lemma no_nan_row (r : row) : has_nan r = false -> exists p, r = map Some p.
Proof.
  induction r as [|[v|] r IH]; intros H; [now exists []| |discriminate].
  destruct (IH H) as (p & ->). now exists (v :: p).
Qed.
Lemma no_nan_rows (rs : list row) : existsb has_nan rs = false -> exists ps, rs = map (map Some) ps.
Proof.
  induction rs as [|r rs IH]; intros H; [now exists []|]. cbn in H. apply Bool.orb_false_elim in H. destruct H as [H1 H2].
  destruct (no_nan_row r H1) as (p & ->), (IH H2) as (ps & ->). now exists (p :: ps).
Qed.
Lemma average_inv valid rows res m : (forall r, In r rows -> length r = m) -> average valid rows = Ok res ->
  exists ps, valids valid rows = map (map Some) ps /\ ps <> [] /\ length res = m /\
    forall j xe, nth_error res j = Some xe -> column_spec (map (fun p => nth j p (RtoC 0)) ps) xe.
Proof.
  intros Hl. unfold average, rows_1d. destruct (existsb (fun b => b) valid) eqn:Ev; [|discriminate]. cbn [negb].
  rewrite kept_valids. match goal with |- context [if ?b then _ else _] => destruct b eqn:En end; [intros X; discriminate X|]. cbn [bind].
  destruct (no_nan_rows _ En) as (ps & Ep). rewrite Ep. destruct ps as [|p0 ps]; [discriminate|]. intros E.
  assert (Lm : forall p, In p (p0 :: ps) -> length p = m).
  { intros p Hp. rewrite <- (map_length Some p). apply Hl. apply (valids_In valid). rewrite Ep. now apply in_map. }
  exists (p0 :: ps). split; [reflexivity|]. split; [discriminate|].
  destruct (mean_err_ok (map (map Some) (p0 :: ps)) m (fun j => map (fun p => nth j p (RtoC 0)) (p0 :: ps))) as (res' & E' & L & H).
  - exists (map Some p0), (map (map Some) ps). split; [reflexivity|]. rewrite map_length. apply Lm. now left.
  - intros j _. discriminate.
  - intros j Hj. unfold column. rewrite map_map. rewrite <- (nonan_Some (map (fun p => nth j p (RtoC 0)) (p0 :: ps))), map_map.
    f_equal. apply map_ext_in. intros p Hp.
    rewrite (nth_indep _ None (Some (RtoC 0))) by (rewrite map_length, Lm by exact Hp; exact Hj). apply (map_nth Some).
  - rewrite E in E'. injection E' as <-. auto.
Qed.

Lemma all_ok_inv {A B} (f : A -> result B) : forall l r, all_ok f l = Ok r -> Forall2 (fun x y => f x = Ok y) l r.
Proof.
  induction l as [|x l IH]; intros r H; cbn in H; [injection H as <-; constructor|].
  destruct (f x) as [y|] eqn:E; [|discriminate]. cbn in H. destruct (all_ok f l) as [r'|]; [|discriminate]. injection H as <-.
  constructor; [exact E|now apply IH].
Qed.
Lemma Forall2_nth1 {A B} (P : A -> B -> Prop) l l' : Forall2 P l l' -> forall j x, nth_error l j = Some x -> exists y, nth_error l' j = Some y /\ P x y.
Proof. induction 1 as [|x y l l' Hxy H IH]; intros [|j] z E; try discriminate; cbn in *. { injection E as <-. eauto. } now apply IH. Qed.

Lemma calc_rows_inv z_out zin a rows : calc_rows z_out zin a = Ok rows ->
  exists F, rows = map F (seq 0 (length a - 1)) /\ length a = length zin /\ a <> [] /\
    (forall kappa, length (F kappa) = length z_out) /\
    forall kappa j z, (kappa < length a - 1)%nat -> nth_error z_out j = Some z ->
      exists o, nth_error (F kappa) j = Some o /\ forall v, o = Some v <-> yields zin a kappa z v.
Proof.
  unfold calc_rows. destruct (Nat.eqb_spec (length a) (length zin)) as [Hl|]; [|discriminate]. cbn [negb].
  destruct a as [|a0 a]; [discriminate|].
  match goal with |- context [all_ok ?f z_out] => destruct (all_ok f z_out) as [cols|] eqn:E end; [|discriminate]. intros [= <-]. apply all_ok_inv in E.
  exists (fun k => map (fun c => nth k c None) cols). split; [reflexivity|]. split; [exact Hl|]. split; [discriminate|]. split.
  - intros k. rewrite map_length. symmetry. clear -E. induction E; cbn; auto.
  - intros kappa j z Hk Hj. destruct (Forall2_nth1 _ _ _ E j z Hj) as (l & Hl' & El).
    exists (nth kappa l None). split; [now rewrite (map_nth_error _ _ _ Hl')|].
    destruct (calc_iterator_length CF _ _ _ _ El) as (Ll & _ & _).
    assert (Hn : nth_error l kappa = Some (nth kappa l None)). { apply nth_error_nth'. now rewrite Ll. }
    intros v. split.
    + intros Ev. exists l. split; [exact El|]. now rewrite Hn, Ev.
    + intros (l' & El' & Ev). rewrite El in El'. injection El' as <-. rewrite Hn in Ev. now injection Ev.
Qed.

(** approximants of the kind which exist *)
Definition numbers (k : kind) (n : nat) : list nat := islice k (seq 0 (n - 1)).
Lemma In_numbers k n kappa : good_kind k ->
  (In kappa (numbers k n) <-> (kappa < n - 1)%nat /\ exists i, Z.of_nat kappa = (k_start k + 2 * Z.of_nat i)%Z /\ (Z.of_nat kappa < k_stop k)%Z).
Proof.
  intros (H0 & H1 & H2). unfold numbers. split.
  - intros H. apply In_nth_error in H. destruct H as [i Hi]. rewrite islice_nth in Hi by lia. rewrite H2 in Hi.
    destruct (Z.ltb_spec (k_start k + Z.of_nat i * 2) (k_stop k)) as [L|]; [|discriminate].
    assert (B : (Z.to_nat (k_start k + Z.of_nat i * 2) < n - 1)%nat). { rewrite <- (seq_length (n - 1) 0). apply nth_error_Some. congruence. }
    rewrite (nth_error_nth' _ 0%nat) in Hi by now rewrite seq_length. rewrite seq_nth in Hi by exact B. injection Hi as <-.
    split; [exact B|]. exists i. lia.
  - intros (B & i & E & L). apply (nth_error_In _ i). rewrite islice_nth by lia. rewrite H2.
    destruct (Z.ltb_spec (k_start k + Z.of_nat i * 2) (k_stop k)); [|lia].
    replace (Z.to_nat (k_start k + Z.of_nat i * 2)) with kappa by lia.
    rewrite (nth_error_nth' _ 0%nat) by now rewrite seq_length. now rewrite seq_nth.
Qed.

(** ** Any filters *)
Lemma averaged_general z_out z_in valid_z g fs k res : good_kind k -> averaged z_out z_in valid_z g fs k = Ok res ->
  let zin := firstn (Z.to_nat (k_stop k)) z_in in
  exists a mask, given_coeff zin (Z.to_nat (k_stop k)) g = Ok a /\ length a = length zin /\
    (match fs with
     | None => mask = repeat true (Z.to_nat (kind_len k))
     | Some fs => exists rows, calc_rows (match valid_z with Some z => z | None => z_out end) zin a = Ok rows /\ apply_filter fs (islice k rows) = Ok mask
     end) /\
    valids mask (numbers k (length a)) <> [] /\ length res = length z_out /\
    forall j z xe, nth_error z_out j = Some z -> nth_error res j = Some xe ->
      exists vs, Forall2 (fun kappa v => yields zin a kappa z v) (valids mask (numbers k (length a))) vs /\ column_spec vs xe.
Proof.
  intros Hk. unfold averaged. set (zin := firstn (Z.to_nat (k_stop k)) z_in).
  destruct (given_coeff zin (Z.to_nat (k_stop k)) g) as [a|] eqn:Ea; [|discriminate].
  cbn [bind]. set (vz := match valid_z with Some z => z | None => z_out end).
  destruct (match fs with Some fs0 => bind (calc_rows vz zin a) (fun it => apply_filter fs0 (islice k it)) | None => Ok (repeat true (Z.to_nat (kind_len k))) end) as [mask|] eqn:Em; [|discriminate].
  cbn [bind]. destruct (calc_rows z_out zin a) as [rows|] eqn:Er; [|discriminate]. cbn [bind]. intros E.
  destruct (calc_rows_inv _ _ _ _ Er) as (F & -> & La & Na & LF & HF).
  rewrite islice_map in E.
  destruct (average_inv mask (map F (islice k (seq 0 (length a - 1)))) res (length z_out)) with (2 := E) as (ps & Ev & Np & Lr & Hres).
  { intros r Hr. apply in_map_iff in Hr. destruct Hr as (kappa & <- & _). apply LF. }
  rewrite valids_map in Ev. fold (numbers k (length a)) in Ev.
  cbv zeta. exists a, mask. split; [reflexivity|]. split; [exact La|]. split.
  { destruct fs as [fs|]; [|now injection Em]. destruct (calc_rows vz zin a) as [rv|]; [|discriminate]. now exists rv. }
  split. { intros Ez. rewrite Ez in Ev. destruct ps; [easy|discriminate]. }
  split; [exact Lr|].
  intros j z xe Hz Hxe. exists (map (fun p => nth j p (RtoC 0)) ps). split; [|now apply Hres].
  assert (Hn : forall kappa, In kappa (valids mask (numbers k (length a))) -> (kappa < length a - 1)%nat).
  { intros kappa Hin. apply valids_In in Hin. now apply (In_numbers k (length a)) in Hin. }
  clear Hres Np E. revert ps Ev. induction (valids mask (numbers k (length a))) as [|kappa ks IH]; intros [|p ps] Ev; try discriminate Ev; [constructor|].
  cbn [map] in Ev. injection Ev as E1 E2. cbn [map]. constructor; [|apply IH; [intros; apply Hn; now right|exact E2]].
  destruct (HF kappa j z (Hn kappa (or_introl eq_refl)) Hz) as (o & Ho & Hy). apply Hy. rewrite E1 in Ho.
  rewrite nth_error_map in Ho. destruct (nth_error p j) as [v|] eqn:Ep; [|discriminate]. injection Ho as <-. f_equal.
  symmetry. now apply nth_error_nth.
Qed.

Lemma valids_repeat_true {A} : forall n (l : list A), valids (repeat true n) l = firstn n l.
Proof. induction n as [|n IH]; intros [|x l]; try reflexivity. cbn. now rewrite IH. Qed.
Lemma valids_map_self {A} (g : A -> bool) : forall l, valids (map g l) l = filter g l.
Proof. induction l as [|x l IH]; [reflexivity|]. cbn. destruct (g x); now rewrite IH. Qed.

(** ** avg_no_neg_imag *)
Theorem no_neg_imag_spec z_out z_in valid_z g th k res : good_kind k -> avg_no_neg_imag z_out z_in valid_z g th k = Ok res ->
  let zin := firstn (Z.to_nat (k_stop k)) z_in in
  let vz := match valid_z with Some z => z | None => z_out end in
  exists a ks, given_coeff zin (Z.to_nat (k_stop k)) g = Ok a /\ length a = length zin /\ NoDup ks /\ ks <> [] /\
    (forall kappa, In kappa ks <-> (exists i, Z.of_nat kappa = (k_start k + 2 * Z.of_nat i)%Z) /\ (Z.of_nat kappa < k_stop k)%Z /\ (kappa + 1 < length a)%nat /\
       forall w, In w vz -> exists v, yields zin a kappa w v /\ (snd v < th)%R) /\
    length res = length z_out /\
    forall j z xe, nth_error z_out j = Some z -> nth_error res j = Some xe ->
      exists vs, Forall2 (fun kappa v => yields zin a kappa z v) ks vs /\ column_spec vs xe.
Proof.
  intros Hk H. unfold avg_no_neg_imag in H. destruct (averaged_general _ _ _ _ _ _ _ Hk H) as (a & mask & Ea & La & (rows & Er & Em) & Nv & Lr & Hres). cbv zeta.
  set (vz := match valid_z with Some z => z | None => z_out end) in *.
  destruct (calc_rows_inv _ _ _ _ Er) as (F & -> & _ & Na & LF & HF).
  rewrite islice_map in Em. cbn [apply_filter] in Em. unfold neg_imag in Em. rewrite map_map in Em. injection Em as <-.
  fold (numbers k (length a)) in Nv, Hres. fold (numbers k (length a)) in *.
  rewrite valids_map_self in Nv, Hres.
  eexists. eexists. split; [exact Ea|]. split; [exact La|].
  split; [|split; [exact Nv|split; [|split; [exact Lr|exact Hres]]]].
  - apply NoDup_filter. unfold numbers.
    apply NoDup_nth_error. intros i j Hi Hij. destruct Hk as (K0 & K1 & K2). 
    assert (Hs : nth_error (islice k (seq 0 (length a - 1))) i <> None) by now apply nth_error_Some.
    rewrite !islice_nth in * by lia. rewrite K2 in *.
    destruct (Z.ltb_spec (k_start k + Z.of_nat i * 2) (k_stop k)) as [L|]; [|easy].
    apply nth_error_Some in Hs. rewrite seq_length in Hs.
    rewrite (nth_error_nth' _ 0%nat) in Hij by now rewrite seq_length. rewrite seq_nth in Hij by exact Hs.
    destruct (Z.ltb_spec (k_start k + Z.of_nat j * 2) (k_stop k)) as [L'|]; [|discriminate].
    assert (Hs' : (Z.to_nat (k_start k + Z.of_nat j * 2) < length a - 1)%nat). { rewrite <- (seq_length (length a - 1) 0). apply nth_error_Some. congruence. }
    rewrite (nth_error_nth' _ 0%nat) in Hij by now rewrite seq_length. rewrite seq_nth in Hij by exact Hs'. injection Hij as Hij. lia.
  - intros kappa. rewrite filter_In. rewrite (In_numbers k (length a) kappa Hk). rewrite forallb_forall.
    assert (Hrow : (kappa < length a - 1)%nat -> ((forall x, In x (F kappa) -> (match x with Some x0 => if Rlt_dec (snd x0) th then true else false | None => false end) = true) <->
       (forall w, In w vz -> exists v, yields (firstn (Z.to_nat (k_stop k)) z_in) a kappa w v /\ (snd v < th)%R))).
    { intros B. split.
      - intros Hx w Hw. apply In_nth_error in Hw. destruct Hw as [j Hj]. destruct (HF kappa j w B Hj) as (o & Ho & Hy).
        specialize (Hx o (nth_error_In _ _ Ho)). destruct o as [v|]; [|discriminate]. exists v. split; [now apply Hy|].
        destruct (Rlt_dec (snd v) th); [assumption|discriminate].
      - intros Hw x Hx. apply In_nth_error in Hx. destruct Hx as [j Hj].
        assert (Lj : (j < length vz)%nat). { rewrite <- (LF kappa). apply nth_error_Some. congruence. }
        destruct (nth_error vz j) as [w|] eqn:Ew; [|apply nth_error_None in Ew; lia].
        destruct (HF kappa j w B Ew) as (o & Ho & Hy). rewrite Hj in Ho. injection Ho as <-.
        destruct (Hw w (nth_error_In _ _ Ew)) as (v & Hv & Lv). apply Hy in Hv. subst x. destruct (Rlt_dec (snd v) th); [reflexivity|contradiction]. }
    split.
    + intros ((B & i & E & L) & Hx). split; [now exists i|]. split; [exact L|]. split; [lia|]. now apply Hrow.
    + intros ((i & E) & L & B & Hx). assert (B' : (kappa < length a - 1)%nat) by lia. split; [split; [exact B'|now exists i]|]. now apply Hrow.
Qed.

(** ** The samples are reproduced *)
Lemma mean_const l m c : is_mean l m -> (forall x, In x l -> x = c) -> m = c.
Proof.
  intros [N E] H. assert (T : total l = (c * INR (length l))%R).
  { clear N E. induction l as [|x l IH]; [cbn; ring|]. cbn [total length]. rewrite S_INR, IH by (intros; apply H; now right). rewrite (H x) by now left. ring. }
  rewrite T in E. apply Rmult_eq_reg_r with (INR (length l)); [exact E|]. apply Rgt_not_eq. now apply len_pos.
Qed.
Lemma column_const vs c xe : (forall v, In v vs -> v = c) -> column_spec vs xe ->
  fst xe = Some c /\ (snd xe = Some (RtoC 0) \/ (length vs = 1%nat /\ snd xe = None)).
Proof.
  intros H (x & Ex & M1 & M2 & S2 & S1).
  assert (P1 : forall y, In y (map fst vs) -> y = fst c). { intros y Hy. apply in_map_iff in Hy. destruct Hy as (v & <- & Hv). now rewrite (H v Hv). }
  assert (P2 : forall y, In y (map snd vs) -> y = snd c). { intros y Hy. apply in_map_iff in Hy. destruct Hy as (v & <- & Hv). now rewrite (H v Hv). }
  assert (x = c). { assert (A := mean_const _ _ _ M1 P1). assert (B := mean_const _ _ _ M2 P2). destruct x, c. cbn in *. congruence. } subst x.
  split; [exact Ex|]. destruct (le_lt_dec 2 (length vs)) as [L|L].
  - left. destruct (S2 L) as (e & Ee & Z1 & Z2). rewrite Ee. f_equal. destruct e as [s t]. cbn in *.
    assert (s = 0)%R. { apply (proj2 (std_zero _ _ _ M1 Z1 ltac:(now rewrite map_length))). intros y Hy. now apply P1. }
    assert (t = 0)%R. { apply (proj2 (std_zero _ _ _ M2 Z2 ltac:(now rewrite map_length))). intros y Hy. now apply P2. }
    subst. reflexivity.
  - right. split; [|apply S1; lia]. destruct M1 as [N _]. destruct vs as [|v [|w vs]]; [easy|reflexivity|cbn in L; lia].
Qed.
Lemma Forall2_In_r {A B} (P : A -> B -> Prop) l l' : Forall2 P l l' -> forall y, In y l' -> exists x, In x l /\ P x y.
Proof. induction 1 as [|x y l l' Hxy H IH]; intros z Hz; [destruct Hz|]. destruct Hz as [<-|Hz]; [exists x; split; [now left|assumption]|]. destruct (IH z Hz) as (u & Hu & Pu). exists u. split; [now right|assumption]. Qed.
Theorem reproduces z_out z_in valid_z f fs k res i zi fi j xe : good_kind k ->
  averaged z_out z_in valid_z (FctZ f) fs k = Ok res ->
  (Z.of_nat i <= k_start k + 1)%Z -> (Z.of_nat i < k_stop k)%Z -> nth_error z_in i = Some zi -> nth_error f i = Some fi ->
  nth_error z_out j = Some zi -> nth_error res j = Some xe -> fst xe = Some fi /\ (snd xe = Some (RtoC 0) \/ snd xe = None).
Proof.
  intros Hk H Hi Hs Hz Hf Hj Hx. destruct (averaged_general _ _ _ _ _ _ _ Hk H) as (a & mask & Ea & La & _ & Nv & Lr & Hres).
  destruct (Hres j zi xe Hj Hx) as (vs & Hvs & Hcol).
  assert (Hc : forall v, In v vs -> v = fi).
  { intros v Hv. destruct (Forall2_In_r _ _ _ Hvs v Hv) as (kappa & Hin & (l & El & Ev)).
    apply valids_In in Hin. apply (In_numbers k (length a) kappa Hk) in Hin. destruct Hin as (B & i' & E & L).
    apply (pade_interpolates CF _ _ a i zi fi l kappa v Ea); [| |exact El|lia|exact Ev].
    - revert Hz. rewrite <- (firstn_skipn (Z.to_nat (k_stop k)) z_in) at 1. intros Hz.
      rewrite nth_error_app1 in Hz; [exact Hz|]. rewrite firstn_length. apply Nat.min_glb_lt; [lia|].
      rewrite <- (firstn_skipn (Z.to_nat (k_stop k)) z_in). apply nth_error_Some. congruence.
    - revert Hf. rewrite <- (firstn_skipn (Z.to_nat (k_stop k)) f) at 1. intros Hf.
      rewrite nth_error_app1 in Hf; [exact Hf|]. rewrite firstn_length. apply Nat.min_glb_lt; [lia|].
      rewrite <- (firstn_skipn (Z.to_nat (k_stop k)) f). apply nth_error_Some. congruence. }
  destruct (column_const vs fi xe Hc Hcol) as (E1 & [E2|[_ E2]]); auto.
Qed.

(** ** The call returns *)
Lemma calc_rows_ok z_out zin a : length a = length zin -> a <> [] -> exists rows, calc_rows z_out zin a = Ok rows.
Proof.
  intros Hl Hn. unfold calc_rows. rewrite Hl, Nat.eqb_refl. cbn [negb]. destruct a as [|a0 a]; [easy|].
  destruct (all_ok_spec (fun z => calc_iterator (K := CF) z zin (a0 :: a)) (fun _ _ => True) z_out) as (r & -> & _).
  { intros z _. unfold calc_iterator. match goal with |- context [negb (?x =? ?y)%nat] => destruct (Nat.eqb_spec x y) as [_|N]; [|exfalso; exact (N Hl)] end. cbn [negb]. eexists. split; [reflexivity|exact Logic.I]. }
  eexists. reflexivity.
Qed.
Theorem averaged_returns (z_out z_in : list C) valid_z (f : list C) k (a : list (option C)) : good_kind k ->
  let zin := firstn (Z.to_nat (k_stop k)) z_in in
  coefficients (K := CF) zin (firstn (Z.to_nat (k_stop k)) f) = Ok a -> (k_start k + 1 < Z.of_nat (length a))%Z ->
  (forall kappa z, (exists i, Z.of_nat kappa = (k_start k + 2 * Z.of_nat i)%Z) -> (Z.of_nat kappa < k_stop k)%Z -> (kappa + 1 < length a)%nat -> In z z_out ->
     exists v, yields zin a kappa z v) ->
  exists res, averaged z_out z_in valid_z (FctZ f) None k = Ok res.
Proof.
  intros Hk zin Ha Hs Hy. unfold averaged. cbv zeta. fold zin. assert (Ha1 : given_coeff zin (Z.to_nat (k_stop k)) (FctZ f) = Ok a) by exact Ha. rewrite Ha1. cbn [bind].
  assert (La : length a = length zin).
  { assert (X := Pade_Proofs.coefficients_length CF _ _ _ Ha). unfold coefficients in Ha.
    match type of Ha with context [negb (?x =? ?y)%nat] => destruct (Nat.eqb_spec x y) as [E|]; [|discriminate Ha] end. exact (eq_trans X (eq_sym E)). }
  assert (Na : a <> []) by (intros ->; destruct Hk as (K0 & _); cbn in Hs; lia).
  destruct (calc_rows_ok z_out zin a La Na) as (rows & Er). rewrite Er. cbn [bind].
  destruct (calc_rows_inv _ _ _ _ Er) as (F & -> & _ & _ & LF & HF). rewrite islice_map.
  fold (numbers k (length a)). set (ks := numbers k (length a)).
  assert (Hks : forall kappa, In kappa ks -> has_nan (F kappa) = false).
  { intros kappa Hin. apply (In_numbers k (length a) kappa Hk) in Hin. destruct Hin as (B & i & E & L).
    destruct (has_nan (F kappa)) eqn:En; [|reflexivity]. exfalso. unfold has_nan in En. apply existsb_exists in En. destruct En as (o & Ho & Hb).
    apply In_nth_error in Ho. destruct Ho as [j Hj].
    assert (Lj : (j < length z_out)%nat). { rewrite <- (LF kappa). apply nth_error_Some. congruence. }
    destruct (nth_error z_out j) as [z|] eqn:Ez; [|apply nth_error_None in Ez; lia].
    destruct (HF kappa j z B Ez) as (o' & Ho' & Hy'). rewrite Hj in Ho'. injection Ho' as <-.
    destruct (Hy kappa z ltac:(now exists i) L ltac:(lia) (nth_error_In _ _ Ez)) as (v & Hv). apply Hy' in Hv. subst o. discriminate. }
  assert (Kl : (0 < Z.to_nat (kind_len k))%nat). { rewrite (kind_len_spec k Hk). destruct Hk as (K0 & K1 & K2). unfold half_up. lia. }
  destruct (Z.to_nat (kind_len k)) as [|n] eqn:En; [lia|].
  assert (Hne : ks <> []).
  { assert (Hin : In (Z.to_nat (k_start k)) ks). { apply (In_numbers k (length a) _ Hk). destruct Hk as (K0 & K1 & K2). split; [lia|]. exists 0%nat. lia. }
    intros E. rewrite E in Hin. destruct Hin. }
  unfold average, rows_1d. cbn [repeat existsb orb negb]. change (true :: repeat true n) with (repeat true (S n)).
  rewrite kept_valids, valids_repeat_true, firstn_map.
  assert (E0 : existsb has_nan (map F (firstn (S n) ks)) = false).
  { apply Bool.not_true_is_false. intros E. apply existsb_exists in E. destruct E as (r & Hr & Hb). apply in_map_iff in Hr. destruct Hr as (kappa & <- & Hin).
    rewrite Hks in Hb; [discriminate|]. rewrite <- (firstn_skipn (S n) ks). apply in_or_app. now left. }
  rewrite E0. cbn [bind]. destruct ks as [|k0 ks]; [easy|]. cbn [firstn map mean_err]. eexists. reflexivity.
Qed.
