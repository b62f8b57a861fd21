(** * Triangular form of matrices over an algebraically closed field, and rank revealing bases *)
From Coq Require Import List Arith Lia Bool Field Classical.
From Verif Require Import Base FSum Herm_Model Herm_Spec Herm_Proofs Herm_Gauss Linalg_Model Linalg_Proofs Mat PPade_Lin PPade_Rank.
Import ListNotations.
Local Open Scope fld_scope.

Section S.
Variable K : Fld.
Add Field KFsch : (Fth K).
Definition alg_closed : Prop := forall n (d : nat -> K), d (S n) <> 0 -> exists x, ev K (S (S n)) d x = 0.
Hypothesis HK : alg_closed.
Notation app n A x := (fun i => nsum n (fun j => A i j * x j)).

Fixpoint kry (m : nat) (A : nat -> nat -> K) (v : nat -> K) (t : nat) : nat -> K :=
  match t with O => v | S t => app m A (kry m A v t) end.
Lemma app_comb m (A : nat -> nat -> K) n (a : nat -> K) (v : nat -> nat -> K) i :
  nsum m (fun j => A i j * nsum n (fun t => a t * v t j)) = nsum n (fun t => a t * nsum m (fun j => A i j * v t j)).
Proof.
  rewrite (nsum_ext K m _ (fun j => nsum n (fun t => a t * (A i j * v t j)))) by (intros; rewrite <- nsum_mul_l; apply nsum_ext; intros; ring).
  rewrite nsum_swap. apply nsum_ext. intros t Ht. now rewrite nsum_mul_l.
Qed.
Lemma telescope n (H : nat -> K) (v : nat -> K) : nsum n (fun t => H (S t) * v (S t)) - nsum n (fun t => H t * v t) = H n * v n - H 0%nat * v 0%nat.
Proof. induction n as [|n IH]; cbn [nsum]; [ring|]. transitivity (nsum n (fun t => H (S t) * v (S t)) - nsum n (fun t => H t * v t) + H (S n) * v (S n) - H n * v n); [ring|]. rewrite IH. ring. Qed.
Lemma eigvec_of_poly m (A : nat -> nat -> K) (v : nat -> K) : (exists i, (i < m)%nat /\ v i <> 0) -> forall n d, d n <> 0 ->
  (forall i, (i < m)%nat -> nsum (S n) (fun t => d t * kry m A v t i) = 0) ->
  exists lam w, (exists i, (i < m)%nat /\ w i <> 0) /\ forall i, (i < m)%nat -> nsum m (fun j => A i j * w j) = lam * w i.
Proof.
  intros (i0 & Hi0 & Hv). induction n as [|n IH]; intros d Hd H0.
  - exfalso. specialize (H0 i0 Hi0). cbn [nsum kry] in H0. assert (E : d 0%nat * v i0 = 0) by (rewrite <- H0; ring). destruct (fmul_eq0 K _ _ E); contradiction.
  - destruct (HK n d Hd) as [lam Hl].
    set (H := fun t => ev K (S (S n) - t) (fun j => d (t + j)%nat) lam).
    assert (HS : forall t, (t <= S n)%nat -> H t = d t + lam * H (S t)).
    { intros t Ht. unfold H. replace (S (S n) - t)%nat with (S (S n - t)) by lia. rewrite ev_cons. rewrite Nat.add_0_r. f_equal. f_equal. replace (S (S n) - S t)%nat with (S n - t)%nat by lia.
      apply ev_ext. intros j _. f_equal. lia. }
    assert (H00 : H 0%nat = 0) by (unfold H; rewrite Nat.sub_0_r; exact Hl).
    assert (HN : H (S n) = d (S n)). { rewrite HS by lia. unfold H. replace (S (S n) - S (S n))%nat with 0%nat by lia. unfold ev. cbn [nsum]. ring. }
    set (w := fun i => nsum (S n) (fun t => H (S t) * kry m A v t i)).
    assert (Hw : forall i, (i < m)%nat -> nsum m (fun j => A i j * w j) = lam * w i).
    { intros i Hi. unfold w. rewrite (app_comb m A (S n) (fun t => H (S t)) (kry m A v) i). rewrite <- nsum_mul_l.
      rewrite (nsum_ext K (S n) (fun t => lam * (H (S t) * kry m A v t i)) (fun t => H t * kry m A v t i - d t * kry m A v t i)) by (intros t Ht; rewrite (HS t) by lia; ring).
      rewrite nsum_sub. assert (T := telescope (S n) H (fun t => kry m A v t i)). cbv beta in T. rewrite H00, HN in T.
      assert (Z := H0 i Hi). change (nsum (S (S n)) (fun t => d t * kry m A v t i)) with (nsum (S n) (fun t => d t * kry m A v t i) + d (S n) * kry m A v (S n) i) in Z.
      change (fun t => H (S t) * nsum m (fun j => A i j * kry m A v t j)) with (fun t => H (S t) * kry m A v (S t) i).
      set (a := nsum (S n) (fun t => H (S t) * kry m A v (S t) i)) in *. set (b := nsum (S n) (fun t => H t * kry m A v t i)) in *. set (c := nsum (S n) (fun t => d t * kry m A v t i)) in *.
      assert (E : a - b + c = 0) by (rewrite T; refine (eq_trans _ Z); ring). transitivity (a - b + c + (b - c)); [ring|]. rewrite E. ring. }
    assert (Dec : (exists i, (i < m)%nat /\ w i <> 0) \/ forall i, (i < m)%nat -> w i = 0).
    { clearbody w. clear. induction m as [|m' IH]; [right; intros; lia|]. destruct IH as [(i & Hi & E)|IH]; [left; exists i; split; [lia|exact E]|].
      destruct (Feq_dec (w m') 0) as [E|E]; [right|left; exists m'; split; [lia|exact E]]. intros i Hi. destruct (Nat.eq_dec i m') as [->|Ne]; [exact E|apply IH; lia]. }
    destruct Dec as [Dec|Dec]; [exists lam, w; now split|]. apply (IH (fun t => H (S t))); [now rewrite HN|exact Dec].
Qed.
Lemma top_index m (u : nat -> K) : (exists j, (j < m)%nat /\ u j <> 0) -> exists n, (n < m)%nat /\ u n <> 0 /\ forall j, (n < j)%nat -> (j < m)%nat -> u j = 0.
Proof.
  induction m as [|m IH]; intros (j & Hj & E); [lia|]. destruct (Feq_dec (u m) 0) as [Z|Z].
  - destruct IH as (n & Hn & En & H); [exists j; split; [|exact E]; destruct (Nat.eq_dec j m) as [->|]; [contradiction|lia]|]. exists n. split; [lia|]. split; [exact En|]. intros i Hi Hi'. destruct (Nat.eq_dec i m) as [->|]; [exact Z|apply H; lia].
  - exists m. split; [lia|]. split; [exact Z|]. intros; lia.
Qed.
Lemma eigvec_exists m (A : nat -> nat -> K) : (0 < m)%nat -> exists lam w, (exists i, (i < m)%nat /\ w i <> 0) /\ forall i, (i < m)%nat -> nsum m (fun j => A i j * w j) = lam * w i.
Proof.
  intros Hm. set (v := fun _ : nat => 1 : K). assert (Hv : exists i, (i < m)%nat /\ v i <> 0) by (exists 0%nat; split; [exact Hm|apply F1_neq_0]).
  destruct (wide_null K m (S m) (fun i t => kry m A v t i) ltac:(lia)) as (u & Hu & _ & Z). destruct (top_index _ _ Hu) as (n & Hn & En & Hz).
  apply (eigvec_of_poly m A v Hv n u En). intros i Hi. rewrite <- (Z i Hi). replace (S m) with (S n + (m - n))%nat by lia. rewrite nsum_split.
  rewrite (nsum_0' K (m - n)) by (intros j Hj; rewrite Hz by lia; ring).
  rewrite (nsum_ext K (S n) _ (fun t => kry m A v t i * u t)) by (intros; ring). ring.
Qed.
(** a basis with given first vector *)
Definition first_col (p : nat) (w : nat -> K) (i j : nat) : K := if (j =? 0)%nat then w i else kron i (if (j =? p)%nat then 0 else j)%nat.
Lemma first_col_inj m p w : (p < S m)%nat -> w p <> 0 -> inj K (S m) (first_col p w).
Proof.
  intros Hp Hw u Hu.
  assert (E : forall i, (i < S m)%nat -> w i * u 0%nat + nsum m (fun j => kron i (if (S j =? p)%nat then 0 else S j)%nat * u (S j)) = 0).
  { intros i Hi. rewrite <- (Hu i Hi). rewrite nsum_S_l. reflexivity. }
  assert (U0 : u 0%nat = 0).
  { assert (X := E p Hp). rewrite (nsum_0' K m) in X. 2:{ intros j Hj. unfold kron. destruct (Nat.eqb_spec (S j) p) as [Y|Y]; [destruct (Nat.eqb_spec p 0); [lia|ring]|]. destruct (Nat.eqb_spec p (S j)); [lia|ring]. }
    assert (X' : w p * u 0%nat = 0) by (rewrite <- X; ring). destruct (fmul_eq0 K _ _ X'); [contradiction|assumption]. }
  intros j Hj. destruct j as [|j]; [exact U0|]. set (s := (if (S j =? p)%nat then 0 else S j)%nat). assert (Hs : (s < S m)%nat) by (unfold s; destruct (S j =? p)%nat; lia).
  assert (X := E s Hs). rewrite U0 in X. rewrite (nsum_single K m j) in X by (try lia; intros l Hl Hne; unfold s, kron; destruct (Nat.eqb_spec (S j) p), (Nat.eqb_spec (S l) p); try lia; match goal with |- context[Nat.eqb ?a ?b] => destruct (Nat.eqb_spec a b) end; try lia; ring).
  fold s in X. unfold kron in X. rewrite Nat.eqb_refl in X. rewrite <- X. ring.
Qed.
Theorem schur m : forall A : nat -> nat -> K, exists X U, inj K m X /\ (forall i j, (i < m)%nat -> (j < i)%nat -> U i j = 0) /\
  forall i j, (i < m)%nat -> (j < m)%nat -> nsum m (fun k => A i k * X k j) = nsum m (fun l => X i l * U l j).
Proof.
  induction m as [|m IH]; intros A.
  - exists (fun _ _ => 0), (fun _ _ => 0). repeat split; intros; lia || (intros u _ j Hj; lia).
  - destruct (eigvec_exists (S m) A ltac:(lia)) as (lam & w & (p & Hp & Ew) & Hw).
    set (X0 := first_col p w). assert (I0 : inj K (S m) X0) by (apply first_col_inj; assumption).
    destruct (inj_inverse K (S m) X0 I0) as (Y & IY & Y1 & Y2).
    set (Psi := fun i j => nsum (S m) (fun k => Y i k * nsum (S m) (fun l => A k l * X0 l j))).
    assert (AX : forall (x : nat -> K) i, (i < S m)%nat -> nsum (S m) (fun k => A i k * nsum (S m) (fun l => X0 k l * x l)) = nsum (S m) (fun k => X0 i k * nsum (S m) (fun l => Psi k l * x l))).
    { intros x i Hi. set (e := fun i => nsum (S m) (fun k => A i k * nsum (S m) (fun l => X0 k l * x l))). change (e i = nsum (S m) (fun k => X0 i k * nsum (S m) (fun l => Psi k l * x l))). rewrite <- (Y1 e i Hi).
      apply nsum_ext. intros k Hk. f_equal. unfold Psi. rewrite (nsum_ext K (S m) (fun l => nsum (S m) _ * x l) (fun l => nsum (S m) (fun q => Y k q * (nsum (S m) (fun r => A q r * X0 r l) * x l)))) by (intros; rewrite <- nsum_mul_r; apply nsum_ext; intros; ring).
      rewrite nsum_swap. apply nsum_ext. intros q Hq. rewrite nsum_mul_l. f_equal. unfold e.
      rewrite (nsum_ext K (S m) (fun k0 => A q k0 * nsum (S m) _) (fun k0 => nsum (S m) (fun l => A q k0 * X0 k0 l * x l))) by (intros; rewrite <- nsum_mul_l; apply nsum_ext; intros; ring).
      rewrite nsum_swap. apply nsum_ext. intros l Hl. now rewrite nsum_mul_r. }
    assert (P0 : forall i, (i < S m)%nat -> Psi i 0%nat = if (i =? 0)%nat then lam else 0).
    { intros i Hi. unfold Psi. rewrite (nsum_ext K (S m) _ (fun k => Y i k * nsum (S m) (fun l => X0 k l * (if (l =? 0)%nat then lam else 0)))).
      - now apply (Y2 (fun l => if (l =? 0)%nat then lam else 0)).
      - intros k Hk. f_equal. rewrite (nsum_single K (S m) 0 (fun l => X0 k l * (if (l =? 0)%nat then lam else 0))).
        + cbn [Nat.eqb]. change (nsum (S m) (fun l => A k l * w l) = w k * lam). rewrite Hw by exact Hk. ring.
        + lia.
        + intros l Hl Hne. destruct (Nat.eqb_spec l 0); [contradiction|ring]. }
    destruct (IH (fun i j => Psi (S i) (S j))) as (X' & U' & IX & HU & HX).
    set (Z := blockdiag K 1 (fun _ _ => 1) X').
    assert (IZ : inj K (S m) Z). { apply (blockdiag_inj K 1 m); [|exact IX]. intros u Hu j Hj. specialize (Hu 0%nat ltac:(lia)). cbn [nsum] in Hu. assert (j = 0%nat) by lia. subst. rewrite <- Hu. ring. }
    set (U := fun i j => match i, j with O, O => lam | S _, O => 0 | O, S j => nsum m (fun k => Psi 0%nat (S k) * X' k j) | S i, S j => U' i j end).
    exists (fun i j => nsum (S m) (fun k => X0 i k * Z k j)), U. split; [|split].
    + intros u Hu. apply IZ. apply I0. intros i Hi. rewrite <- (Hu i Hi). 
      rewrite (nsum_ext K (S m) _ (fun j => nsum (S m) (fun k => X0 i j * Z j k * u k))) by (intros; rewrite <- nsum_mul_l; apply nsum_ext; intros; ring).
      rewrite nsum_swap. apply nsum_ext. intros l Hl. now rewrite nsum_mul_r.
    + intros [|i] [|j] Hi Hj; try lia; [reflexivity|]. cbn [U]. apply HU; lia.
    + intros i j Hi Hj. rewrite (AX (fun k => Z k j) i Hi).
      rewrite (nsum_ext K (S m) (fun l => nsum (S m) _ * U l j) (fun l => nsum (S m) (fun k => X0 i k * (Z k l * U l j)))) by (intros; rewrite <- nsum_mul_r; apply nsum_ext; intros; ring).
      rewrite nsum_swap. apply nsum_ext. intros k Hk. rewrite nsum_mul_l. f_equal.
      refine (eq_trans _ (eq_sym (blockdiag_mul K 1 m (fun _ _ => 1) X' (fun l => U l j) k Hk))). unfold Z.
      rewrite nsum_S_l, P0 by exact Hk. unfold blockdiag. destruct k as [|k].
      * cbn [Nat.eqb Nat.ltb Nat.leb nsum]. destruct j as [|j].
        -- cbn [Nat.ltb Nat.leb U]. rewrite (nsum_0' K m) by (intros l Hl; cbn [Nat.ltb Nat.leb]; ring). ring.
        -- cbn [Nat.ltb Nat.leb U]. rewrite (nsum_ext K m (fun i0 => Psi 0%nat (S i0) * _) (fun k => Psi 0%nat (S k) * X' k j)) by (intros l Hl; cbn [Nat.ltb Nat.leb]; now rewrite !Nat.sub_0_r || (replace (S l - 1)%nat with l by lia; replace (S j - 1)%nat with j by lia; reflexivity)). ring.
      * cbn [Nat.eqb Nat.ltb Nat.leb]. destruct j as [|j].
        -- cbn [Nat.ltb Nat.leb U Nat.add]. rewrite !(nsum_0' K m) by (intros l Hl; cbn [Nat.ltb Nat.leb]; ring). ring.
        -- cbn [Nat.ltb Nat.leb U Nat.add]. replace (S k - 1)%nat with k by lia. rewrite <- HX by lia.
           rewrite (nsum_ext K m (fun i0 => Psi (S k) (S i0) * _) (fun l => Psi (S k) (S l) * X' l j)) by (intros l Hl; cbn [Nat.ltb Nat.leb]; replace (S l - 1)%nat with l by lia; replace (S j - 1)%nat with j by lia; reflexivity). ring.
Qed.
Theorem eig_exists m A B : exists lam, eig_spec K m A B lam.
Proof.
  destruct (classic (inj K m B)) as [HB|N]; [|exists []; intros X; contradiction].
  destruct (inj_inverse K m B HB) as (Bi & _ & B1 & _).
  destruct (schur m (fun i j => nsum m (fun k => Bi i k * A k j))) as (X & U & IX & HU & HX).
  exists (map (fun j => U j j) (seq 0 m)). intros _. split; [now rewrite map_length, seq_length|]. exists X, U. split; [exact IX|]. split; [intros; apply HU; assumption|]. split.
  - intros j Hj. rewrite (nth_indep _ 0 (U 0%nat 0%nat)) by (now rewrite map_length, seq_length). rewrite (map_nth (fun j => U j j) (seq 0 m) 0%nat j), seq_nth by exact Hj. reflexivity.
  - intros i j Hi Hj. rewrite <- (B1 (fun i => nsum m (fun k => A i k * X k j)) i Hi). apply nsum_ext. intros k Hk. f_equal. rewrite <- HX by assumption.
    rewrite (nsum_ext K m (fun k0 => nsum m _ * X k0 j) (fun l => nsum m (fun q => Bi k q * (A q l * X l j)))) by (intros; rewrite <- nsum_mul_r; apply nsum_ext; intros; ring).
    rewrite nsum_swap. apply nsum_ext. intros q Hq. now rewrite nsum_mul_l.
Qed.

(** ** a rank revealing basis *)
Lemma inj_ext n (A B : nat -> nat -> K) : (forall i j, (i < n)%nat -> (j < n)%nat -> A i j = B i j) -> inj K n A -> inj K n B.
Proof. intros E H u Hu. apply H. intros i Hi. rewrite <- (Hu i Hi). apply nsum_ext. intros j Hj. now rewrite E. Qed.
Lemma inj_transpose n (A : nat -> nat -> K) : inj K n A -> inj K n (fun i j => A j i).
Proof.
  intros H u Hu j Hj. destruct (inj_inverse K n A H) as (Y & _ & Y1 & _).
  assert (E := Y1 (fun i => kron i j)).
  transitivity (nsum n (fun i => u i * nsum n (fun k => A i k * nsum n (fun l => Y k l * kron l j)))).
  - rewrite (nsum_ext K n _ (fun i => u i * kron i j)) by (intros i Hi; now rewrite E). rewrite (nsum_single K n j) by (first [assumption | intros l Hl Hne; unfold kron; destruct (Nat.eqb_spec l j); [contradiction|ring]]).
    unfold kron. rewrite Nat.eqb_refl. ring.
  - rewrite (nsum_ext K n _ (fun i => nsum n (fun k => A i k * u i * nsum n (fun l => Y k l * kron l j)))) by (intros; rewrite <- nsum_mul_l; apply nsum_ext; intros; ring).
    rewrite nsum_swap. apply nsum_0'. intros k Hk. rewrite nsum_mul_r. rewrite (Hu k Hk). ring.
Qed.
Theorem basis_exists c (M : nat -> nat -> K) r0 : exists r V, (r <= r0)%nat /\ reveals K r c V (fun w => forall i, (i < r0)%nat -> nsum c (fun j => M i j * w j) = 0).
Proof.
  induction r0 as [|n (r & V & Hr & HI & Hc & HV)].
  - exists 0%nat, kron. split; [lia|]. split; [|split; [lia|]].
    + intros u Hu j Hj. rewrite <- (Hu j Hj). symmetry. now apply kron_sum.
    + intros w. split; intros _ i Hi; lia.
  - assert (Vt : inj K c (fun i j => V j i)) by (now apply inj_transpose).
    destruct (inj_surj K c (fun i j => V j i) (M n) Vt) as [a Ha].
    assert (Row : forall w, nsum c (fun j => M n j * w j) = nsum c (fun i => a i * nsum c (fun j => V i j * w j))).
    { intros w. rewrite (nsum_ext K c _ (fun j => nsum c (fun i => a i * (V i j * w j)))) by (intros j Hj; rewrite <- Ha by exact Hj; rewrite <- nsum_mul_r; apply nsum_ext; intros; ring).
      rewrite nsum_swap. apply nsum_ext. intros i Hi. now rewrite nsum_mul_l. }
    assert (Dec : (exists p, (r <= p < c)%nat /\ a p <> 0) \/ forall p, (r <= p < c)%nat -> a p = 0).
    { clear -c. induction c as [|c' IH]; [right; intros; lia|]. destruct IH as [(p & Hp & E)|IH]; [left; exists p; split; [lia|exact E]|].
      destruct (Feq_dec (a c') 0) as [E|E]; [right; intros p Hp; destruct (Nat.eq_dec p c') as [->|]; [exact E|apply IH; lia]|]. destruct (Nat.le_gt_cases r c') as [L|G]; [left; exists c'; split; [lia|exact E]|right; intros; lia]. }
    destruct Dec as [(p & Hp & Ep)|Z].
    + (* swap rows r and p, then replace row r by the new one *)
      set (V' := fun i j => if (i =? r)%nat then M n j else if (i =? p)%nat then V r j else V i j).
      assert (W : forall w, (forall i, (i < S r)%nat -> nsum c (fun j => V' i j * w j) = 0) <-> (forall i, (i < r)%nat -> nsum c (fun j => V i j * w j) = 0) /\ nsum c (fun j => M n j * w j) = 0).
      { intros w. split.
        - intros H. split; [|specialize (H r ltac:(lia)); unfold V' in H; rewrite Nat.eqb_refl in H; exact H]. intros i Hi. specialize (H i ltac:(lia)). unfold V' in H.
          destruct (Nat.eqb_spec i r); [lia|]. destruct (Nat.eqb_spec i p); [lia|exact H].
        - intros [H1 H2] i Hi. unfold V'. destruct (Nat.eqb_spec i r); [exact H2|]. destruct (Nat.eqb_spec i p); [lia|]. apply H1. lia. }
      exists (S r), V'. split; [lia|]. split; [|split; [lia|]].
      * intros u Hu. apply HI. assert (E1 : forall i, (i < c)%nat -> i <> p -> nsum c (fun j => V i j * u j) = 0).
        { intros i Hi Hne. destruct (Nat.eq_dec i r) as [->|Nr].
          - assert (X := Hu p ltac:(lia)). unfold V' in X. destruct (Nat.eqb_spec p r); [lia|]. now rewrite Nat.eqb_refl in X.
          - assert (X := Hu i Hi). unfold V' in X. destruct (Nat.eqb_spec i r); [lia|]. destruct (Nat.eqb_spec i p); [lia|exact X]. }
        intros i Hi. destruct (Nat.eq_dec i p) as [->|Np]; [|now apply E1].
        assert (X := Hu r ltac:(lia)). unfold V' in X. rewrite Nat.eqb_refl, Row in X. rewrite (nsum_single K c p) in X by (first [lia | intros l Hl Hne; rewrite E1 by assumption; ring]).
        destruct (fmul_eq0 K _ _ X); [contradiction|assumption].
      * intros w. rewrite W. rewrite <- HV. split.
        -- intros H. split; [intros i Hi; apply H; lia|apply H; lia].
        -- intros [H1 H2] i Hi. destruct (Nat.eq_dec i n) as [->|]; [exact H2|apply H1; lia].
    + exists r, V. split; [lia|]. split; [exact HI|]. split; [exact Hc|]. intros w. rewrite <- HV. split.
      * intros H i Hi. apply H. lia.
      * intros H i Hi. destruct (Nat.eq_dec i n) as [->|]; [|apply H; lia]. rewrite Row. apply nsum_0'. intros p Hp'. destruct (Nat.lt_ge_cases p r) as [L|G].
        -- rewrite (proj1 (HV w) H p L). ring.
        -- rewrite Z by lia. ring.
Qed.
End S.
