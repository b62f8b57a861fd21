(** * Witnesses against the contracts of pader and pade_lstsq, executable instances. *)
From Coq Require Import List Arith ZArith QArith Qcanon Lia Bool Field.
From Verif Require Import Base FSum Herm_Model Herm_Spec Herm_Proofs Herm_Proofs2 Herm_Gauss.
Import ListNotations.
Local Open Scope fld_scope.

(** Exact "is zero" test in place of [abs(x) <= rcond*norm(an)]. *)
Definition small0 {K : Fld} (_ : list K) (x : K) : bool := feqb x 0.
Definition show_pq (r : result (list QcF * list QcF)) : result (list Q * list Q) :=
  match r with Ok (p, q) => Ok (map (fun x : QcF => this x) p, map (fun x : QcF => this x) q) | Err e => Err e end.
Definition show_pqr (r : result (list QcF * list QcF * list QcF)) : result (list Q * list Q * list Q) :=
  match r with
  | Ok (p, q, s) => Ok (map (fun x : QcF => this x) p, map (fun x : QcF => this x) q, map (fun x : QcF => this x) s)
  | Err e => Err e end.
Definition lq (l : list Q) : list QcF := map qc l.

Section R.
Variable K : Fld.
Add Field KFr : (Fth K).
Variable nullvec : list (list K) -> list K.
Variable rank : list (list K) -> nat.

Lemma feqb_10 : feqb (1 : K) 0 = false.
Proof. unfold feqb. destruct (Feq_dec (1 : K) 0) as [e|]; [now destruct (F1_neq_0 K)|reflexivity]. Qed.
Lemma feqb_00 : feqb (0 : K) 0 = true.
Proof. unfold feqb. destruct (Feq_dec (0 : K) 0) as [e|n]; [reflexivity|now destruct n]. Qed.

(** num_deg = 0: the non-zero constant 1 is approximated by 0. *)
Theorem pader_num0 (an : list K) den : (den + 1 <= length an)%nat ->
  pader nullvec small0 rank an 0 den = Ok ([0], [1]).
Proof.
  intros H. unfold pader. rewrite (proj2 (Nat.ltb_ge (length an) (0 + den + 1)) ltac:(lia)). reflexivity.
Qed.

Lemma F1_not_0 : (1 : K) <> 0.
Proof. apply F1_neq_0. Qed.

(** The approximant 0/1 of the constant 1 with num_deg = 0 is not even correct at order 0. *)
Theorem pader_zero_refuted :
  exists an num den p q, (num + den + 1 <= length an)%nat /\
    pader nullvec small0 rank an num den = Ok (p, q) /\ ~ accurate p q an 1.
Proof.
  exists [1], 0%nat, 0%nat, [0], [1]. split; [cbn; lia|]. split; [apply pader_num0; cbn; lia|].
  intros H. specialize (H (ser_of [1]) (fun i _ => eq_refl) 0%nat ltac:(lia)).
  unfold ser_mul, ser_of in H. cbn in H. apply F1_not_0. rewrite <- H. ring.
Qed.

(** den_deg = 0: 1 + x raises. *)
Theorem pader_poly_refuted : pader nullvec small0 rank [1; 1] 1 0 = Err ValueError.
Proof.
  destruct (pader_den0 K nullvec small0 rank [1; 1] 1 ltac:(cbn; lia)) as [E|E]; [exfalso|exact E].
  unfold pader, small0 in E. cbn [length Nat.ltb Nat.leb Nat.add firstn forallb] in E. rewrite feqb_10 in E.
  cbn [andb] in E. unfold pader_loop, strip_coeffs, argmax_nonzero in E.
  cbn [bind Nat.eqb firstn fst snd find seq length nth] in E. rewrite feqb_10 in E.
  cbn [negb bind skipn rev app find seq length nth] in E. rewrite ?feqb_10 in E. discriminate E.
Qed.

(** The degree reduction of a polynomial ends at den_deg = 0 and raises: f = 1 with [1/1]. *)
Theorem pader_reduced_refuted : rank [[0; 0]] = 0%nat -> pader nullvec small0 rank [1; 0; 0] 1 1 = Err ValueError.
Proof.
  intros Hr. unfold pader, small0. cbn [length Nat.ltb Nat.leb Nat.add firstn forallb]. rewrite feqb_10.
  cbn [andb pader_loop Nat.eqb].
  change (Z.of_nat 1 <? 0)%Z with false. cbn [Z.to_nat Z.of_nat].
  match goal with |- context [rank ?m] => replace m with [[0 : K; 0]] by reflexivity end.
  rewrite Hr. cbn [Nat.ltb Nat.leb pader_loop Nat.eqb firstn bind fst snd].
  unfold strip_coeffs, argmax_nonzero. cbn [find seq length nth]. rewrite feqb_10.
  cbn [negb bind skipn rev app find seq length nth]. rewrite ?feqb_10. reflexivity.
Qed.

(** pade_lstsq with den_deg = 0 returns the untruncated series. *)
Theorem pade_lstsq_den0 lstsq (an : list K) num fix_q : (num + 1 <= length an)%nat ->
  pade_lstsq lstsq an num 0 fix_q = Ok (an, [1]).
Proof. intros H. unfold pade_lstsq. now rewrite (proj2 (Nat.ltb_ge (length an) (num + 0 + 1)) ltac:(lia)). Qed.
Theorem pade_lstsq_degree_refuted lstsq :
  exists (an : list K) num den p q, pade_lstsq lstsq an num den None = Ok (p, q) /\
    exists k, (num < k)%nat /\ nth k p 0 <> 0.
Proof.
  exists [1; 1], 0%nat, 0%nat, [1; 1], [1]. split; [apply pade_lstsq_den0; cbn; lia|].
  exists 1%nat. split; [lia|]. cbn. apply F1_not_0.
Qed.
(** The fix_q argument has no effect. *)
Theorem pade_lstsq_fix_ignored lstsq (an : list K) num den fix1 fix2 :
  pade_lstsq lstsq an num den fix1 = pade_lstsq lstsq an num den fix2.
Proof. reflexivity. Qed.
End R.

Definition rank1 (A : list (list QcF)) : nat :=
  if forallb (forallb (fun x => feqb x F0)) A then 0%nat else length A.
