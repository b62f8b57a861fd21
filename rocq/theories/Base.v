(** * Base: exceptions as values, and fields.

    Shared vocabulary of all models.  Nothing in this file models gftool code by itself. *)
From Coq Require Import List Arith ZArith Lia Bool Field QArith Qcanon.
Import ListNotations.

(** Python exceptions (and the event "numpy produced inf/nan by a division by zero", which is
    outside the exact-arithmetic model) are values. *)
Inductive exn : Set :=
| ValueError | TypeError | RuntimeError | IndexError | AssertionError
| NotImplementedError | LinAlgError | ZeroDivisionError
| NonFinite        (* numpy would continue with inf/nan; not a Python exception *)
| OutOfFuel.       (* model artefact: recursion bound exhausted *)

Inductive result (A : Type) : Type :=
| Ok (a : A)
| Err (e : exn).
Arguments Ok {A} a.
Arguments Err {A} e.

Definition bind {A B} (x : result A) (f : A -> result B) : result B :=
  match x with Ok a => f a | Err e => Err e end.

Declare Scope res_scope.
Delimit Scope res_scope with res.
Notation "'do' x <- a ; b" := (bind a (fun x => b))
  (at level 200, x pattern, a at level 100, b at level 200) : res_scope.
Open Scope res_scope.

Definition is_ok {A} (x : result A) : bool := match x with Ok _ => true | Err _ => false end.

(** A field with decidable (Leibniz) equality: exact stand-in for complex (or real) floating
    point numbers. *)
Record Fld : Type := mkFld {
  car :> Type;
  F0 : car; F1 : car;
  Fadd : car -> car -> car; Fmul : car -> car -> car;
  Fsub : car -> car -> car; Fopp : car -> car;
  Fdiv : car -> car -> car; Finv : car -> car;
  Fth : field_theory F0 F1 Fadd Fmul Fsub Fopp Fdiv Finv (@eq car);
  Feq_dec : forall x y : car, {x = y} + {x <> y} }.

Arguments F0 {_}. Arguments F1 {_}.
Arguments Fadd {_}. Arguments Fmul {_}. Arguments Fsub {_}. Arguments Fopp {_}.
Arguments Fdiv {_}. Arguments Finv {_}. Arguments Feq_dec {_}.

Declare Scope fld_scope.
Delimit Scope fld_scope with fld.
Notation "0" := F0 : fld_scope.
Notation "1" := F1 : fld_scope.
Infix "+" := Fadd : fld_scope.
Infix "*" := Fmul : fld_scope.
Infix "-" := Fsub : fld_scope.
Notation "- x" := (Fopp x) : fld_scope.
Infix "/" := Fdiv : fld_scope.

(** Division as numpy performs it, with the non-finite outcome made explicit. *)
Definition fdiv {K : Fld} (x y : K) : result K :=
  if Feq_dec y 0%fld then Err NonFinite else Ok (x / y)%fld.

(** The rationals, used for executable examples and witnesses. *)
Lemma Qc_field_th : field_theory (Q2Qc 0) (Q2Qc 1) Qcplus Qcmult Qcminus Qcopp Qcdiv Qcinv (@eq Qc).
Proof. exact Qcft. Qed.

Definition QcF : Fld :=
  mkFld Qc (Q2Qc 0) (Q2Qc 1) Qcplus Qcmult Qcminus Qcopp Qcdiv Qcinv Qc_field_th Qc_eq_dec.

(** Sums over lists and over initial segments of the naturals. *)
Section Sums.
Context {K : Fld}.
Local Open Scope fld_scope.
Definition lsum (l : list K) : K := fold_right Fadd 0 l.
(** [nsum n f] is f 0 + ... + f (n-1). *)
Fixpoint nsum (n : nat) (f : nat -> K) : K :=
  match n with O => 0 | S m => nsum m f + f m end.
(** Natural powers and natural numbers in the field. *)
Fixpoint fpow (x : K) (n : nat) : K := match n with O => 1 | S m => x * fpow x m end.
Fixpoint fnat (n : nat) : K := match n with O => 0 | S m => fnat m + 1 end.
End Sums.

(** ** Extended values: [None] stands for a non-finite (inf/nan) array entry.

    numpy keeps computing with such entries; in the model they are absorbing, so a [Some] result
    always means that no division by zero happened on the way. *)
Section Ext.
Context {K : Fld}.
Local Open Scope fld_scope.
Definition ext := option K.
Definition lift2 (f : K -> K -> K) (x y : ext) : ext :=
  match x, y with Some a, Some b => Some (f a b) | _, _ => None end.
Definition oadd : ext -> ext -> ext := lift2 Fadd.
Definition osub : ext -> ext -> ext := lift2 Fsub.
Definition omul : ext -> ext -> ext := lift2 Fmul.
Definition odiv (x y : ext) : ext :=
  match x, y with
  | Some a, Some b => if Feq_dec b 0 then None else Some (a / b)
  | _, _ => None
  end.
End Ext.
Arguments ext K : clear implicits.

(** Decidable equality with zero in conditionals. *)
Definition feqb {K : Fld} (x y : K) : bool := if Feq_dec x y then true else false.

(** Display helpers for executable examples over the rationals. *)
Definition qc (q : Q) : QcF := Q2Qc q.
Definition showx (x : ext QcF) : option Q := option_map this x.
Definition show_list (r : result (list (ext QcF))) : result (list (option Q)) :=
  match r with Ok l => Ok (map showx l) | Err e => Err e end.
Definition show (r : result QcF) : result Q := match r with Ok v => Ok (this v) | Err e => Err e end.
