(** Polynomials over a field, independently of the code: coefficient functions,
    values, sums, products and roots of unity. *)
From Coq Require Import List Arith.
From Verif Require Import Field.
Import ListNotations.
Local Open Scope F_scope.

Section Spec.
Context {F : Field}.

(** The coefficient of X^i. *)
Definition coef (p : list F) (i : nat) : F := nth i p 0.
(** Two coefficient vectors for one polynomial (they may differ by trailing zeroes). *)
Definition same_poly (p q : list F) : Prop := forall i, coef p i = coef q i.
(** The value at [x]: the sum of p_i x^i. *)
Definition value (p : list F) (x : F) : F := fsum (map (fun i => coef p i * fpow x i) (seq 0 (length p))).
(** [c] is the coefficient function of the product: c_n = sum of p_i q_(n-i). *)
Definition product_coef (p q : list F) (n : nat) : F :=
  fsum (map (fun i => coef p i * coef q (n - i)) (seq 0 (S n))).
(** Leading coefficient not zero, or the constant zero. *)
Definition normal (p : list F) : Prop := p = [0] \/ (p <> [] /\ last p 0 <> 0).
(** The degree is less than [n]. *)
Definition degree_lt (p : list F) (n : nat) : Prop := forall i, (n <= i)%nat -> coef p i = 0.
(** [w] is a primitive [n]-th root of unity. *)
Definition primitive (n : nat) (w : F) : Prop :=
  fpow w n = 1 /\ forall d, (0 < d < n)%nat -> fpow w d <> 1.
(** Sizes the transforms support. *)
Definition supported (n : nat) : Prop := exists k, n = (2 ^ k)%nat \/ n = (3 * 2 ^ k)%nat.
End Spec.
