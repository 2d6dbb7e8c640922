(** Specification of the bucketed multi-exponentiation. *)
From Coq Require Import List ZArith.
From Verif Require Import Field BucketModel.
Import ListNotations.

(** A group of points of [y^2 = x^3 + b]: the coordinates of its elements ([None] is the
    point at infinity) and the chord and tangent rules that define its addition. *)
Record Curve (K : Field) (F : Field) (M : Mod F) := mkCurve {
  coeff_b : K;
  xy : M -> option (K * K);
  xy_0 : forall a, xy a = None <-> a = m0;
  xy_inj : forall a b, xy a = xy b -> a = b;
  xy_curve : forall a x y, xy a = Some (x, y) -> (y * y = x * x * x + coeff_b)%F;
  xy_neg : forall a x y, xy a = Some (x, y) -> xy (mopp a) = Some (x, fopp y);
  xy_chord : forall a b x1 y1 x2 y2, xy a = Some (x1, y1) -> xy b = Some (x2, y2) -> x1 <> x2 ->
    let m := ((y2 - y1) / (x2 - x1))%F in let x3 := (m * m - x1 - x2)%F in
    xy (madd a b) = Some (x3, (m * (x1 - x3) - y1)%F);
  xy_tangent : forall a x y, xy a = Some (x, y) -> y <> f0 ->
    let m := ((1 + 1 + 1) * (x * x) / ((1 + 1) * y))%F in let x3 := (m * m - x - x)%F in
    xy (madd a a) = Some (x3, (m * (x - x3) - y)%F);
  two_neq_0 : (1 + 1 <> (0 : K))%F;
}.
Arguments xy {_ _ _} _ _. Arguments coeff_b {_ _ _} _.

Section Spec.
Context {K F : Field} {M : Mod F} (C : Curve K F M).
(** An affine or Jacobian point stands for a group element. *)
Definition affine_is (p : affine K) (a : M) : Prop := if ainf p then a = m0 else xy C a = Some (ax p, ay p).
Definition jac_is (p : jac K) (a : M) : Prop :=
  (jz p = f0 /\ a = m0) \/ (jz p <> f0 /\ xy C a = Some (jx p / (jz p * jz p), jy p / (jz p * jz p * jz p)))%F.
(** Sums of points. *)
Definition sum_of (l : list M) : M := fold_right madd m0 l.
(** [subseq l m]: [l] is [m] with some elements removed. *)
Inductive subseq {T} : list T -> list T -> Prop :=
| sub_nil m : subseq [] m
| sub_skip x l m : subseq l m -> subseq l (x :: m)
| sub_take x l m : subseq l m -> subseq (x :: l) (x :: m).
(** Points are in general position: none is zero and disjoint parts of the list have
    neither equal nor opposite sums. *)
Definition general_position (ps : list M) : Prop :=
  ~ In m0 ps /\ forall A B, A <> [] -> B <> [] -> subseq (A ++ B) ps -> sum_of A <> sum_of B /\ sum_of A <> mopp (sum_of B).
End Spec.
