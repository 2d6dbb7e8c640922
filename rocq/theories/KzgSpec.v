(** What a KZG opening means, independently of the code. *)
From Coq Require Import List Arith.
From Verif Require Import Field PolySpec.
Import ListNotations.

Section Spec.
Context {F : Field} {G1 G2 GT : Mod F}.
Local Open Scope M_scope.

(** A pairing of prime-order groups, written additively: linear in both arguments
    and not degenerate against the generator of the second group. *)
Definition pairing_for (e : G1 -> G2 -> GT) (base2 : G2) : Prop :=
  (forall a b h, e (a + b) h = e a h + e b h) /\
  (forall x a h, e (x *: a) h = x *: e a h) /\
  (forall a h h', e a (h + h') = e a h + e a h') /\
  (forall x a h, e a (x *: h) = x *: e a h) /\
  (forall a, e a base2 = m0 -> a = m0).

(** The commitment to [p] under the setup secret [s] and the generator [g]. *)
Definition com (g : G1) (s : F) (p : list F) : G1 := value p s *: g.

(** [w] opens [c] at [x] to [v]: c - v g = (s - x) w. *)
Definition opens (g : G1) (s : F) (c : G1) (x v : F) (w : G1) : Prop :=
  c - v *: g = (fsub s x) *: w.
End Spec.
