(** Specification of multi-exponentiation: the sum of the scalar multiples. *)
From Coq Require Import List ZArith.
From Verif Require Import Field.
Import ListNotations.

Section Spec.
Context {F : Field} {M : Mod F}.
Local Open Scope M_scope.
(** [sum_i s_i * P_i], over the pairs of the two lists. *)
Fixpoint combination (s : list F) (p : list M) : M :=
  match s, p with
  | x :: s', a :: p' => x *: a + combination s' p'
  | _, _ => m0
  end.
End Spec.
