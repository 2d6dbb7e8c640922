(** What the scalar-multiplication proof is supposed to establish, and what its
    constraints say. *)
From Coq Require Import List Arith ZArith Bool.
From Verif Require Import Base Field PField CmixModel CmixSpec BucketModel BucketSpec SmulModel.
Import ListNotations.
Local Open Scope F_scope.

(** The integer with the given bits, least significant first. *)
Fixpoint bits_val (bs : list bool) : Z :=
  match bs with [] => 0 | b :: bs' => (if b then 1 else 0) + 2 * bits_val bs' end%Z.
(** The number of set bits. *)
Definition weight (bs : list bool) : nat := length (filter (fun b => b) bs).

Section Spec.
Context {F : PField}.
(** The committed coordinates [x], [y] and the committed secret [k] are accepted: the verifier's system has a
    satisfying assignment giving them to the three committed variables. (The proof system guarantees a verifier
    at best that.) *)
Definition accepts (d : pt F) (pts : list (pt F)) (x y k : F) : Prop :=
  exists c w, verifier_system d pts = Ok c /\ sat c w /\ w 0%nat = x /\ w 1%nat = y /\ w 2%nat = k.

(** "Adding" the constant [g] to a point of abscissa [x] with slope [s], as the constraints have it: the result
    lies on the mirror image of the line through [g] with slope [s], and the three abscissas add up to [s^2]. *)
Definition plus_slope (s : F) (p g : pt F) : pt F :=
  let x := s * s - fst p - fst g in (x, s * (fst g - x) - snd g).
(** A walk: at each set bit, add the constant with the given slope. *)
Fixpoint walk (l : list (bool * pt F * F)) (p : pt F) : pt F :=
  match l with
  | [] => p
  | (b, g, s) :: l' => walk l' (if b then plus_slope s p g else p)
  end.
(** The prover's computation on points: the chord rule at every step, whether the bit is set or not. *)
Fixpoint prover_walk (l : list (bool * pt F)) (p : pt F) : res (pt F) :=
  match l with
  | [] => Ok p
  | (b, g) :: l' => bind (chord p g) (fun r => prover_walk l' (if b then snd r else p))
  end.
End Spec.

(** The curve behind the coordinates: [C] says which element of the group [M] has which coordinates in [F]. *)
Section Group.
Context {F : PField} {K : Field} {M : Mod K} (C : Curve F K M).
Definition mulZ (z : Z) (a : M) : M := smul (fofZ (F := K) z) a.
(** The points are the doublings of [G]. *)
Definition table (G : M) (pts : list (pt F)) : Prop := forall i p, nth_error pts i = Some p -> xy C (mulZ (2 ^ Z.of_nat i) G) = Some p.
(** A collision: before step [i] the running point, [a] plus the part of [z G] added so far, is the next constant or its opposite. *)
Definition collides (G a : M) (z : Z) (i : nat) : Prop :=
  madd a (mulZ (z mod 2 ^ Z.of_nat i) G) = mulZ (2 ^ Z.of_nat i) G \/ madd a (mulZ (z mod 2 ^ Z.of_nat i) G) = mopp (mulZ (2 ^ Z.of_nat i) G).
End Group.
