(** Specification of simulated field elements: integers written in a base, and
    arithmetic modulo the simulated prime.  [ristretto] and [secq256k1] are the
    two parameter sets of the code. *)
From Coq Require Import List ZArith Bool.
From Verif Require Import Base Field PField TurboModel TurboSpec SimModel.
Import ListNotations.
Local Open Scope Z_scope.

Definition valid (P : params) : Prop := P = ristretto \/ P = secq256k1.

(** The number whose digits in base [b] are [l], lowest first.  Digits may be as
    large as they like. *)
Fixpoint number (b : Z) (l : list Z) : Z :=
  match l with [] => 0 | x :: l' => x + b * number b l' end.

(** [x] and [y] are the same element of the simulated field. *)
Definition same_mod (P : params) (x y : Z) : Prop := (x - y) mod modulus P = 0.

(** How far the limbs of an element may exceed their nominal width. *)
Definition slack (r : reducibility) : Z := Z.max 1 (additions r).
Definition limbs_ok (P : params) (r : reducibility) (l : list Z) : Prop :=
  length l = 6%nat /\
  (forall i, (i < 6)%nat -> 0 <= nth i l 0 < slack r * 2 ^ Z.of_nat (width P i)) /\
  match r with Others n => 3 <= n | _ => True end.
Definition mlimbs_ok (P : params) (n : Z) (l : list Z) : Prop :=
  length l = 11%nat /\ Forall (fun x => 0 <= x <= 6 * n * 2 ^ Z.of_nat (2 * BIT_PER_LIMB P)) l /\ 0 <= n.

Section Represent.
Context (F : PField) (P : params).
(** [a] is a healthy representation of the integer [x]. *)
Definition represents (a : sim F) (x : Z) : Prop :=
  limbs_ok P (red a) (map toZ (limbs a)) /\
  number (2 ^ Z.of_nat (BIT_PER_LIMB P)) (map toZ (limbs a)) = x /\ sval a = x /\
  0 <= x < (additions (red a) + 1) * modulus P.
Definition mrepresents (m : simul F) (x : Z) : Prop :=
  mlimbs_ok P (prod_additions m) (map toZ (mlimbs m)) /\
  number (2 ^ Z.of_nat (BIT_PER_LIMB P)) (map toZ (mlimbs m)) = x /\ mval m = x /\
  0 <= x <= prod_additions m * (modulus P * modulus P).

(** What a list of limb variables stands for under an assignment. *)
Definition wlimbs (w : nat -> F) (vars : list nat) : list Z := map (fun v => toZ (w v)) vars.
Definition wnumber (w : nat -> F) (vars : list nat) : Z :=
  number (2 ^ Z.of_nat (BIT_PER_LIMB P)) (wlimbs w vars).

(** Computations with simulated elements, over leaves of type [L]. *)
Inductive sexp (L : Type) := Leaf (v : L) | Minus (a b : sexp L).
Inductive mexp (L : Type) := Times (a b : sexp L) | Plus (a b : mexp L) | MMinus (a : mexp L) (b : sexp L).
Arguments Leaf {L}. Arguments Minus {L}. Arguments Times {L}. Arguments Plus {L}. Arguments MMinus {L}.
(** Their meaning over the integers. *)
Fixpoint smean {L} (f : L -> Z) (e : sexp L) : Z :=
  match e with Leaf v => f v | Minus a b => smean f a - smean f b end.
Fixpoint mmean {L} (f : L -> Z) (e : mexp L) : Z :=
  match e with
  | Times a b => smean f a * smean f b
  | Plus a b => mmean f a + mmean f b
  | MMinus a b => mmean f a - smean f b
  end.
Fixpoint sleaves {L} (Q : L -> Prop) (e : sexp L) : Prop :=
  match e with Leaf v => Q v | Minus a b => sleaves Q a /\ sleaves Q b end.
Fixpoint mleaves {L} (Q : L -> Prop) (e : mexp L) : Prop :=
  match e with
  | Times a b => sleaves Q a /\ sleaves Q b
  | Plus a b => mleaves Q a /\ mleaves Q b
  | MMinus a b => mleaves Q a /\ sleaves Q b
  end.
(** Evaluation with the library's native operations. *)
Fixpoint seval {L} (f : L -> sim F) (e : sexp L) : res (sim F) :=
  match e with
  | Leaf v => Ok (f v)
  | Minus a b => bind (seval f a) (fun x => bind (seval f b) (fun y => sim_sub P x y))
  end.
Fixpoint meval {L} (f : L -> sim F) (e : mexp L) : res (simul F) :=
  match e with
  | Times a b => bind (seval f a) (fun x => bind (seval f b) (fun y => Ok (sim_mul x y)))
  | Plus a b => bind (meval f a) (fun x => bind (meval f b) (fun y => Ok (simul_add x y)))
  | MMinus a b => bind (meval f a) (fun x => bind (seval f b) (fun y => simul_sub P x y))
  end.
(** Construction of the corresponding constraints. *)
Fixpoint sbuild (e : sexp (simvar F)) : CR F (simvar F) :=
  match e with
  | Leaf v => rret v
  | Minus a b => rbnd (sbuild a) (fun x => rbnd (sbuild b) (fun y => var_sub P x y))
  end.
Fixpoint mbuild (e : mexp (simvar F)) : CR F (simulvar F) :=
  match e with
  | Times a b => rbnd (sbuild a) (fun x => rbnd (sbuild b) (fun y => lift (var_mul x y)))
  | Plus a b => rbnd (mbuild a) (fun x => rbnd (mbuild b) (fun y => lift (mulvar_add x y)))
  | MMinus a b => rbnd (mbuild a) (fun x => rbnd (sbuild b) (fun y => mulvar_sub P x y))
  end.
Definition zero_circuit (e : mexp (simvar F)) : CR F unit := rbnd (mbuild e) (var_enforce_zero P).
End Represent.
Arguments Leaf {L}. Arguments Minus {L}. Arguments Times {L}. Arguments Plus {L}. Arguments MMinus {L}.
Arguments represents {F}. Arguments mrepresents {F}. Arguments wlimbs {F}. Arguments wnumber {F}.
Arguments seval {F} P {L}. Arguments meval {F} P {L}. Arguments sbuild {F}. Arguments mbuild {F}. Arguments zero_circuit {F}.
