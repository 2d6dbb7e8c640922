(** What the mix proof is supposed to establish, independently of the gadgets. *)
From Coq Require Import List NArith ZArith Bool.
From Verif Require Import Base Field PField CmixModel.
Import ListNotations.
Local Open Scope F_scope.

Section Spec.
Context {F : PField}.

(** An assignment satisfies a system: every linear constraint vanishes and every
    multiplication gate multiplies. *)
Definition sat (c : cs F) (w : nat -> F) : Prop :=
  Forall (fun a => leval w a = 0) (lin c) /\
  Forall (fun m : nat * nat * nat => w (snd m) = w (fst (fst m)) * w (snd (fst m))) (muls c).
(** The record that an assignment gives to a pair of variables. *)
Definition record_at (w : nat -> F) (v : mvar) : mval F := mkVal (w (v_amount v)) (w (v_type v)).

(** The inputs [ins] and outputs [outs] can be mixed against the verifier's system: there are
    values for all the variables the prover fixes before the challenges, giving the committed
    ones the values [ins] and [outs], which can be completed to a satisfying assignment for
    every stream of challenges allowed by [allowed]. *)
Definition can_mix (allowed : (nat -> F) -> Prop) (ins outs : list (mval F)) : Prop :=
  exists iv ov c (w : nat -> F),
    verifier_system (F := F) (length ins) (length outs) = Ok (iv, ov, c) /\
    map (record_at w) iv = ins /\ map (record_at w) ov = outs /\
    forall ch, allowed ch -> exists w', (forall i, (i < nv c)%nat -> w' i = w i) /\ sat (finish ch c) w'.

(** A record list with integer amounts. *)
Definition records (l : list (N * F)) : list (mval F) := map (fun r => mkVal (fofN (fst r)) (snd r)) l.
(** The total amount of a type. *)
Fixpoint total (t : F) (l : list (N * F)) : N :=
  match l with [] => 0%N | (a, t') :: l' => ((if feqb t t' then a else 0) + total t l')%N end.
(** The same in the field, for arbitrary records. *)
Fixpoint ftotal (t : F) (l : list (mval F)) : F :=
  match l with [] => 0 | v :: l' => (if feqb t (atype v) then amount v else 0) + ftotal t l' end.
(** The amount is a 64-bit number. *)
Definition is64 (v : mval F) : Prop := (toZ (amount v) < 2 ^ 64)%Z.

(** Equal types are next to each other. *)
Definition grouped (l : list (mval F)) : Prop :=
  forall i j k u v x, (i < j < k)%nat -> nth_error l i = Some u -> nth_error l j = Some v -> nth_error l k = Some x ->
    atype u = atype x -> atype v = atype u.
(** Two systems with the same structure: same variables, constraints and gates. *)
Definition same_shape (c c' : cs F) : Prop := nv c = nv c' /\ lin c = lin c' /\ muls c = muls c' /\ defer c = defer c' /\ next c = next c'.
End Spec.
