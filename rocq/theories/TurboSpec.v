(** What it means to satisfy a constraint system, independently of how the
    gadgets build it. *)
From Coq Require Import List ZArith Bool.
From Verif Require Import Base Field PField TurboModel.
Import ListNotations.

Section Sat.
Context (F : PField).
Local Open Scope F_scope.

Definition boolean (x : F) : Prop := x = 0 \/ x = 1.

(** The gate equation under an assignment of all variables; the online value of a
    public gate is the value of its variable (the equation then reads
    variable = online value). *)
Definition gate_eq (w : nat -> F) (g : gate F) : Prop :=
  let pi := match g_pub g with Some v => w v | None => 0 end in
  q1 g * w (w1 g) + q2 g * w (w2 g) + q3 g * w (w3 g) + q4 g * w (w4 g)
  + qm1 g * (w (w1 g) * w (w2 g)) + qm2 g * (w (w3 g) * w (w4 g))
  + qecc g * w (w1 g) * w (w2 g) * w (w3 g) * w (w4 g) * w (wo g)
  + qh1 g * fpow (w (w1 g)) 5 + qh2 g * fpow (w (w2 g)) 5
  + qh3 g * fpow (w (w3 g)) 5 + qh4 g * fpow (w (w4 g)) 5
  + (qc g + pi) = qo g * w (wo g).
Definition gate_bool (w : nat -> F) (g : gate F) : Prop :=
  g_bool g = true -> boolean (w (w2 g)) /\ boolean (w (w3 g)) /\ boolean (w (w4 g)).

(** Satisfaction: all gate equations and all attached boolean constraints, which
    together are what the PLONK verifier's quotient identity expresses. *)
Definition sat (c : tcs F) (w : nat -> F) : Prop :=
  Forall (fun g => gate_eq w g /\ gate_bool w g) (grev c).

(** The convention the gadgets rely on: variable 0 is zero and variable 1 is one. *)
Definition conv (w : nat -> F) : Prop := w 0%nat = 0 /\ w 1%nat = 1.

(** The value of an assignment as a number. *)
Definition bitsZ (l : list Z) : Z := fold_right (fun b acc => (b + 2 * acc)%Z) 0%Z l.

(** A gadget [m] is sound for [R]: whatever it adds, every assignment satisfying
    the extended system satisfies the old one and [R]. *)
Definition sound {A} (m : CS F A) (R : (nat -> F) -> A -> Prop) : Prop :=
  forall c w, sat (snd (m c)) w -> sat c w /\ R w (fst (m c)).

(** The system under construction together with the prover's own witness. *)
Definition wire_lt (n : nat) (g : gate F) : Prop :=
  (w1 g < n /\ w2 g < n /\ w3 g < n /\ w4 g < n /\ wo g < n)%nat /\
  match g_pub g with Some v => (v < n)%nat | None => True end.
Definition Inv (c : tcs F) : Prop :=
  length (wit c) = nvars c /\ (2 <= nvars c)%nat /\ conv (val c) /\
  Forall (wire_lt (nvars c)) (grev c) /\ sat c (val c).

(** [honest m P Q]: run on a satisfied system whose values meet [P], the gadget
    keeps it satisfied, keeps the old values, and its result meets [Q]. *)
Definition extends (c c' : tcs F) : Prop :=
  (nvars c <= nvars c')%nat /\ forall i, (i < nvars c)%nat -> val c' i = val c i.
Definition honest {A} (m : CS F A) (P : tcs F -> Prop) (Q : A -> tcs F -> Prop) : Prop :=
  forall c, Inv c -> P c -> Inv (snd (m c)) /\ extends c (snd (m c)) /\ Q (fst (m c)) (snd (m c)).
End Sat.
Arguments boolean {F}. Arguments sat {F}. Arguments conv {F}. Arguments sound {F A}.
Arguments honest {F A}. Arguments Inv {F}. Arguments extends {F}. Arguments gate_eq {F}. Arguments gate_bool {F}.
Arguments wire_lt {F}.
