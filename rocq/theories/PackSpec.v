(** Specification vocabulary for C69. *)
From Coq Require Import List NArith.
From Verif Require Import SerModel SerSpec.
Import ListNotations.
Local Open Scope N_scope.

(** Fewer than 2^32 elements, which is what MessagePack can count. *)
Definition short {A} (l : list A) : Prop := N.of_nat (List.length l) < 2 ^ 32.
Definition list_ok {A} (ok : A -> Prop) (l : list A) : Prop := short l /\ Forall ok l.
Definition opt_ok {A} (ok : A -> Prop) (o : option A) : Prop := match o with Some x => ok x | None => True end.
(** The values that MessagePack can carry, and how deep they are nested. *)
Fixpoint fits (v : val) : Prop :=
  match v with
  | VUnit => True
  | VNum n => n < 2 ^ 64
  | VStr t => short t
  | VBytes b => short b
  | VSeq l => short l /\ fold_right (fun v P => fits v /\ P) True l
  | VMap l => short l /\ fold_right (fun e P => (fits (fst e) /\ fits (snd e)) /\ P) True l
  end.
Fixpoint depth (v : val) : nat :=
  match v with
  | VSeq l => S (fold_right (fun v n => Nat.max (depth v) n) 0%nat l)
  | VMap l => S (fold_right (fun e n => Nat.max (Nat.max (depth (fst e)) (depth (snd e))) n) 0%nat l)
  | _ => 1%nat
  end.
(** A byte encoding from which objects are recovered, shorter than 2^32 bytes. *)
Definition wire {A} (c : codec A) (valid : A -> Prop) : Prop :=
  faithful c valid /\ forall x, valid x -> short (enc c x).
