(** What the copy-constraint permutation should be, independently of the code. *)
From Coq Require Import List Arith.
Import ListNotations.

(** [f] is a bijection of the numbers below [n]. *)
Definition bijection_below (n : nat) (f : nat -> nat) : Prop :=
  (forall i, i < n -> f i < n) /\
  (forall i j, i < n -> j < n -> f i = f j -> i = j) /\
  (forall j, j < n -> exists i, i < n /\ f i = j).
(** [j] is on the cycle of [i]. *)
Definition on_cycle (f : nat -> nat) (i j : nat) : Prop := exists k, Nat.iter k f i = j.
