(** Model of plonk/src/plonk/constraint_system/mod.rs 54-82 [compute_permutation] and
    95-103 [extend_witness].  The wiring is given as the concatenation [v] of its
    columns (lines 59-62, 97-101). *)
From Coq Require Import List Arith Bool.
From Verif Require Import Base.
Import ListNotations.

(** Assignment to an index in range. *)
Fixpoint upd {A} (i : nat) (x : A) (l : list A) : list A :=
  match l, i with [], _ => [] | _ :: l', O => x :: l' | a :: l', S i' => a :: upd i' x l' end.

(** mod.rs 71-76: the loop over the later positions; [pos] is the index of the head of
    [rest] in [v]; the state is the permutation and [prev]. *)
Fixpoint chase (value : nat) (pos : nat) (rest : list nat) (prev : nat) (perm : list nat) : nat * list nat :=
  match rest with
  | [] => (prev, perm)
  | x :: rest' =>
      if Nat.eqb x value then chase value (S pos) rest' pos (upd prev pos perm)
      else chase value (S pos) rest' prev perm
  end.
(** mod.rs 66-80: the loop over all positions; [marked[*value]] panics out of range. *)
Fixpoint perm_loop (i : nat) (rest : list nat) (marked : list bool) (perm : list nat) : res (list nat) :=
  match rest with
  | [] => Ok perm
  | value :: rest' =>
      match nth_error marked value with
      | None => Panic
      | Some true => perm_loop (S i) rest' marked perm
      | Some false =>
          let (prev, perm') := chase value (S i) rest' i perm in
          perm_loop (S i) rest' (upd value true marked) (upd prev i perm')
      end
  end.
(** mod.rs 54-82. *)
Definition compute_permutation (num_vars : nat) (v : list nat) : res (list nat) :=
  perm_loop 0 v (repeat false num_vars) (repeat 0 (length v)).

(** mod.rs 95-103; [witness[*index]] panics out of range. *)
Definition extend_witness {A} (v : list nat) (witness : list A) : res (list A) :=
  mapM (fun i => match nth_error witness i with Some x => Ok x | None => Panic end) v.
