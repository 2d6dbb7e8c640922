(** C36: the copy-constraint permutation. *)
From Coq Require Import List Arith Bool Lia Permutation.
From Verif Require Import Base PermModel PermSpec PermProofs.
Import ListNotations.

(** The computation succeeds exactly when every wire names an existing variable. *)
Theorem C36_total num_vars v : (forall x, In x v -> x < num_vars) -> exists p, compute_permutation num_vars v = Ok p.
Proof. intros H. unfold compute_permutation. apply perm_loop_total; [exact v|]. intros x Hx. rewrite repeat_length. now apply H. Qed.
Theorem C36_out_of_range_panics num_vars v x : In x v -> num_vars <= x -> compute_permutation num_vars v = Panic.
Proof.
  intros I H. unfold compute_permutation.
  assert (X : forall rest i marked perm, In x rest -> length marked = num_vars -> perm_loop i rest marked perm = Panic).
  { clear I v. induction rest as [|value rest IH]; intros i marked perm I L; [destruct I|]. cbn [perm_loop].
    destruct (nth_error marked value) as [[]|] eqn:E; [| |reflexivity].
    - destruct I as [->|I]; [|now apply IH]. assert (x < length marked) by (apply nth_error_Some; congruence). lia.
    - destruct I as [->|I]; [assert (x < length marked) by (apply nth_error_Some; congruence); lia|].
      destruct (chase _ _ _ _ _). apply IH; [exact I|]. now rewrite upd_len. }
  apply X; [exact I|apply repeat_length].
Qed.
(** The result is a bijection of the wire positions. *)
Theorem C36_bijection num_vars v p : compute_permutation num_vars v = Ok p ->
  length p = length v /\ bijection_below (length v) (fun i => nth i p 0).
Proof.
  intros E. destruct (compute_permutation_next v num_vars p E) as [L H]. split; [exact L|].
  split; [|split].
  - exact (next_lt v _ H).
  - exact (next_inj v _ H).
  - exact (next_surj v _ H).
Qed.
(** Its cycles are exactly the classes of positions that carry the same variable. *)
Theorem C36_cycles num_vars v p i j : compute_permutation num_vars v = Ok p -> i < length v -> j < length v ->
  on_cycle (fun i => nth i p 0) i j <-> nth i v 0 = nth j v 0.
Proof.
  intros E Hi Hj. destruct (compute_permutation_next v num_vars p E) as [_ H]. exact (cycle_iff v _ H i j Hi Hj).
Qed.
(** Equality along the permutation is equality of all positions of every variable: an
    assignment of values to positions respects the permutation exactly when it comes from
    an assignment of values to variables. *)
Theorem C36_copy_constraints {A} num_vars v p (w : nat -> A) : compute_permutation num_vars v = Ok p ->
  (forall i, i < length v -> w (nth i p 0) = w i) <->
  (forall i j, i < length v -> j < length v -> nth i v 0 = nth j v 0 -> w i = w j).
Proof.
  intros E. destruct (compute_permutation_next v num_vars p E) as [_ H]. split.
  - intros C i j Hi Hj S. apply (cycle_iff v _ H i j Hi Hj) in S. destruct S as [k <-].
    assert (X : Nat.iter k (fun i => nth i p 0) i < length v /\ w (Nat.iter k (fun i => nth i p 0) i) = w i).
    { clear Hj. induction k as [|k [IH1 IH2]]; cbn; [auto|]. split; [now apply (next_lt v _ H)|]. now rewrite C. }
    symmetry. apply X.
  - intros C i Hi. apply C; [now apply (next_lt v _ H)|exact Hi|]. exact (next_same v _ H i Hi).
Qed.

(** Five wires of three gates over four variables. *)
Example C36_example : compute_permutation 4 [0;2;2; 1;2;0; 3;3;0; 0;1;1; 3;2;2] =
  Ok [5;2;4; 10;13;8; 7;12;9; 0;11;3; 6;14;1].
Proof. reflexivity. Qed.
Example C36_panic_example : compute_permutation 4 [0;4;1] = Panic. Proof. reflexivity. Qed.

Print Assumptions C36_total. Print Assumptions C36_out_of_range_panics. Print Assumptions C36_bijection.
Print Assumptions C36_cycles. Print Assumptions C36_copy_constraints.
