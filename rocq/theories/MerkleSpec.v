(** Specification vocabulary for the Merkle tree: the abstract 3-ary tree and
    the abstract log of a history.  Independent of the model's helpers. *)
From Coq Require Import List NArith.
Import ListNotations.
Local Open Scope N_scope.

Section Spec.
Context {A : Type} (zero : A) (H : A -> A -> A -> A).

(** Root of the subtree of height [h] whose leftmost leaf is number [i * 3^h]:
    zero if it contains no leaf; the leaf itself at height 0; otherwise the hash
    of its three children. *)
Fixpoint subtree (leaves : list A) (h : nat) (i : N) : A :=
  if N.of_nat (length leaves) <=? i * 3 ^ N.of_nat h then zero
  else match h with
       | O => nth (N.to_nat i) leaves zero
       | S h' => H (subtree leaves h' (3 * i)) (subtree leaves h' (3 * i + 1))
                   (subtree leaves h' (3 * i + 2))
       end.

(** The abstract Merkle root of a leaf sequence, for a tree of height 20. *)
Definition spec_root (leaves : list A) : A := subtree leaves 20 0.

(** Largest number of leaves. *)
Definition capacity : N := 3 ^ 20.

(** The abstract state of a history: the current leaves and the leaves at each
    commit, newest first. *)
Record alog := { cur : list A; committed : list (list A) }.

Inductive aop := AAdd (h : A) | ACommit | ACrash.

Definition astep (s : alog) (o : aop) : alog :=
  match o with
  | AAdd h => {| cur := cur s ++ [h]; committed := committed s |}
  | ACommit => {| cur := cur s; committed := cur s :: committed s |}
  | ACrash => {| cur := hd [] (committed s); committed := committed s |}
  end.

(** Opening an empty database commits the empty tree (version 0). *)
Definition ainit : alog := {| cur := []; committed := [[]] |}.
Definition arun (os : list aop) : alog := fold_left astep os ainit.

(** The history never holds more leaves than the capacity. *)
Fixpoint within_capacity (s : alog) (os : list aop) : Prop :=
  match os with
  | [] => True
  | o :: os' => N.of_nat (length (cur (astep s o))) <= capacity /\ within_capacity (astep s o) os'
  end.

(** Position encoded by a sequence of child indices, leaf level first. *)
Fixpoint position (digits : list N) : N :=
  match digits with [] => 0 | d :: ds => d + 3 * position ds end.

End Spec.

(** ** Membership paths, seen abstractly *)
Section Paths.
Context {A : Type} (zero : A) (H : A -> A -> A -> A).

Definition hash3 (t : A * A * A) : A := let '(a, b, c) := t in H a b c.

(** Put [x] at child position [d] next to its two siblings. *)
Definition place (d : N) (x s1 s2 : A) : A * A * A :=
  match d with 0 => (x, s1, s2) | 1 => (s1, x, s2) | _ => (s1, s2, x) end.

(** One path element: (child index, first sibling, second sibling). *)
Definition elem : Type := (N * A * A)%type.
Definition digit_of (e : elem) : N := fst (fst e).
Definition triple_of (x : A) (e : elem) : A * A * A := place (digit_of e) x (snd (fst e)) (snd e).

(** Root recomputed from a leaf along a path (leaf level first). *)
Fixpoint climb (x : A) (path : list elem) : A :=
  match path with [] => x | e :: p => climb (hash3 (triple_of x e)) p end.

(** The triple hashed at height [h] of the recomputation. *)
Definition path_triple (leaf : A) (path : list elem) (h : nat) : option (A * A * A) :=
  match nth_error path h with
  | Some e => Some (triple_of (climb leaf (firstn h path)) e)
  | None => None
  end.

(** The triple hashed in the tree at the node of height [h+1] and index [j]. *)
Definition tree_triple (leaves : list A) (h : nat) (j : N) : A * A * A :=
  (subtree zero H leaves h (3 * j), subtree zero H leaves h (3 * j + 1),
   subtree zero H leaves h (3 * j + 2)).

(** The hash is broken at height [h]: the path's triple and the tree's triple
    (both computed from the proof and the leaves) collide, or the node is empty
    in the tree and the path's triple hashes to zero. *)
Definition broken_at (leaves : list A) (leaf : A) (path : list elem) (h : nat) : Prop :=
  exists t, path_triple leaf path h = Some t /\
    let j := position (map digit_of path) / 3 ^ N.of_nat (S h) in
    (j * 3 ^ N.of_nat (S h) < N.of_nat (length leaves) /\
     t <> tree_triple leaves h j /\ hash3 t = hash3 (tree_triple leaves h j)) \/
    (N.of_nat (length leaves) <= j * 3 ^ N.of_nat (S h) /\ hash3 t = zero).
End Paths.
