(** The Rescue permutation in its textbook form, with the round keys given. *)
From Coq Require Import List ZArith NArith Bool.
From Verif Require Import Base Field PField Power RescueModel.
Import ListNotations.
Local Open Scope F_scope.

Section Spec.
Context (F : PField).

(** M v + c on vectors of length four. *)
Definition dot (m v : list F) : F := fsum (map (fun p => fst p * snd p) (combine m v)).
Definition affine (M : list (list F)) (c v : list F) : list F :=
  map (fun p => dot (fst p) v + snd p) (combine M c).

(** One half round with key [k]: S-box (the fifth root in even half rounds, the
    fifth power in odd ones), MDS matrix, key. *)
Definition half_round (M : list (list F)) (e : N) (k s : list F) : list F :=
  affine M k (map (fun x => fpowN x e) s).
Fixpoint half_rounds (M : list (list F)) (root power : N) (keys : list (list F)) (s : list F) : list F :=
  match keys with
  | [] => s
  | k :: keys' => half_rounds M power root keys' (half_round M root k s)
  end.
(** The permutation for given round keys: whitening with the first, one half round
    for each of the others. *)
Definition keyed (M : list (list F)) (root power : N) (keys : list (list F)) (s : list F) : list F :=
  match keys with
  | [] => s
  | k0 :: keys' => half_rounds M root power keys' (map (fun p => fst p + snd p) (combine s k0))
  end.

(** Square matrices of size four, and inverses. *)
Definition vec4 (v : list F) : Prop := length v = 4%nat.
Definition mat4 (M : list (list F)) : Prop := length M = 4%nat /\ Forall vec4 M.
Definition unit4 : list (list F) := [[1;0;0;0]; [0;1;0;0]; [0;0;1;0]; [0;0;0;1]].
Definition column (M : list (list F)) (j : nat) : list F := map (fun r => nth j r 0) M.
Definition mat_mul (A B : list (list F)) : list (list F) :=
  map (fun r => map (fun j => dot r (column B j)) (seq 0 4)) A.
Definition mat_inverse (A B : list (list F)) : Prop := mat_mul A B = unit4 /\ mat_mul B A = unit4.

(** What the parameters must satisfy. *)
Definition rescue_ok (P : rescue_instance F) : Prop :=
  state_size F P = 4%nat /\ mat4 (MDS F P) /\ mat4 (Kmat F P) /\ vec4 (IC F P) /\ vec4 (Cadd F P) /\
  alpha F P = 5%N /\ exp_inv F 5 (ainv F P) /\
  exists Minv, mat4 Minv /\ mat_inverse (MDS F P) Minv.

(** Bijection of the states of length four. *)
Definition bijective4 (f : list F -> list F) : Prop :=
  (forall s, vec4 s -> vec4 (f s)) /\ forall t, vec4 t -> exists! s, vec4 s /\ f s = t.
End Spec.
