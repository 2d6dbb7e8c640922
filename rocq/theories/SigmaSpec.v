(** What the sigma protocols are about, independently of the code. *)
From Coq Require Import List.
From Verif Require Import Field.
Import ListNotations.
Local Open Scope M_scope.

Section Spec.
Context {F : Field} {G : Mod F}.

(** A linear relation is given by a list of group elements, a matrix of positions in
    it and a vector of positions: [w] solves it when, row by row, the sum of w_k
    times the k-th element of the row is the right-hand element. *)
Definition lin (elems : list G) (row : list nat) (w : list F) : G :=
  msum (map (fun ix => snd ix *: nth (fst ix) elems m0) (combine row w)).
Definition solves (elems : list G) (lhs : list (list nat)) (rhs : list nat) (w : list F) : Prop :=
  length lhs = length rhs /\
  forall j row r, nth_error lhs j = Some row -> nth_error rhs j = Some r -> lin elems row w = nth r elems m0.
(** The matrix has [n] columns and only mentions positions of the list. *)
Definition well_formed (elems : list G) (lhs : list (list nat)) (n : nat) : Prop :=
  forall row, In row lhs -> length row = n /\ forall i, In i row -> (i < length elems)%nat.

(** Linear combination of group elements. *)
Definition comb (x : list F) (e : list G) : G := msum (map (fun xe => fst xe *: snd xe) (combine x e)).
Definition comb_ct (x : list F) (cts : list (G * G)) : G * G := (comb x (map fst cts), comb x (map snd cts)).

(** [c] commits to [v] with blinding [r]. *)
Definition opens (B H c : G) (v r : F) : Prop := c = v *: B + r *: H.
(** The ciphertext (a, b) under [pk] encrypts [m] with randomness [r]. *)
Definition encrypts (B pk : G) (ct : G * G) (m r : F) : Prop := ct = (r *: B, m *: B + r *: pk).
(** One message and one randomness open both. *)
Definition same_message (B H pk : G) (ct : G * G) (com : G) (m r : F) : Prop :=
  encrypts B pk ct m r /\ opens B H com m r.
(** [x] and [y] are a non-trivial relation between the generators. *)
Definition related (B H : G) (x y : F) : Prop := (x <> f0 \/ y <> f0) /\ x *: B + y *: H = m0.
(** What the answers [z] and [z'] to the challenges [c] and [c'] reveal. *)
Definition found (c c' z z' : F) : F := ((z - z') / (c - c'))%F.
End Spec.
