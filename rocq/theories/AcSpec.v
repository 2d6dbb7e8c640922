(** What credentials and disclosures mean, independently of the code. *)
From Coq Require Import List.
From Verif Require Import Field AcModel.
Import ListNotations.

Section Spec.
Context {F : Field} {G1 G2 GT : Mod F}.
Local Open Scope M_scope.

(** The pairing is linear in both arguments. *)
Definition bilinear (e : G1 -> G2 -> GT) : Prop :=
  (forall a b h, e (a + b) h = e a h + e b h) /\ (forall x a h, e (x *: a) h = x *: e a h) /\
  (forall a h h', e a (h + h') = e a h + e a h') /\ (forall x a h, e a (x *: h) = x *: e a h).

(** a_1 Y_1 + a_2 Y_2 + ... *)
Fixpoint weigh {M : Mod F} (l : list F) (ys : list M) : M :=
  match l, ys with a :: l', y :: ys' => a *: y + weigh l' ys' | _, _ => m0 end.
(** a_1 y_1 + a_2 y_2 + ... *)
Fixpoint dot (l ys : list F) : F :=
  match l, ys with a :: l', y :: ys' => fadd (fmul a y) (dot l' ys') | _, _ => f0 end.

(** The public check that [s] is the issuer's signature on the user secret and the
    attributes. *)
Definition signature_on (e : G1 -> G2 -> GT) (p : issuer_pk G1 G2) (s : sig G1) (usk : F) (attrs : list F) : Prop :=
  e (sigma1 s) (xx2 p + usk *: zz2 p + weigh attrs (yy2 p)) = e (sigma2 s) (gen2 p).
(** A commitment with its mask [t] taken off. *)
Definition unmask (cm : sig G1) (t : F) : sig G1 := mkSig (sigma1 cm) (sigma2 cm - t *: sigma1 cm).

(** What the verifier is told: the attributes of the reveal map, the others hidden. *)
Definition disclosed (attrs : list F) (map_ : list bool) : list (attribute (F := F)) :=
  map (fun ab : F * bool => if snd ab then Revealed (fst ab) else Hidden None) (combine attrs map_).
(** The attribute list [attrs] agrees with the claim. *)
Definition agrees (claim : list (attribute (F := F))) (attrs : list F) : Prop :=
  Forall2 (fun c a => match c with Revealed v => v = a | Hidden _ => True end) claim attrs.
(** The sublist selected by the map. *)
Fixpoint selected {A} (l : list A) (map_ : list bool) : list A :=
  match l, map_ with
  | a :: l', b :: map' => if b then a :: selected l' map' else selected l' map'
  | _, _ => []
  end.
(** What the answers [z] and [z'] to the challenges [c] and [c'] reveal, and the attributes
    revealed in this way: claimed ones as claimed, hidden ones from the responses in order. *)
Definition revealed (c c' z z' : F) : F := fdiv (fsub z z') (fsub c c').
Fixpoint revealed_attrs (c c' : F) (claim : list (attribute (F := F))) (z z' : list F) : list F :=
  match claim, z, z' with
  | Revealed a :: claim, _, _ => a :: revealed_attrs c c' claim z z'
  | Hidden _ :: claim, x :: z, x' :: z' => revealed c c' x x' :: revealed_attrs c c' claim z z'
  | _, _, _ => []
  end.
(** ElGamal decryption. *)
Definition decrypts (dk : F) (base : G1) (ct : G1 * G1) (m : F) : Prop := snd ct - dk *: fst ct = m *: base.
End Spec.
