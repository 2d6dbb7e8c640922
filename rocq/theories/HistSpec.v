(** Histories of anonymous operations, as a ledger that uses the library sees them (C70).
    Everything is stated with the vocabulary of AxfrSpec (records, commitments, nullifiers,
    transfers) and MerkleSpec (the root of a list of leaves). *)
From Coq Require Import List ZArith NArith Bool.
From Verif Require Import Base Field PField MixSpec AxfrSpec MerkleSpec.
Import ListNotations.
Local Open Scope F_scope.

Section History.
Context (F : PField) (H : F -> F -> F -> F -> F) (ft : F).
Notation key := (F * F * F)%type.
Notation secret := (F * F)%type.

(** What an accepted note does: value enters from a transparent record, moves between
    anonymous records (the fee leaving in type [ft]), or leaves to a transparent record. *)
Inductive event :=
| EShield (o : output F)
| ETransfer (pk : key) (sk : secret) (root : F) (ins : list (spend F)) (outs : list (output F)) (fee : F)
| EUnshield (pk : key) (sk : secret) (root : F) (s : spend F).

Definition makes (e : event) : list (output F) :=
  match e with EShield o => [o] | ETransfer _ _ _ _ outs _ => outs | EUnshield _ _ _ _ => [] end.
Definition takes (e : event) : list (key * secret * F * spend F) :=
  match e with
  | EShield _ => []
  | ETransfer pk sk root ins _ _ => map (fun s => (pk, sk, root, s)) ins
  | EUnshield pk sk root s => [(pk, sk, root, s)]
  end.
(** The amounts are 64-bit, the spent records are in the tree of the root, transfers conserve
    every asset type. *)
Definition sound_event (e : event) : Prop :=
  match e with
  | EShield o => u64f (ou_amount o)
  | ETransfer pk sk root ins outs fee => well_formed F H pk root ins outs /\ u64f fee /\ conserves F ft ins outs fee
  | EUnshield pk sk root s => in_tree F H pk root s /\ u64f (sp_amount s)
  end.

(** The ledger keeps the created records in order; record number [i] is the leaf
    hash(i, commitment); the tree is the tree of these leaves. *)
Definition records (l : list event) : list (output F) := flat_map makes l.
Definition spends (l : list event) : list (key * secret * F * spend F) := flat_map takes l.
Definition commitments (l : list event) : list F := map (output_com F H) (records l).
Definition leaf (i : nat) (com : F) : F := H (fofZ (Z.of_nat i)) com 0 0.
Definition leaves (coms : list F) : list F := map (fun p => leaf (fst p) (snd p)) (combine (seq 0 (length coms)) coms).
Definition H3 (a b c : F) : F := H a b c 0.
Definition ledger_root (coms : list F) : F := spec_root 0 H3 (leaves coms).
Definition published (x : key * secret * F * spend F) : F := let '(pk, sk, _, s) := x in nullifier F H pk sk s.

(** What the ledger checks besides the proofs: every root is the root of the tree as it
    was at some earlier point, authentication paths have the depth of the tree, and no
    nullifier is published twice. *)
Definition known_roots (l : list event) : Prop :=
  forall l1 e l2 pk sk root s, l = l1 ++ e :: l2 -> In (pk, sk, root, s) (takes e) ->
  length (sp_path s) = 20%nat /\ exists k, root = ledger_root (firstn k (commitments l1)).
Definition fresh_nullifiers (l : list event) : Prop := NoDup (map published (spends l)).
Definition admitted (l : list event) : Prop := Forall sound_event l /\ known_roots l /\ fresh_nullifiers l.

(** A public key is always used with one secret key. *)
Definition one_secret (l : list event) : Prop :=
  forall pk sk sk' r r' s s', In (pk, sk, r, s) (spends l) -> In (pk, sk', r', s') (spends l) -> sk = sk'.

(** Totals of a type over a history, over the integers. *)
Definition zsum (l : list Z) : Z := fold_right Z.add 0%Z l.
Definition shielded (t : F) (l : list event) : Z :=
  zsum (map (fun e => match e with EShield o => ftotal t [(ou_type o, ou_amount o)] | _ => 0%Z end) l).
Definition unshielded (t : F) (l : list event) : Z :=
  zsum (map (fun e => match e with EUnshield _ _ _ s => ftotal t [(sp_type s, sp_amount s)] | _ => 0%Z end) l).
Definition fees (t : F) (l : list event) : Z :=
  zsum (map (fun e => match e with ETransfer _ _ _ _ _ fee => if f_dec t ft then toZ fee else 0%Z | _ => 0%Z end) l).

(** The hash inputs met in a history: those of the commitments and leaves of the created
    records, of the nodes of the tree at any time, and of the spent records and their paths. *)
Inductive met (l : list event) : F * F * F * F -> Prop :=
| met_com o x : In o (records l) -> In x (com_inputs F H (ou_pk o) (ou_blind o) (ou_amount o) (ou_type o)) -> met l x
| met_leaf i com : nth_error (commitments l) i = Some com -> met l (fofZ (Z.of_nat i), com, 0, 0)
| met_node k h j : let past := leaves (firstn k (commitments l)) in let t := subtree 0 H3 past in
    (h < 20)%nat -> (j * 3 ^ N.of_nat (S h) < N.of_nat (length past))%N ->
    met l (t h (3 * j)%N, t h (3 * j + 1)%N, t h (3 * j + 2)%N, 0)
| met_spend pk sk r s x : In (pk, sk, r, s) (spends l) -> In x (spend_inputs F H pk s) -> met l x.
(** The hash failed within the history: two different inputs met have one hash, or an input
    met hashes to the value that stands for the empty tree. *)
Definition hash_broken (l : list event) : Prop :=
  (exists x y, met l x /\ met l y /\ collide F H (x, y)) \/ (exists x, met l x /\ H4 F H x = 0).
(** What a spend and a record have in common when the one spends the other. *)
Definition content_of (o : output F) : key * F * F := (ou_pk o, ou_type o, ou_amount o).
Definition content_spent (x : key * secret * F * spend F) : key * F * F :=
  let '(pk, _, _, s) := x in (pk, sp_type s, sp_amount s).
End History.
Arguments EShield {F}. Arguments ETransfer {F}. Arguments EUnshield {F}. Arguments makes {F}. Arguments takes {F}.
Arguments records {F}. Arguments spends {F}. Arguments one_secret {F}. Arguments shielded {F}. Arguments unshielded {F}.
Arguments content_of {F}. Arguments content_spent {F}.
