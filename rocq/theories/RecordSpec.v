(** What the theorems about records and memos are stated with. *)
From Coq Require Import List NArith ZArith Bool.
From Verif Require Import Base Field UtilsModel XfrModel XfrSpec NoteModel KeyModel HybModel KeySpec RecordModel.
Import ListNotations.
Local Open Scope N_scope.

(** The bytes of a reduced Ristretto scalar (or of any number below 2^255). *)
Definition scalar32 (b : bytes) : Prop := length b = 32%nat /\ Forall (fun x => x < 256) b /\ nth 31 b 0 < 128.
(** Diffie-Hellman on the Edwards curve between an Ed25519 key and a random scalar:
    both sides compute the same encoded point. *)
Definition ed_dh (H : hsuite) (X : schemes) {S E} (D : dhsuite S E) : Prop :=
  forall sk r, scalar32 r ->
  length (d_base D r) = 32%nat /\
  exists q, d_mul D (epk_bytes X (ed_pk X sk)) r = Some q /\
            d_mul D (d_base D r) (clamp (firstn 32 (sha512 H (esk_bytes X sk)))) = Some q.
(** The encoding of secp256k1 scalars is decoded. *)
Definition secp_scalars {X S E} (L : slink X S) (D : dhsuite S E) : Prop :=
  forall r, sl_sc X S L (d_sc_bytes D r) = Some r.
(** Everything assumed of the external libraries. *)
Definition world_ok (H : hsuite) (X : schemes) (S : suite) (L : slink X S) (E : pgroup) (D : dhsuite S E)
  (value : SSk X -> N) (scalar_of : SSk X -> Sc S) : Prop :=
  hsuite_ok H /\ schemes_ok X /\ ed_link H X /\ seal_ok S /\ secp_link X S L value scalar_of /\ ed_dh H X D /\ secp_scalars L D.
(** The draws for a record. *)
Definition rnd_ok {S} (r : rnd S) : Prop := scalar32 (r_ed S r) /\ bytes32 (r_eph S r).

Definition hides_something (rt : record_type) : Prop := rt <> RT_NonConfAmt_NonConfType.
Definition is_type (t : N) : Prop := t < 2 ^ 256.
