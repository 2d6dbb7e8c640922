(** Model of the transfer keys, signatures and multi-signatures
    (api/src/xfr/sig.rs) and of hybrid encryption
    (crypto/src/basic/hybrid_encryption.rs).

    Representation and simplifications.
    - Bytes are [N]; fixed-size arrays are lists.
    - ed25519_dalek, libsecp256k1, x25519_dalek, SHA-2, Keccak-256, AES and
      AES-GCM are the fields of [schemes] and [hsuite]; random draws are arguments.
    - [sort_unstable_by_key] is an argument [srt]: a sort that is not stable may
      return equal keys in any order.
    - [Message::parse_slice] of a 32-byte digest cannot fail and is left out.
    - serde and WASM wrappers, [hash_from_bytes], key generation from a random
      source and the debug assertion on the first byte of an uncompressed key are
      not modelled. *)
From Coq Require Import List NArith Bool.
From Verif Require Import Base UtilsModel.
Import ListNotations.
Local Open Scope N_scope.

Notation bytes := (list N).

(** ** Keys *)
(** sig.rs 38-45 [KeyType]. *)
Inductive key_type := KEd25519 | KSecp256k1 | KAddress.
(** sig.rs 49-55 [to_byte]. *)
Definition kt_to_byte (k : key_type) : N := match k with KEd25519 => 0 | KSecp256k1 => 1 | KAddress => 2 end.
(** sig.rs 58-65 [from_byte]. *)
Definition kt_from_byte (b : N) : key_type :=
  if b =? 0 then KEd25519 else if b =? 1 then KSecp256k1 else if b =? 2 then KAddress else KEd25519.

(** The external signature libraries: the public keys, secret keys and signatures
    of ed25519_dalek ([E..]) and libsecp256k1 ([S..]), their encodings and parsers,
    key derivation, signing, verification and recovery; [spk_full] is the 65-byte
    uncompressed encoding.  A recovery id is its byte. *)
Record schemes := mkSchemes {
  EPk : Type; epk_bytes : EPk -> bytes; epk_parse : bytes -> option EPk;
  SPk : Type; spk_ser : SPk -> bytes; spk_parse : bytes -> option SPk; spk_full : SPk -> bytes;
  ESk : Type; esk_bytes : ESk -> bytes; esk_parse : bytes -> option ESk;
  SSk : Type; ssk_ser : SSk -> bytes; ssk_parse : bytes -> option SSk;
  ESig : Type; esig_bytes : ESig -> bytes; esig_parse : bytes -> option ESig;
  SSig : Type; ssig_ser : SSig -> bytes; ssig_parse : bytes -> option SSig;
  ed_pk : ESk -> EPk; secp_pk : SSk -> SPk;
  ed_sign : ESk -> bytes -> ESig; ed_verify : EPk -> bytes -> ESig -> bool;
  keccak : bytes -> bytes;
  secp_sign : bytes -> SSk -> SSig * N; secp_verify : bytes -> SSig -> SPk -> bool;
  secp_recover : bytes -> SSig -> N -> option SPk }.

Section Keys.
Context (X : schemes).

(** sig.rs 71-82 [XfrPublicKey], [XfrPublicKeyInner]; an address has 20 bytes. *)
Inductive pubkey := PkEd (pk : EPk X) | PkSecp (pk : SPk X) | PkAddr (h : bytes).
(** sig.rs 92-99 [XfrSecretKey]. *)
Inductive seckey := SkEd (sk : ESk X) | SkSecp (sk : SSk X) | SkAddr (sk : SSk X).
(** sig.rs 103-111 [XfrSignature]. *)
Inductive signature := SgEd (s : ESig X) | SgSecp (s : SSig X) (rec : N) | SgAddr (s : SSig X) (rec : N).
(** sig.rs 116-121 [XfrKeyPair]. *)
Record keypair := mkKp { kp_pk : pubkey; kp_sk : seckey }.

Definition opt {T U} (f : T -> U) (o : option T) : res U := match o with Some t => Ok (f t) | None => Err end.

(** sig.rs 239-257 [XfrPublicKey::to_bytes]: a zeroed array of 34 bytes, filled. *)
Definition pk_to_bytes (k : pubkey) : bytes :=
  match k with
  | PkEd pk => kt_to_byte KEd25519 :: epk_bytes X pk ++ [0]
  | PkSecp pk => kt_to_byte KSecp256k1 :: spk_ser X pk
  | PkAddr h => kt_to_byte KAddress :: h ++ repeat 0 13
  end.
(** sig.rs 259-291 [XfrPublicKey::from_bytes]. *)
Definition pk_from_bytes (b : bytes) : res pubkey :=
  if Nat.eqb (length b) 32 then opt PkEd (epk_parse X b) else
  if negb (Nat.eqb (length b) 34) then Err else
  match kt_from_byte (hd 0 b) with
  | KEd25519 => opt PkEd (epk_parse X (firstn 32 (skipn 1 b)))
  | KSecp256k1 => opt PkSecp (spk_parse X (skipn 1 b))
  | KAddress => Ok (PkAddr (firstn 20 (skipn 1 b)))
  end.

(** sig.rs 435-452 [XfrSecretKey::to_bytes]. *)
Definition sk_to_bytes (k : seckey) : bytes :=
  match k with
  | SkEd sk => kt_to_byte KEd25519 :: esk_bytes X sk
  | SkSecp sk => kt_to_byte KSecp256k1 :: ssk_ser X sk
  | SkAddr sk => kt_to_byte KAddress :: ssk_ser X sk
  end.
(** sig.rs 455-485 [XfrSecretKey::from_bytes]. *)
Definition sk_from_bytes (b : bytes) : res seckey :=
  if Nat.eqb (length b) 32 then opt SkEd (esk_parse X b) else
  if negb (Nat.eqb (length b) 33) then Err else
  match kt_from_byte (hd 0 b) with
  | KEd25519 => opt SkEd (esk_parse X (skipn 1 b))
  | KSecp256k1 => opt SkSecp (ssk_parse X (skipn 1 b))
  | KAddress => opt SkAddr (ssk_parse X (skipn 1 b))
  end.
(** sig.rs 303-307 [Clone for XfrSecretKey]: [from_bytes(..).unwrap()]. *)
Definition sk_clone (k : seckey) : res seckey :=
  match sk_from_bytes (sk_to_bytes k) with Ok k' => Ok k' | _ => Panic end.

(** libsecp256k1 [RecoveryId::parse]: 0 to 3. *)
Definition rec_parse (b : N) : option N := if b <? 4 then Some b else None.
(** sig.rs 594-613 [XfrSignature::to_bytes]. *)
Definition sig_to_bytes (s : signature) : bytes :=
  match s with
  | SgEd s => kt_to_byte KEd25519 :: esig_bytes X s ++ [0]
  | SgSecp s r => kt_to_byte KSecp256k1 :: ssig_ser X s ++ [r]
  | SgAddr s r => kt_to_byte KAddress :: ssig_ser X s ++ [r]
  end.
(** sig.rs 616-653 [XfrSignature::from_bytes]. *)
Definition sig_from_bytes (b : bytes) : res signature :=
  if Nat.eqb (length b) 64 then opt SgEd (esig_parse X b) else
  if negb (Nat.eqb (length b) 66) then Err else
  match kt_from_byte (hd 0 b) with
  | KEd25519 => opt SgEd (esig_parse X (firstn 64 (skipn 1 b)))
  | KSecp256k1 =>
      bind (opt (fun s => s) (ssig_parse X (firstn 64 (skipn 1 b)))) (fun s => opt (SgSecp s) (rec_parse (nth 65 b 0)))
  | KAddress =>
      bind (opt (fun s => s) (ssig_parse X (firstn 64 (skipn 1 b)))) (fun s => opt (SgAddr s) (rec_parse (nth 65 b 0)))
  end.

(** sig.rs 576-590 [ZeiFromToBytes for XfrKeyPair]: the slices panic on fewer than
    33 bytes. *)
Definition kp_to_bytes (k : keypair) : bytes := sk_to_bytes (kp_sk k) ++ pk_to_bytes (kp_pk k).
Definition kp_from_bytes (b : bytes) : res keypair :=
  if Nat.ltb (length b) 33 then Panic else
  bind (sk_from_bytes (firstn 33 b)) (fun sk =>
  bind (pk_from_bytes (skipn 33 b)) (fun pk => Ok (mkKp pk sk))).

(** ** Signatures *)
(** sig.rs 702-711 [convert_libsecp256k1_public_key_to_address]. *)
Definition address_of (pk : SPk X) : bytes := skipn 12 (keccak X (tl (spk_full X pk))).
(** sig.rs 338-355 [into_keypair]. *)
Definition pub_of (k : seckey) : pubkey :=
  match k with
  | SkEd sk => PkEd (ed_pk X sk)
  | SkSecp sk => PkSecp (secp_pk X sk)
  | SkAddr sk => PkAddr (address_of (secp_pk X sk))
  end.
Definition into_keypair (k : seckey) : keypair := mkKp (pub_of k) k.
(** sig.rs 377-406 [XfrSecretKey::sign], 547-549 [XfrKeyPair::sign]. *)
Definition sk_sign (k : seckey) (msg : bytes) : res signature :=
  match k with
  | SkEd sk => Ok (SgEd (ed_sign X sk msg))
  | SkSecp sk => let '(s, r) := secp_sign X (keccak X msg) sk in Ok (SgSecp s r)
  | SkAddr sk => let '(s, r) := secp_sign X (keccak X msg) sk in Ok (SgAddr s r)
  end.
Definition kp_sign (k : keypair) (msg : bytes) : res signature := sk_sign (kp_sk k) msg.
(** sig.rs 205-236 [XfrPublicKey::verify]. *)
Definition pk_verify (k : pubkey) (msg : bytes) (s : signature) : res unit :=
  match k, s with
  | PkEd pk, SgEd s => if ed_verify X pk msg s then Ok tt else Err
  | PkSecp pk, SgSecp s _ => if secp_verify X (keccak X msg) s pk then Ok tt else Err
  | PkAddr h, SgAddr s r =>
      match secp_recover X (keccak X msg) s r with
      | Some pk => if bytes_eqb h (address_of pk) then Ok tt else Err
      | None => Err
      end
  | _, _ => Err
  end.

(** ** Multi-signatures *)
Context (srt : forall A : Type, (A -> bytes) -> list A -> list A).
(** sig.rs 665-674 [XfrMultiSig::sign]. *)
Definition multi_sign (ks : list keypair) (msg : bytes) : res (list signature) :=
  mapM (fun k => kp_sign k msg) (srt keypair (fun k => pk_to_bytes (kp_pk k)) ks).
(** The loop of sig.rs 685-687: the first failure is returned. *)
Fixpoint all_verify (l : list (pubkey * signature)) (msg : bytes) : res unit :=
  match l with
  | [] => Ok tt
  | (k, s) :: l' => bind (pk_verify k msg s) (fun _ => all_verify l' msg)
  end.
(** sig.rs 677-688 [XfrMultiSig::verify]. *)
Definition multi_verify (sigs : list signature) (ks : list pubkey) (msg : bytes) : res unit :=
  if negb (Nat.eqb (length ks) (length sigs)) then Err else
  all_verify (combine (srt pubkey pk_to_bytes ks) sigs) msg.
End Keys.
Arguments PkAddr {X} h.
Arguments PkEd {X} pk.
Arguments PkSecp {X} pk.
Arguments SkEd {X} sk.
Arguments SkSecp {X} sk.
Arguments SkAddr {X} sk.
Arguments SgEd {X} s.
Arguments SgSecp {X} s rec.
Arguments SgAddr {X} s rec.
Arguments mkKp {X}.
Arguments kp_pk {X}.
Arguments kp_sk {X}.

(** sig.rs 692-699 [recovery_id_from_u64]. *)
Definition recovery_id_from_u64 (v : N) : N :=
  if v =? 27 then 0 else if v =? 28 then 1 else if 35 <=? v then (v - 1) mod 2 else v mod 256.
