(** Text and byte encodings of the objects that leave the library
    (algebra/src/serialization.rs, algebra/src/utils.rs, algebra/src/lib.rs 78-104,
    api/src/serialization.rs, the [ZeiFromToBytes] instances of the keys and ciphertexts).

    Representation and simplifications.
    - Bytes and characters are numbers; a text is the list of its UTF-8 bytes.
    - The base64 crate (0.13, configuration [URL_SAFE]) is modelled by its documented
      behaviour: padding is written, and is optional but not arbitrary when reading; unused
      bits must be zero.  The reason of an error is not modelled.
    - serde's data model is [val]; a format is the way it hands a value to the visitor
      ([source]): [Json] for serde_json, [Msgpack] for rmp_serde (and for any binary format
      that hands out byte strings), [Buffered] for the values serde keeps while it tries
      the variants of an untagged enum (they claim to be human readable).
    - Points and their compression are arguments. *)
From Coq Require Import List NArith Bool.
From Verif Require Import Base UtilsModel.
Import ListNotations.
Local Open Scope N_scope.

Notation bytes := (list N).

(** ** Base64 (utils.rs 47-55 [b64enc], [b64dec]) *)
(** The alphabet of [base64::URL_SAFE]. *)
Definition sym (x : N) : N :=
  if x <? 26 then x + 65 else if x <? 52 then x + 71 else if x <? 62 then x - 4 else if x =? 62 then 45 else 95.
Definition unsym (c : N) : option N :=
  if (65 <=? c) && (c <=? 90) then Some (c - 65)
  else if (97 <=? c) && (c <=? 122) then Some (c - 71)
  else if (48 <=? c) && (c <=? 57) then Some (c + 4)
  else if c =? 45 then Some 62 else if c =? 95 then Some 63 else None.
Definition PAD : N := 61.

(** Bytes to groups of six bits, the last group filled with zeros. *)
Fixpoint sextets (b : bytes) : list N :=
  match b with
  | x :: y :: z :: r => x / 4 :: (x mod 4) * 16 + y / 16 :: (y mod 16) * 4 + z / 64 :: z mod 64 :: sextets r
  | [x; y] => [x / 4; (x mod 4) * 16 + y / 16; (y mod 16) * 4]
  | [x] => [x / 4; (x mod 4) * 16]
  | [] => []
  end.
(** utils.rs 48-50 [b64enc]. *)
Definition b64enc (b : bytes) : bytes :=
  map sym (sextets b) ++ repeat PAD (match Nat.modulo (length b) 3 with 1%nat => 2 | 2%nat => 1 | _ => 0 end)%nat.

(** Groups of six bits to bytes; a single group, or unused bits that are not zero, are
    errors. *)
Fixpoint octets (s : list N) : res bytes :=
  match s with
  | a :: b :: c :: d :: r =>
      rmap (fun t => a * 4 + b / 16 :: (b mod 16) * 16 + c / 4 :: (c mod 4) * 64 + d :: t) (octets r)
  | [a; b; c] => if c mod 4 =? 0 then Ok [a * 4 + b / 16; (b mod 16) * 16 + c / 4] else Err
  | [a; b] => if b mod 16 =? 0 then Ok [a * 4 + b / 16] else Err
  | [_] => Err
  | [] => Ok []
  end.
(** The characters before the first padding character, and the rest. *)
Fixpoint body (t : bytes) : bytes :=
  match t with [] => [] | c :: r => if c =? PAD then [] else c :: body r end.
Fixpoint tail (t : bytes) : bytes :=
  match t with [] => [] | c :: r => if c =? PAD then t else tail r end.
Fixpoint symbols (t : bytes) : res (list N) :=
  match t with
  | [] => Ok []
  | c :: r => match unsym c with Some x => rmap (cons x) (symbols r) | None => Err end
  end.
(** utils.rs 53-55 [b64dec]. *)
Definition b64dec (t : bytes) : res bytes :=
  if forallb (N.eqb PAD) (tail t)
     && Nat.leb (length (tail t)) (match Nat.modulo (length (body t)) 4 with 2%nat => 2 | 3%nat => 1 | _ => 0 end)%nat
  then bind (symbols (body t)) octets else Err.

(** ** Values and formats *)
Inductive val := VUnit | VNum (n : N) | VStr (t : bytes) | VBytes (b : bytes) | VSeq (l : list val) | VMap (l : list (val * val)).
Inductive source := Json | Msgpack | Buffered.
(** [is_human_readable]; serde's buffered values keep the default. *)
Definition human (f : source) : bool := match f with Msgpack => false | _ => true end.

(** serialization.rs 191-200 [visit_seq] of [BytesVisitor]: every element is a u8; also
    the way a [Vec<u8>] is read. *)
Fixpoint u8s (l : list val) : res bytes :=
  match l with
  | [] => Ok []
  | VNum n :: r => if n <? 256 then rmap (cons n) (u8s r) else Err
  | _ => Err
  end.
(** [deserialize_str] (human readable) or [deserialize_bytes] with the [BytesVisitor] of
    serialization.rs 187-216: serde_json accepts a string only, the buffer a string or
    bytes, rmp_serde whatever is there. *)
Definition read_bytes (f : source) (v : val) : res bytes :=
  match f, v with
  | _, VStr t => b64dec t
  | Json, _ => Err
  | _, VBytes b => Ok b
  | Msgpack, VSeq l => u8s l
  | _, _ => Err
  end.

(** serialization.rs 102-107 [ZeiFromToBytes]. *)
Record codec (A : Type) := mkCodec { enc : A -> bytes; dec : bytes -> res A }.
Arguments enc {A}. Arguments dec {A}.
(** lib.rs 78-90 [serialize] of the macro, serialization.rs 219-231 [serialize]. *)
Definition write {A} (c : codec A) (f : source) (x : A) : val :=
  if human f then VStr (b64enc (enc c x)) else VBytes (enc c x).
(** lib.rs 91-104 [deserialize] of the macro, serialization.rs 233-245 [deserialize]. *)
Definition read {A} (c : codec A) (f : source) (v : val) : res A := bind (read_bytes f v) (dec c).

(** A [Vec<u8>] in a derived implementation is a sequence of numbers. *)
Definition write_vec (b : bytes) : val := VSeq (map VNum b).
Definition read_vec (v : val) : res bytes := match v with VSeq l => u8s l | _ => Err end.

(** ** Amounts (structs.rs 120, 582, 632: [serde_str]) *)
(** [u64::to_string]. *)
Fixpoint decimal_fuel (fuel : nat) (n : N) : bytes :=
  match fuel with
  | O => []
  | S f => if n <? 10 then [n + 48] else decimal_fuel f (n / 10) ++ [n mod 10 + 48]
  end.
Definition decimal (n : N) : bytes := decimal_fuel 20 n.
(** [u64::from_str]: an optional plus sign, at least one digit, checked arithmetic. *)
Fixpoint digits_from (acc : N) (t : bytes) : res N :=
  match t with
  | [] => Ok acc
  | c :: r =>
      if (48 <=? c) && (c <=? 57)
      then if acc * 10 + (c - 48) <? 2 ^ 64 then digits_from (acc * 10 + (c - 48)) r else Err
      else Err
  end.
Definition parse_u64 (t : bytes) : res N :=
  match t with
  | [] => Err
  | c :: r => if c =? 43 then match r with [] => Err | _ => digits_from 0 r end else digits_from 0 t
  end.
Definition write_amount (n : N) : val := VStr (decimal n).
Definition read_amount (v : val) : res N := match v with VStr t => parse_u64 t | _ => Err end.

(** ** Objects *)
(** api/src/serialization.rs 8-22 [AssetType]; crypto/src/basic/hybrid_encryption.rs
    23-40 [XPublicKey], 67-84 [XSecretKey]: exactly 32 bytes. *)
Definition exact32 : codec bytes := mkCodec _ (fun x => x) (fun b => if Nat.eqb (length b) 32 then Ok b else Err).
(** serialization.rs 37-48 [CompressedRistretto], 50-61 [CompressedEdwardsY]: [from_slice]
    copies into an array of 32 bytes, which panics on any other length. *)
Definition compressed : codec bytes := mkCodec _ (fun x => x) (fun b => if Nat.eqb (length b) 32 then Ok b else Panic).
(** serialization.rs 142-156 [x25519_dalek::PublicKey], 158-172 [StaticSecret]. *)
Definition prefix32 : codec bytes :=
  mkCodec _ (fun x => x) (fun b => if Nat.ltb (length b) 32 then Err else Ok (firstn 32 b)).
(** hybrid_encryption.rs 107-115 [Ctext]. *)
Definition ctext : codec bytes := mkCodec _ (fun x => x) (fun b => Ok b).
(** hybrid_encryption.rs 118-147 [ZeiHybridCiphertext]: ciphertext and ephemeral key. *)
Definition hybrid : codec (bytes * bytes) :=
  mkCodec _ (fun x => enc exact32 (snd x) ++ enc ctext (fst x))
    (fun b => if Nat.ltb (length b) 32 then Err else
       bind (dec exact32 (firstn 32 b)) (fun k => bind (dec ctext (skipn 32 b)) (fun c => Ok (c, k)))).

(** A point of one of the groups: [to_point] decompresses strings of the fixed length. *)
Record points := mkPts { Pt : Type; plen : nat; of_point : Pt -> bytes; to_point : bytes -> option Pt }.
(** serialization.rs 71-83 with ristretto.rs 365-385: [from_slice] panics on another
    length, as above. *)
Definition ristretto_point (P : points) : codec (Pt P) :=
  mkCodec _ (of_point P) (fun b =>
    bind (dec compressed b) (fun b => match to_point P b with Some p => Ok p | None => Err end)).
(** serialization.rs 71-83 with bls12_381.rs 365-393, 740-767, 967-993, jubjub.rs 322-348,
    secp256k1.rs 378-406 and secq256k1.rs: the reader takes what it needs from the front. *)
Definition ark_point (P : points) : codec (Pt P) :=
  mkCodec _ (of_point P) (fun b =>
    if Nat.ltb (length b) (plen P) then Err else
    match to_point P (firstn (plen P) b) with Some p => Ok p | None => Err end).
(** api/src/anon_xfr/keys.rs 22-38 [AXfrPubKey]. *)
Definition axfr_pub (P : points) : codec (Pt P) :=
  mkCodec _ (of_point P) (fun b => if negb (Nat.eqb (length b) (plen P)) then Err else dec (ark_point P) b).
(** keys.rs 185-211 [AXfrKeyPair]: the secret scalar, then the public key; [sc] is the
    codec of [SECP256K1Scalar]. *)
Definition axfr_pair {S} (sc : codec S) (P : points) : codec (S * Pt P) :=
  mkCodec _ (fun x => enc sc (fst x) ++ enc (axfr_pub P) (snd x))
    (fun b => if negb (Nat.eqb (length b) (32 + plen P)) then Err else
       bind (dec sc (firstn 32 b)) (fun s => bind (dec (axfr_pub P) (skipn 32 b)) (fun p => Ok (s, p)))).
(** crypto/src/basic/elgamal.rs 30-46 [ElGamalCiphertext<RistrettoPoint>]: slicing a string
    that is too short panics. *)
Definition elgamal (P : points) : codec (Pt P * Pt P) :=
  mkCodec _ (fun x => of_point P (fst x) ++ of_point P (snd x))
    (fun b => if Nat.ltb (length b) 32 then Panic else
       bind (dec (ristretto_point P) (firstn 32 b)) (fun e1 =>
       bind (dec (ristretto_point P) (skipn 32 b)) (fun e2 => Ok (e1, e2)))).
