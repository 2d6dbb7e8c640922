(** The scalar fields: creation, encodings, limbs and powers
    (algebra/src/bls12_381.rs, ristretto.rs, jubjub.rs, secq256k1.rs, secp256k1.rs and the
    default methods of algebra/src/traits.rs).
    A scalar is the number it stores: below the field size for the four arkworks fields
    (their Montgomery form is not modelled), the 32 stored bytes for Ristretto, where
    curve25519-dalek keeps unreduced values.  The reductions of the libraries
    ([from_le_bytes_mod_order], [Fr::from(BigUint)], [from_bytes_mod_order]) are modelled by
    the remainder they are documented to compute, and [Scalar::from_bits] by clearing the
    highest bit.  Sampling is not modelled. *)
From Coq Require Import List NArith Bool.
From Verif Require Import Base UtilsModel.
Import ListNotations.
Local Open Scope N_scope.

Inductive kind := Bls | Ristretto | Jubjub | Secq | Secp.
(** [get_field_size_biguint]: bls12_381.rs 270-276, ristretto.rs 214-220, jubjub.rs 233-239,
    secq256k1.rs 210-216, secp256k1.rs 234-240. *)
Definition size (k : kind) : N :=
  match k with
  | Bls => 52435875175126190479447740508185965837690552500527637822603658699938581184513
  | Ristretto => 7237005577332262213973186563042994240857116359379907606001950938285454250989
  | Jubjub => 6554484396890773809930967563523245729705921265872317281365359162392183254199
  | Secq => 115792089237316195423570985008687907853269984665640564039457584007908834671663
  | Secp => 115792089237316195423570985008687907852837564279074904382605163141518161494337
  end.
(** [get_field_size_le_bytes]: bls12_381.rs 279-286, ristretto.rs 223-231, jubjub.rs 224-230,
    secq256k1.rs 219-226, secp256k1.rs 243-250. *)
Definition size_bytes (k : kind) : list N :=
  match k with
  | Bls => [0x01; 0x00; 0x00; 0x00; 0xff; 0xff; 0xff; 0xff; 0xfe; 0x5b; 0xfe; 0xff; 0x02; 0xa4;
            0xbd; 0x53; 0x05; 0xd8; 0xa1; 0x09; 0x08; 0xd8; 0x39; 0x33; 0x48; 0x7d; 0x9d; 0x29;
            0x53; 0xa7; 0xed; 0x73]
  | Ristretto => [0xed; 0xd3; 0xf5; 0x5c; 0x1a; 0x63; 0x12; 0x58; 0xd6; 0x9c; 0xf7; 0xa2; 0xde; 0xf9;
            0xde; 0x14; 0x00; 0x00; 0x00; 0x00; 0x00; 0x00; 0x00; 0x00; 0x00; 0x00; 0x00; 0x00;
            0x00; 0x00; 0x00; 0x10]
  | Jubjub => [183; 44; 247; 214; 94; 14; 151; 208; 130; 16; 200; 204; 147; 32; 104; 166; 0; 59; 52;
            1; 1; 59; 103; 6; 169; 175; 51; 101; 234; 180; 125; 14]
  | Secq => [0x2f; 0xfc; 0xff; 0xff; 0xfe; 0xff; 0xff; 0xff; 0xff; 0xff; 0xff; 0xff; 0xff; 0xff;
            0xff; 0xff; 0xff; 0xff; 0xff; 0xff; 0xff; 0xff; 0xff; 0xff; 0xff; 0xff; 0xff; 0xff;
            0xff; 0xff; 0xff; 0xff]
  | Secp => [0x41; 0x41; 0x36; 0xd0; 0x8c; 0x5e; 0xd2; 0xbf; 0x3b; 0xa0; 0x48; 0xaf; 0xe6; 0xdc;
            0xae; 0xba; 0xfe; 0xff; 0xff; 0xff; 0xff; 0xff; 0xff; 0xff; 0xff; 0xff; 0xff; 0xff;
            0xff; 0xff; 0xff; 0xff]
  end.
(** traits.rs 65-70 [field_size_minus_one_half]. *)
Definition minus_one_half (k : kind) : res (list N) := shift_u8_vec (size_bytes k).
(** [bytes_len]: 32 for every field (bls12_381.rs 27, ristretto.rs 15, jubjub.rs 18,
    secq256k1.rs 21, secp256k1.rs 23). *)
Definition bytes_len : nat := 32.
(** The length of [into_repr().to_bytes_le()]: [BigInteger256], or [BigInteger320] for the
    two secp fields (secq256k1.rs 31, secp256k1.rs 33). *)
Definition repr_len (k : kind) : nat := match k with Secq | Secp => 40 | _ => 32 end.

(** [from_bytes]: bls12_381.rs 309-316, jubjub.rs 262-270, secq256k1.rs 250-257,
    secp256k1.rs 273-280; ristretto.rs 251-258.  The padded copy of the arkworks versions
    is not used by them. *)
Definition pad (bs : list N) : list N := bs ++ repeat 0 (bytes_len - length bs).
Definition from_bits (array : list N) : list N := firstn 31 array ++ [N.land (nth 31 array 0) 127].
Definition from_bytes (k : kind) (bs : list N) : res N :=
  if Nat.ltb bytes_len (length bs) then Err else
  match k with
  | Ristretto => Ok (le_value (from_bits (pad bs)))
  | _ => Ok (le_value bs mod size k)
  end.
(** [to_bytes]: bls12_381.rs 304-306, jubjub.rs 257-259, ristretto.rs 246-248: all bytes;
    secq256k1.rs 245-247, secp256k1.rs 268-270: the first 32 of 40. *)
Definition to_bytes (k : kind) (x : N) : list N :=
  match k with
  | Secq | Secp => firstn bytes_len (le_bytes (repr_len k) x)
  | _ => le_bytes (repr_len k) x
  end.

(** [BigUint::to_bytes_le]: no leading zero, but one byte for zero. *)
Definition big_bytes (x : N) : list N :=
  if x =? 0 then [0] else le_bytes (N.to_nat ((N.size x + 7) / 8)) x.
(** [Into<BigUint>]: bls12_381.rs 108-113, ristretto.rs 168-173, jubjub.rs 184-189,
    secq256k1.rs 399-405, secp256k1.rs 193-199. *)
Definition into_biguint (x : N) : N := x.
(** [From<&BigUint>]: bls12_381.rs 115-120, jubjub.rs 191-196, secq256k1.rs 407-412,
    secp256k1.rs 201-206; ristretto.rs 175-187, where the slice [0..32] panics when the
    reduced number has fewer bytes. *)
Definition from_biguint (k : kind) (x : N) : res N :=
  match k with
  | Ristretto =>
      let bytes := big_bytes (x mod size Ristretto) in
      if Nat.ltb (length bytes) 32 then Panic else
      Ok (le_value (firstn 32 bytes) mod size Ristretto)
  | _ => Ok (x mod size k)
  end.

(** [get_little_endian_u64]: bls12_381.rs 289-296, jubjub.rs 242-249, secp256k1.rs 253-260
    (four slices, the last one to the end); secq256k1.rs 229-237 (five);
    ristretto.rs 234-238 ([read_u64_into] panics unless the lengths match). *)
Definition slice (i j : nat) (l : list N) : list N := firstn (j - i) (skipn i l).
Definition little_endian_u64 (k : kind) (x : N) : res (list N) :=
  let a := le_bytes (repr_len k) x in
  match k with
  | Secq => mapM u8_le_slice_to_u64 [slice 0 8 a; slice 8 16 a; slice 16 24 a; slice 24 32 a; skipn 32 a]
  | Ristretto => if Nat.eqb (length a) 32 then Ok (u64_limbs_from_bytes a) else Panic
  | _ => mapM u8_le_slice_to_u64 [slice 0 8 a; slice 8 16 a; slice 16 24 a; skipn 24 a]
  end.

(** [pow]: traits.rs 91-106 for Ristretto and Jubjub, limb by limb; bls12_381.rs 328-333,
    secq256k1.rs 269-274 and secp256k1.rs 292-297 copy the exponent into an array of four
    or five limbs first, which panics when it is longer (arkworks' own [pow] is modelled by
    the same loop). *)
Section Pow.
Context (p : N).
Fixpoint pow_bits (n : nat) (e base result : N) : N * N :=
  match n with
  | O => (base, result)
  | S n' => pow_bits n' (N.shiftr e 1) (base * base mod p) (if e mod 2 =? 1 then result * base mod p else result)
  end.
Definition pow_loop (x : N) (limbs : list N) : N :=
  snd (fold_left (fun br e => pow_bits 64 e (fst br) (snd br)) limbs (x, 1)).
End Pow.
Definition exp_limbs (k : kind) : option nat := match k with Bls => Some 4%nat | Secq | Secp => Some 5%nat | _ => None end.
Definition pow (k : kind) (x : N) (exponent : list N) : res N :=
  match exp_limbs k with
  | Some n => if Nat.ltb n (length exponent) then Panic else Ok (pow_loop (size k) x (exponent ++ repeat 0 (n - length exponent)))
  | None => Ok (pow_loop (size k) x exponent)
  end.
