(** Model of hybrid encryption (crypto/src/basic/hybrid_encryption.rs) and of its
    use by the transfer keys (api/src/xfr/sig.rs).

    Representation and simplifications.
    - X25519, the map from Edwards to Montgomery points, SHA-2 and the AES-256-CTR
      key stream are the fields of [hsuite]; the key stream is indexed by the byte
      position (the 64-bit block counter does not overflow before 2^68 bytes).
    - The secp256k1 side uses [suite] of NoteModel (keys.rs [encrypt], [decrypt])
      with the point and scalar encodings of [slink].
    - Random draws are arguments. *)
From Coq Require Import List NArith Bool.
From Verif Require Import Base UtilsModel NoteModel KeyModel.
Import ListNotations.
Local Open Scope N_scope.

Record hsuite := mkHs {
  sha256 : bytes -> bytes; sha512 : bytes -> bytes;
  x25519 : bytes -> bytes -> bytes;      (* scalar, u-coordinate *)
  base_u : bytes;
  ed_to_mont : bytes -> option bytes;    (* [decompress], [to_montgomery] *)
  keystream : bytes -> nat -> N }.

(** x25519_dalek and ed25519_dalek [clamp_scalar], on 32 bytes. *)
Definition clamp (b : bytes) : bytes :=
  match b with
  | [] => []
  | b0 :: r => N.land b0 248 :: firstn 30 r ++ [N.lor (N.land (nth 30 r 0) 127) 64]
  end.

Section Hybrid.
Context (H : hsuite).

(** hybrid_encryption.rs 120-123 [ZeiHybridCiphertext]: ephemeral key, ciphertext. *)
Record hctext := mkHc { hc_eph : bytes; hc_ct : bytes }.
(** hybrid_encryption.rs 125-145 [zei_to_bytes], [zei_from_bytes]. *)
Definition hc_to_bytes (c : hctext) : bytes := hc_eph c ++ hc_ct c.
Definition hc_from_bytes (b : bytes) : res hctext :=
  if Nat.ltb (length b) 32 then Err else Ok (mkHc (firstn 32 b) (skipn 32 b)).

(** hybrid_encryption.rs 195-202 [shared_secret_to_symmetric_key]. *)
Definition sym_key (shared : bytes) : bytes := sha256 H shared.
(** hybrid_encryption.rs 263-279 [symmetric_encrypt], [symmetric_decrypt]: both XOR the key stream. *)
Fixpoint xor_from (i : nat) (key m : bytes) : bytes :=
  match m with [] => [] | x :: m' => N.lxor x (keystream H key i) :: xor_from (S i) key m' end.
Definition symmetric_encrypt (key m : bytes) : bytes := xor_from 0 key m.
Definition symmetric_decrypt (key c : bytes) : bytes := xor_from 0 key c.

(** hybrid_encryption.rs 205-217 [symmetric_key_from_x25519_public_key]; [e] are the random bytes of the
    ephemeral secret. *)
Definition key_from_x_pk (e : bytes) (pk : bytes) : bytes * bytes :=
  let s := clamp e in (sym_key (x25519 H s pk), x25519 H s (base_u H)).
(** hybrid_encryption.rs 220-232 [symmetric_key_from_ed25519_public_key]: [unwrap] panics. *)
Definition key_from_ed_pk (e : bytes) (pk : bytes) : res (bytes * bytes) :=
  match ed_to_mont H pk with Some u => Ok (key_from_x_pk e u) | None => Panic end.
(** ed25519_dalek [ExpandedSecretKey::from], its first 32 bytes. *)
Definition expand (sk : bytes) : bytes := clamp (firstn 32 (sha512 H sk)).
(** algebra/src/ristretto.rs 251-258 [RistrettoScalar::from_bytes] with
    [Scalar::from_bits], which clears the top bit, and [to_bytes]. *)
Definition ristretto_bits (b : bytes) : res bytes :=
  if Nat.ltb 32 (length b) then Err else
  let a := b ++ repeat 0 (32 - length b) in Ok (firstn 31 a ++ [N.land (nth 31 a 0) 127]).
(** hybrid_encryption.rs 234-240 [sec_key_as_scalar]: [unwrap] panics. *)
Definition sec_key_as_scalar (sk : bytes) : res bytes :=
  match ristretto_bits (expand sk) with Ok s => Ok s | _ => Panic end.
(** hybrid_encryption.rs 243-249 [symmetric_key_from_x25519_secret_key]; [sk] is already clamped. *)
Definition key_from_x_sk (sk eph : bytes) : bytes := sym_key (x25519 H sk eph).
(** hybrid_encryption.rs 252-261 [symmetric_key_from_ed25519_secret_key]; [StaticSecret::from] clamps. *)
Definition key_from_ed_sk (sk eph : bytes) : res bytes :=
  bind (sec_key_as_scalar sk) (fun s => Ok (key_from_x_sk (clamp s) eph)).

(** hybrid_encryption.rs 148-159 [hybrid_encrypt_x25519], 177-183 [hybrid_decrypt_with_x25519_secret_key];
    an [XSecretKey] holds clamped bytes, whose public key is [x_pk]. *)
Definition x_pk (sk : bytes) : bytes := x25519 H sk (base_u H).
Definition hybrid_encrypt_x (e pk msg : bytes) : hctext :=
  let '(key, eph) := key_from_x_pk e pk in mkHc eph (symmetric_encrypt key msg).
Definition hybrid_decrypt_x (c : hctext) (sk : bytes) : bytes :=
  symmetric_decrypt (key_from_x_sk sk (hc_eph c)) (hc_ct c).
(** hybrid_encryption.rs 162-174 [hybrid_encrypt_ed25519], 186-192 [hybrid_decrypt_with_ed25519_secret_key]. *)
Definition hybrid_encrypt_ed (e pk msg : bytes) : res hctext :=
  bind (key_from_ed_pk e pk) (fun ke => Ok (mkHc (snd ke) (symmetric_encrypt (fst ke) msg))).
Definition hybrid_decrypt_ed (c : hctext) (sk : bytes) : res bytes :=
  bind (key_from_ed_sk sk (hc_eph c)) (fun key => Ok (symmetric_decrypt key (hc_ct c))).

(** ** Through the transfer keys *)
Context (X : schemes) (S : suite).
(** libsecp256k1: the eight 32-bit limbs of a secret key and of a field element, the
    affine coordinates of a public key; algebra/src/secp256k1.rs:
    [to_compressed_bytes], [from_compressed_bytes], [SECP256K1Scalar::from_bytes]. *)
Record slink := mkSl {
  sl_limbs : SSk X -> list N; sl_xy : SPk X -> N * N;
  sl_comp : Pt S -> bytes; sl_decomp : bytes -> option (Pt S); sl_sc : bytes -> option (Sc S) }.
Context (L : slink).
Definition secp_p : N := 2 ^ 256 - 2 ^ 32 - 977.
(** libsecp256k1 [FieldStorage]: least significant limb first. *)
Definition limbs32 (x : N) : list N := map (fun i => (x / 2 ^ (32 * N.of_nat i)) mod 2 ^ 32) (seq 0 8).
(** sig.rs 731-742 [convert_scalar_libsecp256k1_to_algebra]. *)
Definition convert_scalar (b : list N) : bytes := flat_map (le_bytes 4) (firstn 8 b).
(** sig.rs 713-729 [convert_point_libsecp256k1_to_algebra]; ark_serialize [SWFlags]:
    128 for the larger root, 0 for the smaller. *)
Definition convert_point (pk : SPk X) : bytes :=
  let '(x, y) := sl_xy L pk in
  let y_neg := (secp_p - y) mod secp_p in
  convert_scalar (limbs32 x) ++ [if y_neg <=? y then 128 else 0].
(** sig.rs 182-202 [XfrPublicKey::hybrid_encrypt]. *)
Definition hybrid_encrypt (k : pubkey X) (e : bytes) (r : Sc S) (msg : bytes) : res bytes :=
  match k with
  | PkEd pk => bind (hybrid_encrypt_ed e (epk_bytes X pk) msg) (fun c => Ok (hc_to_bytes c))
  | PkSecp pk =>
      match sl_decomp L (convert_point pk) with
      | Some gp => bind (encrypt S gp r msg) (fun pc => Ok (sl_comp L (fst pc) ++ snd pc))
      | None => Err
      end
  | PkAddr _ => Panic
  end.
(** sig.rs 358-374 [XfrSecretKey::hybrid_decrypt]: [lock[0..33]] panics on fewer
    bytes. *)
Definition hybrid_decrypt (k : seckey X) (lock : bytes) : res bytes :=
  match k with
  | SkEd sk => bind (hc_from_bytes lock) (fun c => hybrid_decrypt_ed c (esk_bytes X sk))
  | SkSecp sk =>
      match sl_sc L (convert_scalar (sl_limbs L sk)) with
      | Some s =>
          if Nat.ltb (length lock) 33 then Panic else
          match sl_decomp L (firstn 33 lock) with
          | Some share => decrypt S s (share, skipn 33 lock)
          | None => Err
          end
      | None => Err
      end
  | SkAddr _ => Panic
  end.
End Hybrid.
