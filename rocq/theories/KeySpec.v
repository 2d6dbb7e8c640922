(** What the theorems about keys, signatures and encryption are stated with. *)
From Coq Require Import List NArith Bool Permutation Sorted.
From Verif Require Import Base UtilsModel NoteModel KeyModel HybModel.
Import ListNotations.
Local Open Scope N_scope.

(** ** The external libraries *)
(** Encoding [n] bytes long that decodes to what was encoded; only the encoding of
    a value decodes to it. *)
Definition codec {T} (n : nat) (ser : T -> bytes) (parse : bytes -> option T) : Prop :=
  (forall x, length (ser x) = n /\ parse (ser x) = Some x) /\
  (forall b x, parse b = Some x -> b = ser x).
Definition schemes_ok (X : schemes) : Prop :=
  codec 32 (epk_bytes X) (epk_parse X) /\ codec 33 (spk_ser X) (spk_parse X) /\
  codec 32 (esk_bytes X) (esk_parse X) /\ codec 32 (ssk_ser X) (ssk_parse X) /\
  codec 64 (esig_bytes X) (esig_parse X) /\ codec 64 (ssig_ser X) (ssig_parse X) /\
  (forall m, length (keccak X m) = 32%nat).
(** Signatures made with a secret key verify, and recover its public key. *)
Definition schemes_sign (X : schemes) : Prop :=
  (forall sk m, ed_verify X (ed_pk X sk) m (ed_sign X sk m) = true) /\
  (forall sk m, let '(s, r) := secp_sign X m sk in
     secp_verify X m s (secp_pk X sk) = true /\ secp_recover X m s r = Some (secp_pk X sk) /\ r < 4).

(** ** Values of the Rust types *)
Definition pk_wf {X} (k : pubkey X) : Prop := match k with PkAddr h => length h = 20%nat | _ => True end.
Definition sig_wf {X} (s : signature X) : Prop := match s with SgEd _ => True | SgSecp _ r | SgAddr _ r => r < 4 end.

(** ** The byte strings of each value *)
Inductive pk_string {X} : pubkey X -> bytes -> Prop :=
| ps_old pk : pk_string (PkEd pk) (epk_bytes X pk)
| ps_ed t pk x : t <> 1 -> t <> 2 -> pk_string (PkEd pk) (t :: epk_bytes X pk ++ [x])
| ps_secp pk : pk_string (PkSecp pk) (1 :: spk_ser X pk)
| ps_addr h rest : length h = 20%nat -> length rest = 13%nat -> pk_string (PkAddr h) (2 :: h ++ rest).
Inductive sk_string {X} : seckey X -> bytes -> Prop :=
| ss_old sk : sk_string (SkEd sk) (esk_bytes X sk)
| ss_ed t sk : t <> 1 -> t <> 2 -> sk_string (SkEd sk) (t :: esk_bytes X sk)
| ss_secp sk : sk_string (SkSecp sk) (1 :: ssk_ser X sk)
| ss_addr sk : sk_string (SkAddr sk) (2 :: ssk_ser X sk).
Inductive sig_string {X} : signature X -> bytes -> Prop :=
| gs_old s : sig_string (SgEd s) (esig_bytes X s)
| gs_ed t s x : t <> 1 -> t <> 2 -> sig_string (SgEd s) (t :: esig_bytes X s ++ [x])
| gs_secp s r : r < 4 -> sig_string (SgSecp s r) (1 :: ssig_ser X s ++ [r])
| gs_addr s r : r < 4 -> sig_string (SgAddr s r) (2 :: ssig_ser X s ++ [r]).
(** Strings of the current format: full length, a known key type, and padding only
    of zeros. *)
Definition pk_strict (b : bytes) : Prop :=
  length b = 34%nat /\
  ((hd 0 b = 0 /\ nth 33 b 0 = 0) \/ hd 0 b = 1 \/ (hd 0 b = 2 /\ skipn 21 b = repeat 0 13)).
Definition sk_strict (b : bytes) : Prop := length b = 33%nat /\ hd 0 b < 3.
Definition sig_strict (b : bytes) : Prop :=
  length b = 66%nat /\ ((hd 0 b = 0 /\ nth 65 b 0 = 0) \/ hd 0 b = 1 \/ hd 0 b = 2).

(** ** Sorting *)
(** [Ord for Vec<u8>]: lexicographic. *)
Fixpoint bytes_leb (a b : bytes) : bool :=
  match a, b with
  | [], _ => true
  | _ :: _, [] => false
  | x :: a', y :: b' => if x <? y then true else if y <? x then false else bytes_leb a' b'
  end.
(** A correct sort, stable or not. *)
Definition sorts (srt : forall A : Type, (A -> bytes) -> list A -> list A) : Prop :=
  forall A (key : A -> bytes) l,
    Permutation l (srt A key l) /\ StronglySorted (fun x y => bytes_leb (key x) (key y) = true) (srt A key l).

(** ** Encryption *)
(** 32 bytes. *)
Definition bytes32 (b : bytes) : Prop := length b = 32%nat /\ Forall (fun x => x < 256) b.
Definition clamped (b : bytes) : Prop := exists e, bytes32 e /\ b = clamp e.
(** X25519 is a Diffie-Hellman function on clamped scalars with 32-byte public
    keys, and SHA-512 returns 64 bytes. *)
Definition hsuite_ok (H : hsuite) : Prop :=
  (forall a b, clamped a -> clamped b -> x25519 H a (x25519 H b (base_u H)) = x25519 H b (x25519 H a (base_u H))) /\
  (forall a u, clamped a -> length (x25519 H a u) = 32%nat) /\
  (forall m, length (sha512 H m) = 64%nat /\ Forall (fun x => x < 256) (sha512 H m)).
(** The Edwards public key of a secret key maps to the Montgomery point of its
    expanded scalar. *)
Definition ed_link (H : hsuite) (X : schemes) : Prop :=
  forall sk, ed_to_mont H (epk_bytes X (ed_pk X sk)) = Some (x25519 H (clamp (firstn 32 (sha512 H (esk_bytes X sk)))) (base_u H)).
(** ark_serialize on secp256k1: the x-coordinate, least significant byte first, and
    a flag byte telling whether y is larger than its opposite. *)
Definition ark_compress (xy : N * N) : bytes :=
  le_bytes 32 (fst xy) ++ [if secp_p - snd xy <? snd xy then 128 else 0].
(** The two secp256k1 libraries agree: [scalar_of sk] is the secret scalar, and the
    public key of [sk] has the coordinates of the group element [scalar_of sk * G]. *)
Definition secp_link (X : schemes) (S : suite) (L : slink X S) (value : SSk X -> N) (scalar_of : SSk X -> Sc S) : Prop :=
  (forall sk, value sk < 2 ^ 256 /\ sl_limbs X S L sk = limbs32 (value sk) /\
     sl_sc X S L (le_bytes 32 (value sk)) = Some (scalar_of sk)) /\
  (forall sk, let '(x, y) := sl_xy X S L (secp_pk X sk) in
     x < secp_p /\ 0 < y < secp_p /\ sl_decomp X S L (ark_compress (x, y)) = Some (mulb S (scalar_of sk))) /\
  (forall p, length (sl_comp X S L p) = 33%nat /\ sl_decomp X S L (sl_comp X S L p) = Some p).
Definition seal_ok (S : suite) : Prop :=
  (forall a b, pmul S (mulb S a) b = pmul S (mulb S b) a) /\
  (forall k m c, seal S k m = Some c -> open S k c = Some m).
