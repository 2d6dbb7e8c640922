(** Specification of the text forms: the base64 alphabet and what it means that a text
    spells bytes, decimal numerals. *)
From Coq Require Import List NArith String Ascii.
From Verif Require Import Base.
Import ListNotations.
Local Open Scope N_scope.

(** The characters of a literal. *)
Fixpoint chars (s : string) : list N :=
  match s with EmptyString => [] | String c r => N_of_ascii c :: chars r end.

(** RFC 4648, section 5. *)
Definition alphabet : list N :=
  chars "ABCDEFGHIJKLMNOPQRSTUVWXYZabcdefghijklmnopqrstuvwxyz0123456789-_".

(** The number written with the digits [l], most significant first. *)
Definition big_endian (base : N) (l : list N) : N := fold_left (fun a d => a * base + d) l 0.

(** [t] is the text of [b]: [n] letters whose values, read as one number, are the bits of
    [b] followed by fewer than six zeros, then padding up to a multiple of four. *)
Definition spells (t : list N) (b : list N) : Prop :=
  exists s p, t = map (fun x => nth (N.to_nat x) alphabet 0) s ++ repeat 61 p /\ (p < 4)%nat /\
    Forall (fun x => x < 64) s /\ Nat.modulo (List.length t) 4 = 0%nat /\
    exists z, z < 6 /\ 8 * N.of_nat (List.length b) + z = 6 * N.of_nat (List.length s) /\
      big_endian 64 s = big_endian 256 b * 2 ^ z.

(** Decimal digits. *)
Definition digit (c : N) : Prop := 48 <= c < 58.
Definition numeral (t : list N) (n : N) : Prop :=
  t <> [] /\ Forall digit t /\ big_endian 10 (map (fun c => c - 48) t) = n.

(** ** Objects *)
From Verif Require Import UtilsModel SerModel.
Definition byte_string (b : list N) : Prop := Forall (fun x => x < 256) b.
(** Every valid object is encoded in bytes and decoded from them. *)
Definition faithful {A} (c : codec A) (valid : A -> Prop) : Prop :=
  forall x, valid x -> byte_string (enc c x) /\ dec c (enc c x) = Ok x.
(** Only the encoding of an object decodes to it. *)
Definition canonical {A} (c : codec A) : Prop := forall b x, dec c b = Ok x -> enc c x = b.
(** Decoding never panics. *)
Definition total {A} (c : codec A) : Prop := forall b, dec c b <> Panic.
(** Compression of points into a fixed number of bytes. *)
Definition lawful (P : points) : Prop :=
  forall p, byte_string (of_point P p) /\ List.length (of_point P p) = plen P /\ to_point P (of_point P p) = Some p.
Definition bytes_of (n : nat) (b : list N) : Prop := byte_string b /\ List.length b = n.
