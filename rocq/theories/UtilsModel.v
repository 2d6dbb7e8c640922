(** Model of algebra/src/utils.rs (integer helpers).  Bytes, u32 and u64 are
    [N]; ranges are hypotheses of the theorems.  base64, PRNG seeding and
    save_to_file are not modelled. *)
From Coq Require Import List NArith Bool.
From Verif Require Import Base.
Import ListNotations.
Local Open Scope N_scope.

(** algebra/src/utils.rs 43-46, [u64_to_u32_pair]: low and high halves. *)
Definition u64_to_u32_pair (x : N) : N * N := (N.land x 4294967295, N.shiftr x 32).

(** algebra/src/utils.rs 38-41, [min_greater_equal_power_of_two].
    The code goes through f64: log2(n).ceil() is exact for every u32 (the gap
    between log2(2^k) and log2(2^k + 1) is far above the f64 rounding error);
    n = 0 gives log2 = -inf, cast to i32::MIN, powi = 0; 2^32 saturates in the
    cast to u32. *)
Definition min_greater_equal_power_of_two (n : N) : N :=
  if n =? 0 then 0 else N.min (2 ^ N.log2_up n) 4294967295.

(** Little-endian bytes of a u64 ([u64::to_le_bytes]) and back. *)
Fixpoint le_bytes (n : nat) (x : N) : list N :=
  match n with O => [] | S n' => (x mod 256) :: le_bytes n' (x / 256) end.
Fixpoint le_value (bs : list N) : N :=
  match bs with [] => 0 | b :: bs' => b + 256 * le_value bs' end.

(** algebra/src/utils.rs 9-36, [u8_be_slice_to_u64], [u8_le_slice_to_u64],
    [u8_be_slice_to_u32], [u8_le_slice_to_u32]: [copy_from_slice] panics when
    the lengths differ. *)
Definition u8_be_slice (n : nat) (s : list N) : res N :=
  if Nat.eqb (length s) n then Ok (be_value s) else Panic.
Definition u8_le_slice (n : nat) (s : list N) : res N :=
  if Nat.eqb (length s) n then Ok (le_value s) else Panic.
Definition u8_be_slice_to_u64 := u8_be_slice 8.
Definition u8_le_slice_to_u64 := u8_le_slice 8.
Definition u8_be_slice_to_u32 := u8_be_slice 4.
Definition u8_le_slice_to_u32 := u8_le_slice 4.

(** algebra/src/utils.rs 71-81, [shift_u8_vec]: the loop from the last byte
    down; [next] is the carry (0 or 128).  [shift_rev] runs over the reversed
    vector. *)
Fixpoint shift_rev (next : N) (rs : list N) : list N :=
  match rs with
  | [] => []
  | e :: rs' => N.lor (N.shiftr e 1) next :: shift_rev (N.shiftl (e mod 2) 7) rs'
  end.
Definition shift_u8_vec (r : list N) : res (list N) :=
  let r' := rev (shift_rev 0 (rev r)) in
  match rev r' with
  | [] => Panic                           (* last().unwrap() *)
  | b :: front => if (b =? 0) && (1 <? N.of_nat (length r')) then Ok (rev front) else Ok r'
  end.

(** algebra/src/utils.rs 84-96, [u64_lsf_to_bytes]: little-endian bytes with the
    trailing zero bytes removed. *)
Fixpoint drop_zeros (rs : list N) : list N :=
  match rs with
  | [] => []
  | b :: rs' => if b =? 0 then drop_zeros rs' else rs
  end.
Definition u64_lsf_to_bytes (s : list N) : list N :=
  rev (drop_zeros (rev (flat_map (le_bytes 8) s))).

(** algebra/src/utils.rs 99-115, [u64_limbs_from_bytes]: 8-byte chunks, the last
    one padded with zeros. *)
Fixpoint u64_limbs_fuel (fuel : nat) (s : list N) : list N :=
  match fuel with
  | O => []
  | S f => match s with
           | [] => []
           | _ => le_value (firstn 8 s) :: u64_limbs_fuel f (skipn 8 s)
           end
  end.
Definition u64_limbs_from_bytes (s : list N) : list N := u64_limbs_fuel (length s) s.
