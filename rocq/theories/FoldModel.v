(** Model of the key packing of api/src/anon_xfr/keys.rs and of the secret-key
    comparison at the start of api/src/anon_xfr/address_folding.rs
    [prove_address_folding_in_cs]. *)
From Coq Require Import List ZArith NArith Bool.
From Verif Require Import Base Field PField UtilsModel TurboModel.
Import ListNotations.
Local Open Scope F_scope.
Local Open Scope cs_scope.

Section Fold.
Context (F : PField).

(** algebra/src/bls12_381.rs 309-316 [from_bytes] ([from_le_bytes_mod_order]). *)
Definition scalar_from_bytes (bs : list N) : res F :=
  if Nat.ltb 32 (length bs) then Err else Ok (fofN (le_value bs)).

(** keys.rs 78-85 [get_secret_key_scalars], 125-140 [get_public_key_scalars]: the
    32 bytes of the secret key, and of each coordinate, are inputs (slicing a
    shorter vector panics). *)
Definition get_secret_key_scalars (bs : list N) : res (F * F) :=
  if Nat.ltb (length bs) 31 then Panic else
  bind (scalar_from_bytes (firstn 31 bs)) (fun a =>
  bind (scalar_from_bytes (skipn 31 bs)) (fun b => Ok (a, b))).
Definition get_public_key_scalars (x y : list N) : res (F * F * F) :=
  let bs := x ++ y in
  if Nat.ltb (length bs) 62 then Panic else
  bind (scalar_from_bytes (firstn 31 bs)) (fun a =>
  bind (scalar_from_bytes (firstn 31 (skipn 31 bs))) (fun b =>
  bind (scalar_from_bytes (skipn 62 bs)) (fun c => Ok (a, b, c)))).

(** address_folding.rs 191-204 [bytes_to_bits]. *)
Definition bits_of_byte (b : N) : list bool := map (fun i => N.testbit b (N.of_nat i)) (seq 0 8).
Definition bits_of_bytes (bs : list N) : list bool := flat_map bits_of_byte bs.

(** address_folding.rs 243-262: new value of the flag "smaller than the modulus". *)
Definition small_row (diff sk small o : nat) : gate F :=
  mkGate (- (1)) (- (1)) 1 0 1 0 1 0 0 0 0 0 1 diff sk small zero_var o false None.
(** address_folding.rs 269-288 (modulus bit one) and 294-313 (modulus bit zero): new value of the
    flag "a different bit was met". *)
Definition diff1_row (diff sk o : nat) : gate F :=
  mkGate 0 (- (1)) 0 0 1 0 1 0 0 0 0 0 1 diff sk zero_var zero_var o false None.
Definition diff0_row (diff sk o : nat) : gate F :=
  mkGate 1 1 0 0 (- (1)) 0 0 0 0 0 0 0 1 diff sk zero_var zero_var o false None.
Definition b2f (b : bool) : F := if b then 1 else 0.

(** address_folding.rs 229-317: the loop, from the top bit down.  Each item is
    (variable of the key bit, key bit known to the prover, modulus bit). *)
Fixpoint compare_loop (l : list (nat * bool * bool)) (vs vd : nat) (s d : bool) : CS F (nat * nat) :=
  match l with
  | [] => ret (vs, vd)
  | (v, b, true) :: l' =>
      let s' := s || (negb b && negb d) in
      let d' := d || negb b in
      vs' <- new_variable F (b2f s') ;;
      push_gate F (small_row vd v vs vs') ;;
      vd' <- new_variable F (b2f d') ;;
      push_gate F (diff1_row vd v vd') ;;
      compare_loop l' vs' vd' s' d'
  | (v, b, false) :: l' =>
      let d' := d || b in
      vd' <- new_variable F (b2f d') ;;
      push_gate F (diff0_row vd v vd') ;;
      compare_loop l' vs vd' s d'
  end.
(** address_folding.rs 320-338: both flags must be one. *)
Definition final_row (vs vd : nat) : gate F :=
  mkGate 0 0 0 0 (- (1)) 0 1 0 0 0 0 0 0 vs vd zero_var zero_var zero_var false None.
Definition compare_bits (vars : list nat) (bits modulus : list bool) : CS F unit :=
  p <- compare_loop (rev (combine (combine vars bits) modulus)) zero_var zero_var false false ;;
  push_gate F (final_row (fst p) (snd p)).

(** address_folding.rs 177-338: range checks of the key scalars and the comparison with the order of
    the curve; [sk_bytes] is the prover's secret key.  The bit variables are
    returned.  The assertion on the lengths (227) is the caller's condition. *)
Definition check_keys (pk : nat * nat * nat) (sk : nat * nat) (sk_bytes modulus : list N) : CS F (list nat * list nat) :=
  let '(p0, p1, p2) := pk in
  b0 <- range_check F p0 248 ;;
  b1 <- range_check F p1 248 ;;
  b2 <- range_check F p2 16 ;;
  c0 <- range_check F (fst sk) 248 ;;
  c1 <- range_check F (snd sk) 8 ;;
  compare_bits (c0 ++ c1) (bits_of_bytes sk_bytes) (bits_of_bytes modulus) ;;
  ret (b0 ++ b1 ++ b2, c0 ++ c1).
End Fold.

(** algebra/src/secp256k1.rs 243-250 [get_field_size_le_bytes]. *)
Definition secp256k1_order_bytes : list N :=
  [0x41; 0x41; 0x36; 0xd0; 0x8c; 0x5e; 0xd2; 0xbf; 0x3b; 0xa0; 0x48; 0xaf; 0xe6; 0xdc; 0xae; 0xba;
   0xfe; 0xff; 0xff; 0xff; 0xff; 0xff; 0xff; 0xff; 0xff; 0xff; 0xff; 0xff; 0xff; 0xff; 0xff; 0xff]%N.
