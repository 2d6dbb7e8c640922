(** Property theorems for the secret-key comparison (C35) and the packings behind
    commitments and nullifiers (C52). *)
From Coq Require Import List ZArith NArith Bool Lia.
From Verif Require Import Base Field PField UtilsModel TurboModel TurboSpec TurboProofs TurboHonest TurboKit
  RescueModel RescueLemmas AxfrModel AxfrSpec AxfrLemmas FoldModel FoldProofs FoldLemmas.
Import ListNotations.
Local Open Scope F_scope.
Notation Hash := (AxfrModel.hash BLS bls_rescue).
Notation number bits := (bitsZ (map Z.b2z bits)).

(** C35 (partial: variable 0 must hold zero): if the comparison of a bit string
    with a modulus is satisfied, the number is smaller than the modulus.  [xs] are
    the bits the variables hold; the prover's own bits do not matter. *)
Theorem C35_accepted_is_smaller_partial :
  forall (F : PField) (c : tcs F) (w : nat -> F) vars bits modulus xs,
  length bits = length vars -> length modulus = length vars ->
  sat (snd (compare_bits F vars bits modulus c)) w -> w 0%nat = 0 ->
  Forall2 (fun v (x : bool) => w v = if x then 1 else 0) vars xs ->
  (number xs < number modulus)%Z.
Proof.
  intros F c w vars bits modulus xs L1 L2 HS H0 HF.
  destruct (compare_bits_sound F vars bits modulus L1 L2 c w HS) as [_ H]. exact (H H0 xs HF).
Qed.
Print Assumptions C35_accepted_is_smaller_partial.

(** C35, converse: for every number smaller than the modulus the assignment the
    builder computes satisfies the comparison. *)
Theorem C35_smaller_is_accepted :
  forall (F : PField) (c : tcs F) vars bits modulus,
  length modulus = length vars -> Inv c ->
  Forall2 (fun v (x : bool) => (v < nvars c)%nat /\ val c v = if x then 1 else 0) vars bits ->
  (number bits < number modulus)%Z ->
  let c' := snd (compare_bits F vars bits modulus c) in sat c' (val c') /\ extends c c'.
Proof.
  intros F c vars bits modulus L HI HF HL c'. destruct (ha_compare_bits F c vars bits modulus HI L HF HL) as [I1 [E1 _]].
  split; [apply I1|exact E1].
Qed.
Print Assumptions C35_smaller_is_accepted.

(** C35 is false without the restriction: the flags start at variable 0, so any
    assignment giving one to that variable passes the comparison, whatever the
    bits and the modulus. *)
Theorem C35_variable_zero_refuted :
  forall (F : PField) (c : tcs F) (w : nat -> F) vars bits modulus,
  Forall (wire_lt (nvars c)) (grev c) -> sat c w -> (0 < nvars c)%nat -> Forall (fun v => v < nvars c)%nat vars ->
  w 0%nat = 1 ->
  exists w', (forall i, (i < nvars c)%nat -> w' i = w i) /\ sat (snd (compare_bits F vars bits modulus c)) w'.
Proof.
  intros F c w vars bits modulus HW HS HN HF H0.
  destruct (adv_compare_bits F vars bits modulus c w HW HS HN H0 HF) as [w' [A [_ [_ [S _]]]]]. now exists w'.
Qed.
Print Assumptions C35_variable_zero_refuted.

(** C35 for the key check of the code: the two secret-key scalars of a satisfying
    assignment are in range and hold a number smaller than the order of
    secp256k1, and the public-key scalars are in range. *)
Theorem C35_key_check_partial :
  forall (c : tcs BLS) (w : nat -> BLS) p0 p1 p2 s0 s1 sk_bytes, length sk_bytes = 32%nat ->
  sat (snd (check_keys BLS (p0, p1, p2) (s0, s1) sk_bytes secp256k1_order_bytes c)) w -> w 0%nat = 0 ->
  (toZ (w p0) < 2 ^ 248)%Z /\ (toZ (w p1) < 2 ^ 248)%Z /\ (toZ (w p2) < 2 ^ 16)%Z /\
  (toZ (w s0) < 2 ^ 248)%Z /\
  (toZ (w s0) + 2 ^ 248 * toZ (w s1) <
     0xfffffffffffffffffffffffffffffffebaaedce6af48a03bbfd25e8cd0364141)%Z.
Proof.
  intros c w p0 p1 p2 s0 s1 skb L HS H0.
  destruct (check_keys_sound BLS eq_refl (p0, p1, p2) (s0, s1) skb secp256k1_order_bytes L eq_refl) with (c := c) (w := w)
    as [_ [H1 [H2 [H3 [H4 [_ H5]]]]]]; [repeat constructor|exact HS|].
  repeat (split; [assumption|]). exact (H5 H0).
Qed.
Print Assumptions C35_key_check_partial.

(** and every canonical key passes. *)
Theorem C35_key_check_complete :
  forall (c : tcs BLS) p0 p1 p2 s0 s1 sk_bytes P0 P1 P2 S0 S1, Inv c ->
  length sk_bytes = 32%nat -> Forall (fun b => b < 256)%N sk_bytes ->
  get_secret_key_scalars BLS sk_bytes = Ok (S0, S1) ->
  (le_value sk_bytes < 0xfffffffffffffffffffffffffffffffebaaedce6af48a03bbfd25e8cd0364141)%N ->
  has BLS c p0 P0 -> has BLS c p1 P1 -> has BLS c p2 P2 -> has BLS c s0 S0 -> has BLS c s1 S1 ->
  (toZ P0 < 2 ^ 248)%Z -> (toZ P1 < 2 ^ 248)%Z -> (toZ P2 < 2 ^ 16)%Z ->
  let c' := snd (check_keys BLS (p0, p1, p2) (s0, s1) sk_bytes secp256k1_order_bytes c) in
  sat c' (val c') /\ extends c c'.
Proof.
  intros c p0 p1 p2 s0 s1 skb P0 P1 P2 S0 S1 HI L HB ES HL H0 H1 H2 K0 K1 R0 R1 R2 c'.
  destruct (check_keys_complete BLS eq_refl (p0, p1, p2) (s0, s1) skb secp256k1_order_bytes c P0 P1 P2 S0 S1) as [I1 [E1 _]];
    try assumption; [reflexivity|repeat constructor|auto|]. split; [apply I1|exact E1].
Qed.
Print Assumptions C35_key_check_complete.

(** Cases: 5 < 6 on three bits, 6 against 6 refused by the honest assignment but
    accepted with variable 0 set to one. *)
Definition case_cs (b0 b1 b2 : bool) : tcs P101 :=
  snd (new_variables P101 (map (b2f P101) [b0; b1; b2]) (cs_new P101)).
Definition case_ok (c : tcs P101) : bool :=
  forallb (fun g => if f_dec (eval_gate P101 g (val c (w1 g)) (val c (w2 g)) (val c (w3 g)) (val c (w4 g)) (val c (wo g)) 0) 0 then true else false) (grev c).
Example C35_case :
  case_ok (snd (compare_bits P101 [2; 3; 4]%nat [true; false; true] [false; true; true] (case_cs true false true))) = true /\
  case_ok (snd (compare_bits P101 [2; 3; 4]%nat [false; true; true] [false; true; true] (case_cs false true true))) = false /\
  case_ok (snd (compare_bits P101 [2; 3; 4]%nat [true; true; true] [false; true; true] (case_cs true true true))) = false.
Proof. vm_compute. repeat split; reflexivity. Qed.
Example C35_case_forged : exists w',
  sat (snd (compare_bits P101 [2; 3; 4]%nat [true; true; true] [false; true; true] (case_cs true true true))) w'.
Proof.
  destruct (C35_variable_zero_refuted P101 (case_cs true true true) (fun _ => 1) [2; 3; 4]%nat [true; true; true] [false; true; true])
    as [w' [_ H]]; [constructor|constructor|cbn; lia|repeat constructor; cbn; lia|reflexivity|]. now exists w'.
Qed.

(** C52: distinct 32-byte secret keys, and distinct pairs of 32-byte coordinates,
    have distinct field scalars. *)
Theorem C52_secret_key_packing_injective :
  forall a b s, length a = 32%nat -> length b = 32%nat ->
  Forall (fun b => b < 256)%N a -> Forall (fun b => b < 256)%N b ->
  get_secret_key_scalars BLS a = Ok s -> get_secret_key_scalars BLS b = Ok s -> a = b.
Proof. exact (secret_packing_inj BLS eq_refl). Qed.
Print Assumptions C52_secret_key_packing_injective.
Theorem C52_public_key_packing_injective :
  forall xa ya xb yb s, length xa = 32%nat -> length ya = 32%nat -> length xb = 32%nat -> length yb = 32%nat ->
  Forall (fun b => b < 256)%N (xa ++ ya) -> Forall (fun b => b < 256)%N (xb ++ yb) ->
  get_public_key_scalars BLS xa ya = Ok s -> get_public_key_scalars BLS xb yb = Ok s -> xa = xb /\ ya = yb.
Proof. exact (public_packing_inj BLS eq_refl). Qed.
Print Assumptions C52_public_key_packing_injective.

(** C52: equal commitments of 64-bit amounts mean the same owner, amount, blinding
    and type scalar, or an explicit collision of the hash between the inputs of
    the two computations. *)
Theorem C52_commitment_binding :
  forall (as_scalar : N -> BLS) pk b a t pk' b' a' t', (a < 2 ^ 64)%N -> (a' < 2 ^ 64)%N ->
  commit BLS bls_rescue as_scalar pk b a t = commit BLS bls_rescue as_scalar pk' b' a' t' ->
  (pk = pk' /\ b = b' /\ a = a' /\ as_scalar t = as_scalar t') \/
  Exists (collide BLS Hash)
    (combine (com_inputs BLS Hash pk b (fofN a) (as_scalar t)) (com_inputs BLS Hash pk' b' (fofN a') (as_scalar t'))).
Proof.
  intros as_scalar pk b a t pk' b' a' t' Ha Ha' E.
  destruct (commitment_binding BLS Hash pk b (fofN a) (as_scalar t) pk' b' (fofN a') (as_scalar t') E) as [[H1 [H2 [H3 H4]]]|H]; [left|now right].
  assert (T : (2 ^ 64 < 2 ^ 254)%Z) by reflexivity. change (2 ^ 64)%N with (Z.to_N (2 ^ 64)) in Ha, Ha'.
  apply (small_fofN BLS eq_refl) in H3; [auto|lia|lia].
Qed.
Print Assumptions C52_commitment_binding.

(** C52: equal nullifiers of 64-bit positions and amounts mean the same position,
    amount, type scalar and key pair, or an explicit collision. *)
Theorem C52_nullifier_binding :
  forall (as_scalar : N -> BLS) k a t u k' a' t' u',
  (a < 2 ^ 64)%N -> (u < 2 ^ 64)%N -> (a' < 2 ^ 64)%N -> (u' < 2 ^ 64)%N ->
  nullify BLS bls_rescue as_scalar k a t u = nullify BLS bls_rescue as_scalar k' a' t' u' ->
  (k = k' /\ u = u' /\ a = a' /\ as_scalar t = as_scalar t') \/
  Exists (collide BLS Hash)
    (combine (null_inputs BLS Hash (kp_pk BLS k) (kp_sk BLS k) (fofN u * fofZ (2 ^ 64) + fofN a) (as_scalar t))
             (null_inputs BLS Hash (kp_pk BLS k') (kp_sk BLS k') (fofN u' * fofZ (2 ^ 64) + fofN a') (as_scalar t'))).
Proof.
  intros as_scalar k a t u k' a' t' u' H1 H2 H3 H4 E.
  destruct (nullifier_binding BLS Hash (kp_pk BLS k) (kp_sk BLS k) (fofN u * fofZ (2 ^ 64) + fofN a) (as_scalar t)
              (kp_pk BLS k') (kp_sk BLS k') (fofN u' * fofZ (2 ^ 64) + fofN a') (as_scalar t') E) as [[E1 [E2 [E3 E4]]]|H]; [left|now right].
  apply (uid_amount_inj BLS eq_refl u a u' a') in E3; try assumption. destruct E3 as [-> ->].
  destruct k as [pk sk], k' as [pk' sk']. cbn in *. subst. auto.
Qed.
Print Assumptions C52_nullifier_binding.
Example C52_case : get_secret_key_scalars P101 (repeat 1%N 32) <> Panic /\ get_secret_key_scalars P101 (repeat 1%N 30) = Panic.
Proof. split; [discriminate|reflexivity]. Qed.
