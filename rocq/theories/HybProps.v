(** C46, hybrid encryption. *)
From Coq Require Import List NArith ZArith Bool Lia ZifyBool ZifyNat ZifyN.
From Verif Require Import Base UtilsModel NoteModel KeyModel HybModel KeySpec KeyProofs HybProofs.
Import ListNotations.
Local Open Scope N_scope.

Section Hybrid.
Context (H : hsuite) (HH : hsuite_ok H).

(** Encryption to an X25519 key decrypts to the message with the matching secret
    key, whatever the ephemeral randomness [e], and the ciphertext is exactly as
    long as the message. *)
Theorem C46_hybrid_x25519_round_trip :
  forall e sk msg, bytes32 e -> clamped sk ->
  let c := hybrid_encrypt_x H e (x_pk H sk) msg in
  hybrid_decrypt_x H c sk = msg /\ length (hc_ct c) = length msg /\ length (hc_eph c) = 32%nat.
Proof.
  intros e sk msg He Hs c. subst c. unfold hybrid_encrypt_x, hybrid_decrypt_x, key_from_x_pk, key_from_x_sk, x_pk, symmetric_encrypt, symmetric_decrypt.
  cbn [hc_eph hc_ct]. assert (Ce : clamped (clamp e)) by (now exists e). split; [|split].
  - rewrite (proj1 HH sk (clamp e) Hs Ce). apply xor_twice.
  - apply xor_len.
  - now apply HH.
Qed.

(** Decryption with any key, right or wrong, and of any ciphertext returns as many
    bytes as the ciphertext has. *)
Theorem C46_lengths_preserved :
  forall key m, length (symmetric_encrypt H key m) = length m /\ length (symmetric_decrypt H key m) = length m.
Proof. intros. split; apply xor_len. Qed.

(** There is no integrity: flipping bits of the ciphertext flips the same bits of
    the decrypted message. *)
Theorem C46_hybrid_is_malleable :
  forall e sk msg d, bytes32 e -> clamped sk -> length d = length msg ->
  let c := hybrid_encrypt_x H e (x_pk H sk) msg in
  hybrid_decrypt_x H (mkHc (hc_eph c) (xors (hc_ct c) d)) sk = xors msg d.
Proof.
  intros e sk msg d He Hs L c. subst c. unfold hybrid_encrypt_x, hybrid_decrypt_x, key_from_x_pk, key_from_x_sk, x_pk, symmetric_encrypt, symmetric_decrypt.
  cbn [hc_eph hc_ct]. assert (Ce : clamped (clamp e)) by (now exists e). rewrite (proj1 HH sk (clamp e) Hs Ce). now apply xor_mall.
Qed.

(** The wire format round-trips and decoding never panics. *)
Theorem C46_hybrid_bytes :
  (forall c, length (hc_eph c) = 32%nat -> hc_from_bytes (hc_to_bytes c) = Ok c) /\
  (forall b c, hc_from_bytes b = Ok c -> hc_to_bytes c = b /\ length (hc_eph c) = 32%nat) /\
  (forall b, hc_from_bytes b <> Panic).
Proof.
  unfold hc_from_bytes, hc_to_bytes. split; [|split].
  - intros [e m] L. cbn [hc_eph hc_ct] in *. rewrite app_length, L. replace (Nat.ltb (32 + length m) 32) with false by (symmetry; apply Nat.ltb_ge; lia).
    now rewrite (firstn_app_len _ _ _ L), (skipn_app_len _ _ _ L).
  - intros b c. destruct (Nat.ltb_spec (length b) 32); [discriminate|]. intros E. apply Ok_inj in E. subst c. cbn [hc_eph hc_ct].
    rewrite firstn_skipn, firstn_length. split; [reflexivity|lia].
  - intros b. destruct (Nat.ltb (length b) 32); discriminate.
Qed.

Context (X : schemes) (S : suite) (L : slink X S).

(** Through the transfer keys: what is locked for the public key of a secret key is
    unlocked by it, for Ed25519 and for Secp256k1 keys. *)
Theorem C46_transfer_key_round_trip :
  forall value scalar_of, schemes_ok X -> ed_link H X -> seal_ok S -> secp_link X S L value scalar_of ->
  forall (k : seckey X) e r msg lock, bytes32 e ->
  hybrid_encrypt H X S L (pub_of X k) e r msg = Ok lock -> hybrid_decrypt H X S L k lock = Ok msg.
Proof.
  intros value scalar_of HX HL [SD SO] [L1 [L2 L3]] [sk|sk|sk] e r msg lock He; cbn [pub_of hybrid_encrypt hybrid_decrypt].
  - unfold hybrid_encrypt_ed, key_from_ed_pk. rewrite HL. cbn [bind fst snd key_from_x_pk]. intros E. apply Ok_inj in E. subst lock.
    rewrite (proj1 C46_hybrid_bytes) by (cbn [hc_eph]; apply HH; now exists e). cbn [bind]. unfold hybrid_decrypt_ed, key_from_ed_sk, sec_key_as_scalar, expand.
    destruct HH as [Hd [Hl Hh]].
    assert (B : bytes32 (firstn 32 (sha512 H (esk_bytes X sk)))).
    { split; [rewrite firstn_length, (proj1 (Hh _)); reflexivity|].
      pose proof (proj2 (Hh (esk_bytes X sk))) as F. rewrite <- (firstn_skipn 32 (sha512 H (esk_bytes X sk))) in F. now apply Forall_app in F. }
    destruct (clamp_ristretto _ (proj1 B)) as [s [R1 R2]]. rewrite R1. cbn [bind hc_eph hc_ct]. rewrite R2. unfold key_from_x_sk, symmetric_encrypt, symmetric_decrypt.
    rewrite (Hd (clamp (firstn 32 (sha512 H (esk_bytes X sk)))) (clamp e)) by (now eexists; split; [|reflexivity]). now rewrite xor_twice.
  - unfold convert_point. specialize (L2 sk). destruct (sl_xy X S L (secp_pk X sk)) as [x y]. destruct L2 as [Lx [Ly L2]].
    rewrite convert_limbs. assert (Y : (secp_p - y) mod secp_p = secp_p - y) by (apply N.mod_small; unfold secp_p in *; lia). rewrite Y.
    assert (F : (secp_p - y <=? y) = (secp_p - y <? y)).
    { assert (O : secp_p - y <> y).
      { intros E. assert (D : secp_p = 2 * y) by (unfold secp_p in *; lia). assert (M : secp_p mod 2 = 0) by (rewrite D, N.mul_comm; apply N.mod_mul; lia).
        vm_compute in M. discriminate. }
      destruct (N.leb_spec (secp_p - y) y), (N.ltb_spec (secp_p - y) y); try reflexivity; lia. }
    rewrite F. unfold ark_compress in L2. cbn [fst snd] in L2. rewrite L2. unfold encrypt.
    destruct (seal S (kdf S (pmul S (mulb S (scalar_of sk)) r)) msg) as [c|] eqn:Es; [|discriminate]. cbn [bind fst snd]. intros E. apply Ok_inj in E. subst lock.
    destruct (L1 sk) as [V1 [V2 V3]]. rewrite V2, convert_limbs, V3. destruct (L3 (mulb S r)) as [C1 C2].
    rewrite app_length, C1. replace (Nat.ltb (33 + length c) 33) with false by (symmetry; apply Nat.ltb_ge; lia).
    rewrite (firstn_app_len _ _ _ C1), (skipn_app_len _ _ _ C1), C2. unfold decrypt. cbn [fst snd]. rewrite SD, (SO _ _ _ Es). reflexivity.
  - discriminate.
Qed.
(** Encryption to an Ed25519 or Secp256k1 key succeeds whenever the authenticated
    cipher does. *)
Theorem C46_transfer_key_encrypts :
  forall value scalar_of, ed_link H X -> secp_link X S L value scalar_of ->
  forall (k : seckey X) e r msg, (forall a, k <> SkAddr a) -> (forall key, seal S key msg <> None) ->
  exists lock, hybrid_encrypt H X S L (pub_of X k) e r msg = Ok lock.
Proof.
  intros value scalar_of HL [L1 [L2 L3]] [sk|sk|sk] e r msg Na Ns; cbn [pub_of hybrid_encrypt].
  - unfold hybrid_encrypt_ed, key_from_ed_pk. rewrite HL. cbn [bind]. eexists. reflexivity.
  - unfold convert_point. specialize (L2 sk). destruct (sl_xy X S L (secp_pk X sk)) as [x y]. destruct L2 as [Lx [Ly L2]].
    rewrite convert_limbs. assert (Y : (secp_p - y) mod secp_p = secp_p - y) by (apply N.mod_small; unfold secp_p in *; lia). rewrite Y.
    assert (F : (secp_p - y <=? y) = (secp_p - y <? y)).
    { assert (O : secp_p - y <> y).
      { intros E. assert (D : secp_p = 2 * y) by (unfold secp_p in *; lia). assert (M : secp_p mod 2 = 0) by (rewrite D, N.mul_comm; apply N.mod_mul; lia).
        vm_compute in M. discriminate. }
      destruct (N.leb_spec (secp_p - y) y), (N.ltb_spec (secp_p - y) y); try reflexivity; lia. }
    rewrite F. unfold ark_compress in L2. cbn [fst snd] in L2. rewrite L2. unfold encrypt.
    destruct (seal S (kdf S (pmul S (mulb S (scalar_of sk)) r)) msg) as [c|] eqn:Es; [|now apply Ns in Es]. cbn [bind]. eexists. reflexivity.
  - now destruct (Na sk).
Qed.
(** C46 does not extend to address keys: encrypting to one panics, and so does
    decrypting with one; a Secp256k1 key panics on locks shorter than 33 bytes. *)
Theorem C46_addresses_and_short_locks_panic :
  (forall h e r msg, hybrid_encrypt H X S L (PkAddr h) e r msg = Panic) /\
  (forall sk lock, hybrid_decrypt H X S L (SkAddr sk) lock = Panic) /\
  (forall value scalar_of sk lock, secp_link X S L value scalar_of -> (length lock < 33)%nat -> hybrid_decrypt H X S L (SkSecp sk) lock = Panic).
Proof.
  split; [reflexivity|]. split; [reflexivity|]. intros value scalar_of sk lock [L1 _] Hl. cbn [hybrid_decrypt].
  destruct (L1 sk) as [_ [V2 V3]]. rewrite V2, convert_limbs, V3. now rewrite (proj2 (Nat.ltb_lt _ _) Hl).
Qed.
End Hybrid.
(** The conversion of a Secp256k1 secret key or coordinate gives its little-endian
    bytes. *)
Theorem C46_scalar_conversion : forall x, convert_scalar (limbs32 x) = le_bytes 32 x.
Proof. exact convert_limbs. Qed.

Print Assumptions C46_hybrid_x25519_round_trip.
Print Assumptions C46_lengths_preserved.
Print Assumptions C46_hybrid_is_malleable.
Print Assumptions C46_hybrid_bytes.
Print Assumptions C46_transfer_key_round_trip.
Print Assumptions C46_transfer_key_encrypts.
Print Assumptions C46_addresses_and_short_locks_panic.
Print Assumptions C46_scalar_conversion.

(** ** Examples *)
(** A toy suite: the "points" are 32-byte integers, scalar multiplication is
    multiplication modulo 2^256, the key stream depends on key and position. *)
Definition toy_h : hsuite :=
  mkHs (fun m => m) (fun m => le_bytes 64 (le_value m * 2 ^ 100 + 12345))
    (fun s u => le_bytes 32 ((le_value s * le_value u) mod 256 ^ 32)) (le_bytes 32 1)
    (fun pk => Some (le_bytes 32 ((le_value (clamp (firstn 32 (le_bytes 64 (le_value pk * 2 ^ 100 + 12345)))) * le_value (le_bytes 32 1)) mod 256 ^ 32)))
    (fun key i => (le_value key + N.of_nat i * 17) mod 256).
Lemma le_val n : forall x, x < 256 ^ N.of_nat n -> le_value (le_bytes n x) = x.
Proof.
  induction n as [|n IH]; intros x Hx; [cbn in *; lia|]. cbn [le_bytes le_value]. rewrite Nat2N.inj_succ, N.pow_succ_r' in Hx.
  rewrite IH by (apply N.div_lt_upper_bound; lia). rewrite N.add_comm. symmetry. apply N.div_mod. lia.
Qed.
Lemma le_lt n : forall x, Forall (fun b => b < 256) (le_bytes n x).
Proof. induction n as [|n IH]; intros x; constructor; [apply N.mod_lt; lia|apply IH]. Qed.
Example toy_h_ok : hsuite_ok toy_h.
Proof.
  assert (B : forall x, le_value (le_bytes 32 (x mod 256 ^ 32)) = x mod 256 ^ 32).
  { intros x. apply le_val. change (256 ^ N.of_nat 32) with (256 ^ 32). apply N.mod_lt. discriminate. }
  split; [|split].
  - intros a b _ _. cbn [x25519 base_u toy_h]. f_equal. rewrite !B.
    rewrite !N.mul_mod_idemp_r by discriminate. f_equal. lia.
  - intros a u _. apply lle_len.
  - intros m. split; [apply lle_len|apply le_lt].
Qed.
(** Two Ed25519 and two Secp256k1 keys. *)
Definition tv (b : bool) : N := if b then 2 ^ 255 + 5 else 3.
Definition toy_x : schemes :=
  mkSchemes bool (fun b => le_bytes 32 (tv b)) (fun l => if bytes_eqb l (le_bytes 32 (tv true)) then Some true else if bytes_eqb l (le_bytes 32 (tv false)) then Some false else None)
    bool (fun b => le_bytes 33 (tv b)) (fun l => if bytes_eqb l (le_bytes 33 (tv true)) then Some true else if bytes_eqb l (le_bytes 33 (tv false)) then Some false else None) (fun b => le_bytes 65 (tv b))
    bool (fun b => le_bytes 32 (tv b)) (fun l => if bytes_eqb l (le_bytes 32 (tv true)) then Some true else if bytes_eqb l (le_bytes 32 (tv false)) then Some false else None)
    bool (fun b => le_bytes 32 (tv b)) (fun l => if bytes_eqb l (le_bytes 32 (tv true)) then Some true else if bytes_eqb l (le_bytes 32 (tv false)) then Some false else None)
    bool (fun b => le_bytes 64 (tv b)) (fun l => if bytes_eqb l (le_bytes 64 (tv true)) then Some true else if bytes_eqb l (le_bytes 64 (tv false)) then Some false else None)
    bool (fun b => le_bytes 64 (tv b)) (fun l => if bytes_eqb l (le_bytes 64 (tv true)) then Some true else if bytes_eqb l (le_bytes 64 (tv false)) then Some false else None)
    (fun s => s) (fun s => s) (fun s _ => s) (fun p _ s => eqb p s) (fun m => le_bytes 32 (le_value m))
    (fun _ s => (s, 0)) (fun _ s p => eqb p s) (fun _ s _ => Some s).
Definition toy_s : suite :=
  mkSuite bool bool (fun s => s) (fun p s => andb p s) (fun p => [if p then 9 else 4])
    (fun k m => Some (k ++ rev m)) (fun k c => if bytes_eqb (firstn (length k) c) k then Some (rev (skipn (length k) c)) else None)
    (fun _ => ([], [])) eqb false.
Definition toy_l : slink toy_x toy_s :=
  mkSl toy_x toy_s (fun b => limbs32 (tv b)) (fun b => (tv b, if b then secp_p - 1 else 1))
    (fun p => ark_compress (tv p, if p then secp_p - 1 else 1))
    (fun l => if bytes_eqb l (ark_compress (tv true, secp_p - 1)) then Some true else if bytes_eqb l (ark_compress (tv false, 1)) then Some false else None)
    (fun l => if bytes_eqb l (le_bytes 32 (tv true)) then Some true else if bytes_eqb l (le_bytes 32 (tv false)) then Some false else None).
Lemma tv_codec n : (31 < n)%nat -> codec n (fun b => le_bytes n (tv b))
  (fun l => if bytes_eqb l (le_bytes n (tv true)) then Some true else if bytes_eqb l (le_bytes n (tv false)) then Some false else None).
Proof.
  intros Hn. assert (Inj : le_bytes n (tv true) <> le_bytes n (tv false)).
  { intros E. replace n with (1 + (n - 1))%nat in E by lia. cbn [Nat.add le_bytes] in E. injection E as E _. vm_compute in E. discriminate. }
  split.
  - intros b. split; [apply lle_len|]. destruct b.
    + destruct (bytes_eqb_spec (le_bytes n (tv true)) (le_bytes n (tv true))); [reflexivity|contradiction].
    + destruct (bytes_eqb_spec (le_bytes n (tv false)) (le_bytes n (tv true))) as [E|_]; [now symmetry in E|].
      destruct (bytes_eqb_spec (le_bytes n (tv false)) (le_bytes n (tv false))); [reflexivity|contradiction].
  - intros l x. destruct (bytes_eqb_spec l (le_bytes n (tv true))) as [->|]; [intros E; injection E as <-; reflexivity|].
    destruct (bytes_eqb_spec l (le_bytes n (tv false))) as [->|]; [intros E; injection E as <-; reflexivity|discriminate].
Qed.
Example toy_links_ok :
  schemes_ok toy_x /\ ed_link toy_h toy_x /\ seal_ok toy_s /\ secp_link toy_x toy_s toy_l tv (fun b => b) /\
  (forall key m, seal toy_s key m <> None).
Proof.
  split; [|split; [|split; [|split]]].
  - unfold schemes_ok. cbn [toy_x]. split; [apply (tv_codec 32); lia|]. split; [apply (tv_codec 33); lia|]. split; [apply (tv_codec 32); lia|].
    split; [apply (tv_codec 32); lia|]. split; [apply (tv_codec 64); lia|]. split; [apply (tv_codec 64); lia|]. intros m. apply lle_len.
  - intros sk. cbn [ed_to_mont x25519 sha512 base_u toy_h epk_bytes esk_bytes ed_pk toy_x]. reflexivity.
  - split; [intros [] []; reflexivity|]. intros k m c E. injection E as <-. cbn [open toy_s].
    rewrite (firstn_app_len _ _ _ eq_refl), (skipn_app_len _ _ _ eq_refl), rev_involutive. now destruct (bytes_eqb_spec k k).
  - split; [|split].
    + intros []; vm_compute; repeat split.
    + intros []; vm_compute; repeat split.
    + intros []; vm_compute; repeat split.
  - discriminate.
Qed.
Example C46_case :
  forall k : bool,
  match hybrid_encrypt toy_h toy_x toy_s toy_l (pub_of toy_x (@SkEd toy_x k)) (le_bytes 32 (2 ^ 200 + 77)) true [1; 2; 3] with
  | Ok lock => length lock = 35%nat /\ hybrid_decrypt toy_h toy_x toy_s toy_l (@SkEd toy_x k) lock = Ok [1; 2; 3]
  | _ => False
  end.
Proof. intros []; vm_compute; repeat split. Qed.
