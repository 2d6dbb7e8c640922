(** C54 and C61: scalars from integers and bytes, their limbs and powers. *)
From Coq Require Import List NArith ZArith Bool Lia ZifyBool ZifyNat ZifyN.
From Verif Require Import Base UtilsModel UtilsProps ScalarModel.
Import ListNotations.
Local Open Scope N_scope.


(** ** Small facts *)
Lemma size_pos k : 0 < size k /\ size k <> 0. Proof. destruct k; split; (reflexivity || discriminate). Qed.
Lemma size_256 k : size k < 2 ^ 256. Proof. destruct k; reflexivity. Qed.
Lemma pow256 n : 256 ^ N.of_nat n = 2 ^ (8 * N.of_nat n). Proof. rewrite N.pow_mul_r. reflexivity. Qed.
Lemma digits_bound bs : Forall is_byte bs -> digits_value 256 bs < 256 ^ N.of_nat (length bs).
Proof.
  induction 1 as [|b bs H _ IH]; [reflexivity|]. cbn [digits_value fold_right length]. fold (digits_value 256 bs). rewrite Nat2N.inj_succ, N.pow_succ_r'. unfold is_byte in H. nia.
Qed.
Lemma digits_inj a : forall b, Forall is_byte a -> Forall is_byte b -> length a = length b -> digits_value 256 a = digits_value 256 b -> a = b.
Proof.
  induction a as [|x a IH]; intros [|y b] Ha Hb Hl E; try discriminate; [reflexivity|]. inversion Ha as [|? ? Hx Ha']; inversion Hb as [|? ? Hy Hb']; subst. cbn [digits_value fold_right] in E. fold (digits_value 256 a) in E. fold (digits_value 256 b) in E. unfold is_byte in *.
  assert (x = y) as -> by (apply (f_equal (fun n => n mod 256)) in E; rewrite !(N.mul_comm 256), !N.mod_add, !N.mod_small in E by lia; exact E). f_equal. apply IH; auto. lia.
Qed.
Lemma pad_value bs : digits_value 256 (pad bs) = digits_value 256 bs.
Proof.
  unfold pad. rewrite digits_app. assert (Z : forall n, digits_value 256 (repeat 0 n) = 0) by (induction n as [|n IH]; [reflexivity|]; cbn [repeat digits_value fold_right]; fold (digits_value 256 (repeat 0 n)); rewrite IH; reflexivity).
  rewrite Z. lia.
Qed.
Lemma pad_length bs : (length bs <= 32)%nat -> length (pad bs) = 32%nat.
Proof. intros H. unfold pad. rewrite app_length, repeat_length. unfold bytes_len. lia. Qed.
Lemma pad_bytes bs : Forall is_byte bs -> Forall is_byte (pad bs).
Proof. intros H. apply Forall_app. split; [exact H|]. apply Forall_forall. intros x Hx. apply repeat_spec in Hx. subst. reflexivity. Qed.
Lemma from_bits_value a : length a = 32%nat -> Forall is_byte a -> digits_value 256 (from_bits a) = digits_value 256 a mod 2 ^ 255.
Proof.
  intros L Ha. unfold from_bits. change 127 with (N.ones 7). rewrite N.land_ones. pose proof (firstn_skipn 31 a) as S. assert (Ls : length (skipn 31 a) = 1%nat) by (rewrite skipn_length; lia).
  destruct (skipn 31 a) as [|b [|]] eqn:Es; try discriminate. assert (Lf : length (firstn 31 a) = 31%nat) by (rewrite firstn_length; lia).
  assert (nth 31 a 0 = b) as -> by (rewrite <- S, app_nth2, Lf by lia; reflexivity). rewrite <- S at 2. rewrite !digits_app, Lf. cbn [digits_value fold_right]. rewrite !N.mul_0_r, !N.add_0_r.
  assert (B : digits_value 256 (firstn 31 a) < 2 ^ 248) by (pose proof (digits_bound (firstn 31 a)) as X; rewrite Lf in X; change (256 ^ N.of_nat 31) with (2 ^ 248) in X; apply X; rewrite <- S in Ha; now apply Forall_app in Ha).
  change (256 ^ N.of_nat 31) with (2 ^ 248). change (2 ^ 255) with (2 ^ 248 * 2 ^ 7). rewrite N.mod_mul_r by discriminate. rewrite (N.mul_comm (2 ^ 248) b), N.mod_add, N.div_add, (N.mod_small _ (2 ^ 248)), (N.div_small _ (2 ^ 248)) by (try discriminate; exact B). reflexivity.
Qed.
Lemma le32 x : x < 2 ^ 256 -> digits_value 256 (le_bytes 32 x) = x /\ Forall is_byte (le_bytes 32 x) /\ length (le_bytes 32 x) = 32%nat.
Proof. intros H. apply le_bytes_value. rewrite pow256. exact H. Qed.
Lemma le_bytes_more n : forall m x, (n <= m)%nat -> firstn n (le_bytes m x) = le_bytes n x.
Proof. induction n as [|n IH]; intros m x H; [reflexivity|]. destruct m as [|m]; [lia|]. cbn [le_bytes firstn]. f_equal. apply IH. lia. Qed.
Lemma to_bytes_eq k x : to_bytes k x = le_bytes 32 x.
Proof. destruct k; try reflexivity; apply (le_bytes_more 32 40); lia. Qed.

(** ** Big integers *)
(** Every field but Ristretto: the remainder; Ristretto: only when the remainder has 32 bytes. *)
Theorem C54_big_integers_partial : forall k x, k <> Ristretto \/ 2 ^ 248 <= x mod size k -> from_biguint k x = Ok (x mod size k).
Proof.
  intros k x H. destruct k; try reflexivity. destruct H as [H|H]; [contradiction|]. unfold from_biguint. set (r := x mod size Ristretto) in *.
  assert (R : r < size Ristretto) by (apply N.mod_lt; apply size_pos). assert (R2 : r < 2 ^ 253) by (eapply N.lt_trans; [exact R|reflexivity]).
  unfold big_bytes. destruct (N.eqb_spec r 0) as [E|E]; [rewrite E in H; exfalso; apply H; reflexivity|].
  assert (S : N.size r = 1 + N.log2 r) by (rewrite N.size_log2 by exact E; lia).
  assert (L1 : 248 <= N.log2 r) by (apply N.log2_le_pow2; lia). assert (L2 : N.log2 r < 253) by (apply N.log2_lt_pow2; lia).
  assert (Q : (N.size r + 7) / 8 = 32) by (apply N.le_antisymm; [apply N.lt_succ_r, N.div_lt_upper_bound; lia|apply N.div_le_lower_bound; lia]). rewrite Q. change (N.to_nat 32) with 32%nat.
  destruct (le32 r) as [V [_ L]]; [lia|]. rewrite L. cbn [Nat.ltb Nat.leb]. rewrite <- L at 1. rewrite firstn_all, le_value_digits, V. f_equal. apply N.mod_small. exact R.
Qed.
Theorem C54_big_integers_refuted : forall x, from_biguint Ristretto x = Panic <-> x mod size Ristretto < 2 ^ 248.
Proof.
  intros x. split; [intros H|].
  - destruct (N.lt_ge_cases (x mod size Ristretto) (2 ^ 248)) as [|L]; [assumption|]. rewrite C54_big_integers_partial in H by now right. discriminate.
  - unfold from_biguint. set (r := x mod size Ristretto). intros H. unfold big_bytes. destruct (N.eqb_spec r 0) as [E|E]; [reflexivity|].
    assert (S : N.size r = 1 + N.log2 r) by (rewrite N.size_log2 by exact E; lia). assert (L2 : N.log2 r < 248) by (apply N.log2_lt_pow2; lia).
    assert (Q : (N.size r + 7) / 8 < 32) by (apply N.div_lt_upper_bound; lia).
    assert (L : forall n y, length (le_bytes n y) = n) by (induction n as [|n IH]; intros y; [reflexivity|]; cbn; now rewrite IH). rewrite L.
    replace (Nat.ltb (N.to_nat ((N.size r + 7) / 8)) 32) with true by lia. reflexivity.
Qed.
(** In particular no 64-bit integer can be converted this way. *)
Example C54_small_integers_panic : from_biguint Ristretto 0 = Panic /\ from_biguint Ristretto 1 = Panic /\ from_biguint Ristretto (2 ^ 64 - 1) = Panic /\ from_biguint Ristretto (2 ^ 251 + 5) = Ok (2 ^ 251 + 5).
Proof. repeat split; vm_compute; reflexivity. Qed.

(** ** Encodings *)
Theorem C54_decoding_exact : forall k bs, Forall is_byte bs ->
  (from_bytes k bs = Err <-> (32 < length bs)%nat) /\
  ((length bs <= 32)%nat -> from_bytes k bs = Ok (digits_value 256 bs mod (match k with Ristretto => 2 ^ 255 | _ => size k end))).
Proof.
  intros k bs Hb. unfold from_bytes, bytes_len. destruct (Nat.ltb_spec 32 (length bs)) as [H|H]; split; try (split; [auto|reflexivity]); try lia.
  - split; [destruct k; discriminate|lia].
  - intros L. destruct k; rewrite ?le_value_digits; try reflexivity. rewrite from_bits_value, pad_value; [reflexivity|now apply pad_length|now apply pad_bytes].
Qed.
(** Every scalar is read back from its encoding. *)
Theorem C54_round_trip : forall k x, x < size k ->
  length (to_bytes k x) = 32%nat /\ Forall is_byte (to_bytes k x) /\ digits_value 256 (to_bytes k x) = x /\ from_bytes k (to_bytes k x) = Ok x.
Proof.
  intros k x H. rewrite to_bytes_eq. assert (H2 : x < 2 ^ 256) by (eapply N.lt_trans; [exact H|apply size_256]). destruct (le32 x H2) as [V [B L]]. split; [exact L|]. split; [exact B|]. split; [exact V|].
  destruct (C54_decoding_exact k _ B) as [_ E]. rewrite E, V by lia. f_equal. destruct k; apply N.mod_small; try exact H. eapply N.lt_trans; [exact H|reflexivity].
Qed.
(** Decoding is one-to-one on the encodings of 32 bytes of numbers below the field size. *)
Theorem C54_canonical_decoding_partial : forall k a b, Forall is_byte a -> Forall is_byte b -> length a = 32%nat -> length b = 32%nat ->
  digits_value 256 a < size k -> digits_value 256 b < size k ->
  (from_bytes k a = Ok (digits_value 256 a) /\ to_bytes k (digits_value 256 a) = a) /\ (from_bytes k a = from_bytes k b -> a = b).
Proof.
  assert (X : forall k a, Forall is_byte a -> length a = 32%nat -> digits_value 256 a < size k -> from_bytes k a = Ok (digits_value 256 a) /\ to_bytes k (digits_value 256 a) = a).
  { intros k a Ha La Va. destruct (C54_round_trip k _ Va) as [L [B [V E]]]. assert (Q : to_bytes k (digits_value 256 a) = a) by (apply digits_inj; auto; congruence). split; [|exact Q]. now rewrite Q in E. }
  intros k a b Ha Hb La Lb Va Vb. destruct (X k a Ha La Va) as [E1 T1]. destruct (X k b Hb Lb Vb) as [E2 T2]. split; [auto|]. rewrite E1, E2. intros Q. apply Ok_inj in Q. apply digits_inj; auto. congruence.
Qed.
(** In general it is not: in every field, different strings of 32 bytes are accepted as the
    same scalar, and so are a string and its extension by a zero byte. *)
Theorem C54_decoding_refuted : forall k,
  (exists a b x, a <> b /\ Forall is_byte a /\ Forall is_byte b /\ length a = 32%nat /\ length b = 32%nat /\ from_bytes k a = Ok x /\ from_bytes k b = Ok x) /\
  (forall a, Forall is_byte a -> (length a < 32)%nat -> from_bytes k (a ++ [0]) = from_bytes k a).
Proof.
  intros k. split.
  - set (v := match k with Ristretto => 2 ^ 255 | _ => size k end). assert (Hv : v < 2 ^ 256) by (unfold v; destruct k; reflexivity).
    destruct (le32 v Hv) as [V1 [B1 L1]]. destruct (le32 0 ltac:(reflexivity)) as [V0 [B0 L0]]. exists (le_bytes 32 v), (le_bytes 32 0), 0.
    destruct (C54_decoding_exact k _ B1) as [_ E1]. destruct (C54_decoding_exact k _ B0) as [_ E0]. rewrite E1, E0, V1, V0 by lia. repeat split; auto.
    + intros Q. apply (f_equal (digits_value 256)) in Q. rewrite V1, V0 in Q. unfold v in Q. destruct k; discriminate Q.
    + f_equal. unfold v. destruct k; apply N.mod_same; discriminate.
  - intros a Ha L. destruct (C54_decoding_exact k a Ha) as [_ E]. rewrite E by lia. assert (Ha' : Forall is_byte (a ++ [0])) by (apply Forall_app; split; [exact Ha|]; constructor; [reflexivity|constructor]).
    destruct (C54_decoding_exact k _ Ha') as [_ E']. rewrite E' by (rewrite app_length; cbn; lia). now rewrite digits_last_zero.
Qed.
(** Ristretto scalars are not reduced when read: two scalars that the library tells apart
    (it compares the stored bytes) can be the same residue. *)
Theorem C54_unreduced_scalars : exists a b x y, Forall is_byte a /\ Forall is_byte b /\ length a = 32%nat /\ length b = 32%nat /\
  from_bytes Ristretto a = Ok x /\ from_bytes Ristretto b = Ok y /\ x <> y /\ x mod size Ristretto = y mod size Ristretto.
Proof.
  assert (H5 : 5 < 2 ^ 256) by reflexivity. assert (Hs : size Ristretto + 5 < 2 ^ 256) by reflexivity. destruct (le32 _ H5) as [V1 [B1 L1]]. destruct (le32 _ Hs) as [V2 [B2 L2]].
  exists (le_bytes 32 5), (le_bytes 32 (size Ristretto + 5)), 5, (size Ristretto + 5). destruct (C54_decoding_exact Ristretto _ B1) as [_ E1]. destruct (C54_decoding_exact Ristretto _ B2) as [_ E2]. rewrite E1, E2, V1, V2 by lia.
  repeat split; auto; try discriminate; reflexivity.
Qed.
(** Integers and scalars: converting back and forth. *)
Theorem C54_integer_round_trip : forall k x, x < size k -> k <> Ristretto \/ 2 ^ 248 <= x -> from_biguint k (into_biguint x) = Ok x.
Proof. intros k x H G. unfold into_biguint. rewrite C54_big_integers_partial; rewrite ?(N.mod_small x (size k)) by exact H; auto. Qed.
(** The declared field sizes agree, and the exponent [(size - 1) / 2] is right. *)
Theorem C54_field_sizes : forall k, digits_value 256 (size_bytes k) = size k /\ N.odd (size k) = true /\
  exists h, minus_one_half k = Ok h /\ digits_value 256 h = (size k - 1) / 2.
Proof.
  intros k. assert (V : digits_value 256 (size_bytes k) = size k) by (destruct k; vm_compute; reflexivity). split; [exact V|]. split; [destruct k; reflexivity|].
  destruct (C53_shift_halves (size_bytes k)) as [h [E [Q _]]]; [|destruct k; discriminate|].
  - apply Forall_forall. intros b Hb. apply N.ltb_lt. revert b Hb. apply forallb_forall. destruct k; reflexivity.
  - exists h. split; [exact E|]. rewrite Q, V. destruct k; vm_compute; reflexivity.
Qed.

(** ** Limbs *)
Lemma skipn_skipn {A} (l : list A) : forall i j, skipn i (skipn j l) = skipn (j + i) l.
Proof. induction l as [|x l IH]; intros i j; [now rewrite !skipn_nil|]. destruct j as [|j]; [reflexivity|]. cbn [skipn Nat.add]. apply IH. Qed.
Lemma slices (a : list N) : (32 <= length a)%nat -> a = slice 0 8 a ++ slice 8 16 a ++ slice 16 24 a ++ slice 24 32 a ++ skipn 32 a /\ skipn 24 a = slice 24 32 a ++ skipn 32 a.
Proof.
  intros H. unfold slice. assert (Q : forall i j, (i <= j)%nat -> firstn (j - i) (skipn i a) ++ skipn j a = skipn i a).
  { intros i j Hij. rewrite <- (firstn_skipn (j - i) (skipn i a)) at 2. f_equal. rewrite skipn_skipn. f_equal. lia. }
  rewrite (Q 24 32)%nat, (Q 16 24)%nat, (Q 8 16)%nat, (Q 0 8)%nat by lia. auto.
Qed.
Lemma slice_len i (a : list N) : (i + 8 <= length a)%nat -> length (slice i (i + 8) a) = 8%nat.
Proof. intros H. unfold slice. rewrite firstn_length, skipn_length. lia. Qed.
Lemma u8_ok s : length s = 8%nat -> u8_le_slice_to_u64 s = Ok (le_value s).
Proof. intros H. unfold u8_le_slice_to_u64, u8_le_slice. now rewrite H. Qed.
Lemma chunk_lt s : length s = 8%nat -> Forall is_byte s -> le_value s < 2 ^ 64.
Proof. intros L H. rewrite le_value_digits. apply digits_bound in H. now rewrite L in H. Qed.
Lemma chunk_cons s r : length s = 8%nat -> digits_value 256 (s ++ r) = le_value s + 2 ^ 64 * digits_value 256 r.
Proof. intros L. rewrite (digits_app 256 s r), L. change (256 ^ N.of_nat 8) with (2 ^ 64). now rewrite (le_value_digits s). Qed.
Theorem C61_limbs_partial : forall k x, x < 2 ^ 256 -> k <> Secp ->
  exists l, little_endian_u64 k x = Ok l /\ length l = match k with Secq => 5%nat | _ => 4%nat end /\ Forall (fun d => d < 2 ^ 64) l /\ digits_value (2 ^ 64) l = x.
Proof.
  intros k x H Nk. assert (Gen : forall n, (32 <= n)%nat -> let a := le_bytes n x in x < 256 ^ N.of_nat n ->
    (length (slice 0 8 a) = 8 /\ length (slice 8 16 a) = 8 /\ length (slice 16 24 a) = 8 /\ length (slice 24 32 a) = 8 /\ length (skipn 32 a) = (n - 32))%nat /\
    Forall is_byte (slice 0 8 a) /\ Forall is_byte (slice 8 16 a) /\ Forall is_byte (slice 16 24 a) /\ Forall is_byte (slice 24 32 a) /\ Forall is_byte (skipn 32 a) /\
    le_value (slice 0 8 a) + 2 ^ 64 * (le_value (slice 8 16 a) + 2 ^ 64 * (le_value (slice 16 24 a) + 2 ^ 64 * (le_value (slice 24 32 a) + 2 ^ 64 * digits_value 256 (skipn 32 a)))) = x).
  { intros n Hn a Hx. destruct (le_bytes_value n x Hx) as [V [B L]]. fold a in V, B, L. destruct (slices a) as [S _]; [lia|].
    assert (L1 : length (slice 0 8 a) = 8%nat) by (apply (slice_len 0); lia). assert (L2 : length (slice 8 16 a) = 8%nat) by (apply (slice_len 8); lia).
    assert (L3 : length (slice 16 24 a) = 8%nat) by (apply (slice_len 16); lia). assert (L4 : length (slice 24 32 a) = 8%nat) by (apply (slice_len 24); lia).
    split; [rewrite skipn_length; lia|]. rewrite S in B. rewrite !Forall_app in B. rewrite S, !chunk_cons in V by assumption. tauto. }
  assert (H32 : x < 256 ^ N.of_nat 32) by (rewrite pow256; exact H). assert (H40 : x < 256 ^ N.of_nat 40) by (rewrite pow256; eapply N.lt_trans; [exact H|reflexivity]).
  destruct k; try contradiction; unfold little_endian_u64, repr_len.
  - destruct (Gen 32%nat ltac:(lia) H32) as [[L1 [L2 [L3 [L4 L5]]]] [B1 [B2 [B3 [B4 [_ V]]]]]]. set (a := le_bytes 32 x) in *. assert (S24 : skipn 24 a = slice 24 32 a).
    { destruct (slices a) as [_ ->]; [unfold a; rewrite (proj2 (proj2 (le_bytes_value 32 x H32))); lia|]. destruct (skipn 32 a); [now rewrite app_nil_r|discriminate]. }
    rewrite S24. cbn [mapM]. rewrite !u8_ok by assumption. cbn [bind rmap]. eexists. split; [reflexivity|]. split; [reflexivity|]. split; [repeat constructor; now apply chunk_lt|].
    cbn [digits_value fold_right]. destruct (skipn 32 a); [|discriminate]. cbn [digits_value fold_right] in V. exact V.
  - destruct (le_bytes_value 32 x H32) as [V [B L]]. rewrite L. cbn [Nat.eqb]. destruct (C53_bytes_to_limbs _ B) as [V2 F]. rewrite V in V2. eexists. split; [reflexivity|]. split; [|split; [exact F|exact V2]].
    assert (Q : forall fuel (s : list N) n, length s = (8 * n)%nat -> (n <= fuel)%nat -> length (u64_limbs_fuel fuel s) = n).
    { induction fuel as [|fuel IH]; intros s n Ls Hn; [destruct n; [reflexivity|lia]|]. cbn [u64_limbs_fuel]. destruct s as [|b s]; [cbn in Ls; destruct n; [reflexivity|lia]|]. destruct n as [|n]; [discriminate|].
      cbn [length]. f_equal. apply IH; [rewrite skipn_length; lia|lia]. }
    unfold u64_limbs_from_bytes. rewrite L. apply Q; [exact L|lia].
  - destruct (Gen 32%nat ltac:(lia) H32) as [[L1 [L2 [L3 [L4 L5]]]] [B1 [B2 [B3 [B4 [_ V]]]]]]. set (a := le_bytes 32 x) in *. assert (S24 : skipn 24 a = slice 24 32 a).
    { destruct (slices a) as [_ ->]; [unfold a; rewrite (proj2 (proj2 (le_bytes_value 32 x H32))); lia|]. destruct (skipn 32 a); [now rewrite app_nil_r|discriminate]. }
    rewrite S24. cbn [mapM]. rewrite !u8_ok by assumption. cbn [bind rmap]. eexists. split; [reflexivity|]. split; [reflexivity|]. split; [repeat constructor; now apply chunk_lt|].
    cbn [digits_value fold_right]. destruct (skipn 32 a); [|discriminate]. cbn [digits_value fold_right] in V. exact V.
  - destruct (Gen 40%nat ltac:(lia) H40) as [[L1 [L2 [L3 [L4 L5]]]] [B1 [B2 [B3 [B4 [B5 V]]]]]]. set (a := le_bytes 40 x) in *. cbn [mapM]. change (40 - 32)%nat with 8%nat in L5. rewrite !u8_ok by assumption. cbn [bind rmap].
    eexists. split; [reflexivity|]. split; [reflexivity|]. split; [repeat constructor; now apply chunk_lt|]. cbn [digits_value fold_right]. rewrite N.mul_0_r, N.add_0_r, !le_value_digits. rewrite !le_value_digits in V. exact V.
Qed.
(** The limbs of a scalar of secp256k1 can never be read: its last slice has 16 bytes. *)
Theorem C61_limbs_refuted : forall x, little_endian_u64 Secp x = Panic.
Proof.
  intros x. assert (L : forall n y, length (le_bytes n y) = n) by (induction n as [|n IH]; intros y; [reflexivity|]; cbn; now rewrite IH).
  unfold little_endian_u64, repr_len. set (a := le_bytes 40 x). assert (La : length a = 40%nat) by apply L. cbn [mapM].
  rewrite (u8_ok (slice 0 8 a)) by (apply (slice_len 0); lia). rewrite (u8_ok (slice 8 16 a)) by (apply (slice_len 8); lia). rewrite (u8_ok (slice 16 24 a)) by (apply (slice_len 16); lia). cbn [bind rmap].
  unfold u8_le_slice_to_u64, u8_le_slice. rewrite skipn_length, La. reflexivity.
Qed.

(** ** Powers *)
Section Powers.
Context (p : N) (Hp : 1 < p).
Lemma mul_mod_pow a n : (a mod p) ^ n mod p = a ^ n mod p.
Proof. induction n as [|n IH] using N.peano_ind; [reflexivity|]. rewrite !N.pow_succ_r'. rewrite N.mul_mod, IH, N.mod_mod, <- N.mul_mod by lia. reflexivity. Qed.
Lemma pow_bits_ok n : forall e b r, e < 2 ^ N.of_nat n -> pow_bits p n e b r = (fst (pow_bits p n e b r), snd (pow_bits p n e b r)) /\
  fst (pow_bits p n e b r) mod p = b ^ (2 ^ N.of_nat n) mod p /\ snd (pow_bits p n e b r) mod p = (r * b ^ e) mod p /\ (r < p -> snd (pow_bits p n e b r) < p).
Proof.
  induction n as [|n IH]; intros e b r He; (split; [apply surjective_pairing|]).
  - change (2 ^ N.of_nat 0) with 1 in *. assert (e = 0) as -> by lia. cbn [pow_bits fst snd]. rewrite N.pow_1_r, N.pow_0_r, N.mul_1_r. auto.
  - rewrite Nat2N.inj_succ, N.pow_succ_r' in He. cbn [pow_bits]. rewrite N.shiftr_div_pow2. change (2 ^ 1) with 2. assert (E2 : e / 2 < 2 ^ N.of_nat n) by (apply N.div_lt_upper_bound; lia).
    pose proof (N.div_mod e 2 ltac:(lia)) as D. pose proof (N.mod_lt e 2 ltac:(lia)) as M.
    set (r' := if e mod 2 =? 1 then r * b mod p else r). destruct (IH (e / 2) (b * b mod p) r' E2) as [_ [F [G K]]]. split; [|split].
    + rewrite F, mul_mod_pow, Nat2N.inj_succ, N.pow_succ_r', N.pow_mul_r, N.pow_2_r. reflexivity.
    + rewrite G. rewrite N.mul_mod, mul_mod_pow, <- N.mul_mod by lia. replace (b * b) with (b ^ 2) by apply N.pow_2_r. rewrite <- N.pow_mul_r. unfold r'. destruct (N.eqb_spec (e mod 2) 1) as [O|O].
      * rewrite N.mul_mod_idemp_l by lia. rewrite D at 2. rewrite O, N.pow_add_r, N.pow_1_r. f_equal. lia.
      * assert (Z : e mod 2 = 0) by lia. rewrite D at 2. rewrite Z, N.add_0_r. reflexivity.
    + intros Hr. apply K. unfold r'. destruct (_ =? _); [apply N.mod_lt; lia|exact Hr].
Qed.
Lemma pow_fold n ls : Forall (fun d => d < 2 ^ N.of_nat n) ls -> forall b r, r < p ->
  snd (fold_left (fun br e => pow_bits p n e (fst br) (snd br)) ls (b, r)) = (r * b ^ digits_value (2 ^ N.of_nat n) ls) mod p.
Proof.
  induction 1 as [|d ls Hd _ IH]; intros b r Hr; [cbn [fold_left snd digits_value fold_right]; rewrite N.pow_0_r, N.mul_1_r; symmetry; now apply N.mod_small|].
  assert (D : digits_value (2 ^ N.of_nat n) (d :: ls) = d + 2 ^ N.of_nat n * digits_value (2 ^ N.of_nat n) ls) by reflexivity. rewrite D. cbn [fold_left fst snd]. destruct (pow_bits_ok n d b r Hd) as [Q [F [G K]]]. rewrite Q.
  rewrite IH by (apply K, Hr). assert (P0 : p <> 0) by (clear - Hp; lia). rewrite (N.mul_mod (snd _)), G, <- (mul_mod_pow (fst _)), F, mul_mod_pow, <- N.mul_mod by exact P0. rewrite <- N.pow_mul_r, <- N.mul_assoc, <- N.pow_add_r. reflexivity.
Qed.
End Powers.
Lemma digits_zeros ls n : digits_value (2 ^ 64) (ls ++ repeat 0 n) = digits_value (2 ^ 64) ls.
Proof.
  rewrite digits_app. assert (Z : digits_value (2 ^ 64) (repeat 0 n) = 0) by (induction n as [|n IH]; [reflexivity|]; cbn [repeat digits_value fold_right]; fold (digits_value (2 ^ 64) (repeat 0 n)); rewrite IH; reflexivity).
  rewrite Z. lia.
Qed.
(** [pow] computes the power by the number with the given limbs; it panics exactly when the
    exponent has more limbs than the fixed array of that field. *)
Theorem C61_powers : forall k x e, Forall (fun d => d < 2 ^ 64) e ->
  (match k with Bls => (length e <= 4)%nat | Secq | Secp => (length e <= 5)%nat | _ => True end -> pow k x e = Ok (x ^ digits_value (2 ^ 64) e mod size k)) /\
  (pow k x e = Panic <-> match k with Bls => (4 < length e)%nat | Secq | Secp => (5 < length e)%nat | _ => False end).
Proof.
  intros k x e He. assert (P : 1 < size k) by (destruct k; reflexivity). assert (G : forall n, pow_loop (size k) x (e ++ repeat 0 n) = x ^ digits_value (2 ^ 64) e mod size k).
  { intros n. unfold pow_loop. rewrite pow_fold; [|exact P| |exact P]; [now rewrite digits_zeros, N.mul_1_l|]. apply Forall_app. split; [exact He|]. apply Forall_forall. intros y Hy. apply repeat_spec in Hy. subst. reflexivity. }
  assert (G0 : pow_loop (size k) x e = x ^ digits_value (2 ^ 64) e mod size k) by (specialize (G 0%nat); now rewrite app_nil_r in G).
  destruct k; unfold pow, exp_limbs; try (split; [intros _; now rewrite G0|split; [discriminate|tauto]]).
  1: destruct (Nat.ltb_spec 4 (length e)) as [L|L].
  3: destruct (Nat.ltb_spec 5 (length e)) as [L|L].
  5: destruct (Nat.ltb_spec 5 (length e)) as [L|L].
  all: split; [intros L'; try lia; rewrite G; reflexivity|split; [try discriminate; auto|intros; try lia; reflexivity]].
Qed.
Example C61_example : pow Bls 3 [5; 0; 0; 0; 0] = Panic /\ pow Jubjub 3 [5; 0; 0; 0; 0] = Ok 243.
Proof. split; vm_compute; reflexivity. Qed.
Print Assumptions C54_big_integers_partial. Print Assumptions C54_big_integers_refuted. Print Assumptions C54_decoding_exact. Print Assumptions C54_round_trip.
Print Assumptions C54_canonical_decoding_partial. Print Assumptions C54_decoding_refuted. Print Assumptions C54_unreduced_scalars. Print Assumptions C54_integer_round_trip.
Print Assumptions C54_field_sizes. Print Assumptions C61_limbs_partial. Print Assumptions C61_limbs_refuted. Print Assumptions C61_powers.
