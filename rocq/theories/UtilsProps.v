(** Property theorems for the integer and byte helpers (C53). *)
From Coq Require Import List NArith ZArith Bool Lia ZifyBool ZifyNat ZifyN.
From Verif Require Import Base UtilsModel.
Import ListNotations.
Ltac Zify.zify_post_hook ::= Z.div_mod_to_equations.
Local Open Scope N_scope.

(** Specification: the number with given digits in a base, least significant
    first. *)
Definition digits_value (base : N) (ds : list N) : N := fold_right (fun d v => d + base * v) 0 ds.
Definition is_byte (b : N) : Prop := b < 256.

Lemma le_value_digits bs : le_value bs = digits_value 256 bs.
Proof. induction bs as [|b bs IH]; [reflexivity|]. cbn. now rewrite IH. Qed.
Lemma be_value_rev bs : be_value (rev bs) = digits_value 256 bs.
Proof. induction bs as [|b bs IH]; [reflexivity|]. cbn [rev digits_value fold_right]. rewrite be_value_app, IH. unfold digits_value. lia. Qed.
Lemma digits_nth base ds x : (forall i, (i < length ds)%nat -> nth i ds 0 = (x / base ^ N.of_nat i) mod base) -> 0 < base ->
  x < base ^ N.of_nat (length ds) -> digits_value base ds = x.
Proof.
  revert x. induction ds as [|d ds IH]; intros x H Hb Hx; [cbn in *; lia|].
  cbn [digits_value fold_right]. fold (digits_value base ds). rewrite (IH (x / base)).
  - pose proof (H 0%nat ltac:(cbn; lia)) as H0. cbn [nth] in H0. change (base ^ N.of_nat 0) with 1 in H0. rewrite N.div_1_r in H0. rewrite H0.
    pose proof (N.div_mod x base ltac:(lia)). lia.
  - intros i Hi. pose proof (H (S i) ltac:(cbn; lia)) as H1. cbn [nth] in H1. rewrite H1, Nat2N.inj_succ, N.pow_succ_r'.
    rewrite N.div_div by lia. reflexivity.
  - exact Hb.
  - cbn [length] in Hx. rewrite Nat2N.inj_succ, N.pow_succ_r' in Hx. apply N.div_lt_upper_bound; lia.
Qed.

(** C53: reading bytes gives the number whose bytes they are, least significant
    first or last; any other number of bytes panics. *)
Theorem C53_byte_slices_exact :
  forall s x,
  (length s = 8%nat -> x < 2 ^ 64 ->
     ((forall i, (i < 8)%nat -> nth i s 0 = (x / 256 ^ N.of_nat i) mod 256) -> u8_le_slice_to_u64 s = Ok x) /\
     ((forall i, (i < 8)%nat -> nth i (rev s) 0 = (x / 256 ^ N.of_nat i) mod 256) -> u8_be_slice_to_u64 s = Ok x)) /\
  (length s = 4%nat -> x < 2 ^ 32 ->
     ((forall i, (i < 4)%nat -> nth i s 0 = (x / 256 ^ N.of_nat i) mod 256) -> u8_le_slice_to_u32 s = Ok x) /\
     ((forall i, (i < 4)%nat -> nth i (rev s) 0 = (x / 256 ^ N.of_nat i) mod 256) -> u8_be_slice_to_u32 s = Ok x)) /\
  (length s <> 8%nat -> u8_le_slice_to_u64 s = Panic /\ u8_be_slice_to_u64 s = Panic) /\
  (length s <> 4%nat -> u8_le_slice_to_u32 s = Panic /\ u8_be_slice_to_u32 s = Panic).
Proof.
  intros s x.
  assert (A : forall n, length s = n -> x < 256 ^ N.of_nat n ->
     ((forall i, (i < n)%nat -> nth i s 0 = (x / 256 ^ N.of_nat i) mod 256) -> u8_le_slice n s = Ok x) /\
     ((forall i, (i < n)%nat -> nth i (rev s) 0 = (x / 256 ^ N.of_nat i) mod 256) -> u8_be_slice n s = Ok x)).
  { intros n L Hx. unfold u8_le_slice, u8_be_slice. rewrite L, Nat.eqb_refl. split; intros H; f_equal.
    - rewrite le_value_digits. apply digits_nth; [rewrite L; exact H|lia|rewrite L; exact Hx].
    - rewrite <- (rev_involutive s), be_value_rev. apply digits_nth; rewrite ?rev_length, ?L; [exact H|lia|exact Hx]. }
  assert (B : forall n, length s <> n -> u8_le_slice n s = Panic /\ u8_be_slice n s = Panic).
  { intros n L. unfold u8_le_slice, u8_be_slice. destruct (Nat.eqb_spec (length s) n); [contradiction|auto]. }
  split; [intros L Hx; apply (A 8%nat); assumption|]. split; [intros L Hx; apply (A 4%nat); assumption|].
  split; apply B.
Qed.
Print Assumptions C53_byte_slices_exact.

(** C53: a u64 is split into its low and high 32-bit halves. *)
Theorem C53_u64_split_exact :
  forall x, x < 2 ^ 64 -> let '(lo, hi) := u64_to_u32_pair x in lo < 2 ^ 32 /\ hi < 2 ^ 32 /\ x = lo + 2 ^ 32 * hi.
Proof.
  intros x H. unfold u64_to_u32_pair. change 4294967295 with (N.ones 32). rewrite N.land_ones, N.shiftr_div_pow2.
  pose proof (N.div_mod x (2 ^ 32) ltac:(lia)). pose proof (N.mod_lt x (2 ^ 32) ltac:(lia)).
  split; [assumption|]. split; [|lia]. apply N.div_lt_upper_bound; [lia|]. exact H.
Qed.
Print Assumptions C53_u64_split_exact.

(** C53: halving a little-endian byte vector. *)
Lemma shift_byte e next : is_byte e -> next = 0 \/ next = 128 -> N.lor (N.shiftr e 1) next = e / 2 + next.
Proof.
  intros He Hn. rewrite N.shiftr_div_pow2. change (2 ^ 1) with 2. destruct Hn as [->| ->]; [now rewrite N.lor_0_r, N.add_0_r|].
  unfold is_byte in He. assert (D : e / 2 < 128) by (apply N.div_lt_upper_bound; lia).
  rewrite <- N.lxor_lor. { symmetry. apply N.add_nocarry_lxor. 
    apply N.bits_inj_0. intros n. rewrite N.land_spec. destruct (N.ltb_spec n 7).
    - change 128 with (2 ^ 7). rewrite N.pow2_bits_false by lia. apply andb_false_r.
    - rewrite (N.bits_above_log2 (e / 2)); [reflexivity|]. destruct (N.eq_dec (e / 2) 0) as [->|]; [cbn; lia|].
      apply N.lt_le_trans with 7; [apply N.log2_lt_pow2; lia|assumption]. }
  apply N.bits_inj_0. intros n. rewrite N.land_spec. destruct (N.ltb_spec n 7).
    - change 128 with (2 ^ 7). rewrite N.pow2_bits_false by lia. apply andb_false_r.
    - rewrite (N.bits_above_log2 (e / 2)); [reflexivity|]. destruct (N.eq_dec (e / 2) 0) as [->|]; [cbn; lia|].
      apply N.lt_le_trans with 7; [apply N.log2_lt_pow2; lia|assumption].
Qed.
(** value of most-significant-first digits after a prefix [a] *)
Definition msf (a : N) (rs : list N) : N := fold_left (fun a b => 256 * a + b) rs a.
Lemma msf_rev bs : msf 0 (rev bs) = digits_value 256 bs.
Proof.
  induction bs as [|b bs IH]; [reflexivity|]. cbn [rev]. unfold msf in *. rewrite fold_left_app, IH. cbn [fold_left digits_value fold_right]. fold (digits_value 256 bs). lia.
Qed.
Lemma shift_rev_spec rs : forall a next, Forall is_byte rs -> next = 128 * (a mod 2) ->
  msf (a / 2) (shift_rev next rs) = msf a rs / 2 /\ Forall is_byte (shift_rev next rs) /\ length (shift_rev next rs) = length rs.
Proof.
  induction rs as [|e rs IH]; intros a next HF Hn; [cbn; auto|]. inversion HF; subst. cbn [shift_rev length].
  unfold msf in *. cbn [fold_left]. rewrite shift_byte by (assumption || lia).
  destruct (IH (256 * a + e) (N.shiftl (e mod 2) 7)) as [I1 [I2 I3]]; [assumption| |].
  - rewrite N.shiftl_mul_pow2. change (2 ^ 7) with 128. lia.
  - split; [|split].
    + rewrite <- I1. f_equal. unfold is_byte in *. lia.
    + constructor; [|exact I2]. unfold is_byte in *. lia.
    + now rewrite I3.
Qed.
Lemma digits_last_zero bs : digits_value 256 (bs ++ [0]) = digits_value 256 bs.
Proof. induction bs as [|b bs IH]; [reflexivity|]. unfold digits_value in *. cbn [app fold_right]. now rewrite IH. Qed.

Theorem C53_shift_halves :
  forall r, Forall is_byte r -> r <> [] ->
  exists r', shift_u8_vec r = Ok r' /\ digits_value 256 r' = digits_value 256 r / 2 /\ Forall is_byte r' /\ r' <> [].
Proof.
  intros r HF Hne. unfold shift_u8_vec.
  destruct (shift_rev_spec (rev r) 0 0 (Forall_rev HF) eq_refl) as [H1 [H2 H3]]. rewrite rev_length in H3.
  set (s := shift_rev 0 (rev r)) in *. rewrite rev_involutive. change (0 / 2) with 0 in H1. rewrite msf_rev in H1.
  destruct s as [|b front] eqn:Es; [destruct r; [contradiction|discriminate]|].
  rewrite <- (rev_involutive (b :: front)), msf_rev in H1. cbn [rev] in *.
  rewrite app_length, rev_length. cbn [length].
  destruct ((b =? 0) && (1 <? N.of_nat (length front + 1))) eqn:E.
  - exists (rev front). split; [reflexivity|]. apply andb_prop in E. destruct E as [E1 E2]. apply N.eqb_eq in E1. subst b.
    rewrite digits_last_zero in H1. split; [exact H1|]. inversion H2; subst. split; [now apply Forall_rev|].
    intros X. apply (f_equal (@length N)) in X. rewrite rev_length in X. cbn in X. lia.
  - exists (rev front ++ [b]). split; [reflexivity|]. split; [exact H1|]. inversion H2; subst.
    split; [apply Forall_app; split; [now apply Forall_rev|now constructor]|]. now destruct (rev front).
Qed.
Print Assumptions C53_shift_halves.

(** C53: the shrunk little-endian bytes of 64-bit limbs denote the same number and
    have no trailing zero byte; reading limbs back denotes the same number. *)
Lemma drop_zeros_value rs : digits_value 256 (rev (drop_zeros rs)) = digits_value 256 (rev rs).
Proof.
  induction rs as [|b rs IH]; [reflexivity|]. cbn [drop_zeros]. destruct (N.eqb_spec b 0) as [->|]; [|reflexivity].
  cbn [rev]. rewrite digits_last_zero. exact IH.
Qed.
Lemma drop_zeros_head rs b l : drop_zeros rs = b :: l -> b <> 0.
Proof. induction rs as [|x rs IH]; [discriminate|]. cbn. destruct (N.eqb_spec x 0); [exact IH|]. intros H. now inversion H; subst. Qed.
Lemma drop_zeros_F (P : N -> Prop) rs : Forall P rs -> Forall P (drop_zeros rs).
Proof. induction 1 as [|b rs H HF IH]; [constructor|]. cbn. destruct (b =? 0); [exact IH|now constructor]. Qed.
Lemma le_bytes_value n : forall x, x < 256 ^ N.of_nat n -> digits_value 256 (le_bytes n x) = x /\ Forall is_byte (le_bytes n x) /\ length (le_bytes n x) = n.
Proof.
  induction n as [|n IH]; intros x H; [cbn in *; repeat split; [lia|constructor]|]. rewrite Nat2N.inj_succ, N.pow_succ_r' in H.
  cbn [le_bytes digits_value fold_right length]. fold (digits_value 256 (le_bytes n (x / 256))).
  destruct (IH (x / 256)) as [I1 [I2 I3]]; [apply N.div_lt_upper_bound; lia|]. rewrite I1, I3.
  pose proof (N.div_mod x 256 ltac:(lia)). pose proof (N.mod_lt x 256 ltac:(lia)).
  repeat split; [lia|]. constructor; [assumption|exact I2].
Qed.
Lemma digits_app base a b : digits_value base (a ++ b) = digits_value base a + base ^ N.of_nat (length a) * digits_value base b.
Proof.
  unfold digits_value. induction a as [|x a IH]; cbn [app length fold_right].
  - change (N.of_nat 0) with 0. rewrite N.pow_0_r, N.mul_1_l. reflexivity.
  - rewrite IH, Nat2N.inj_succ, N.pow_succ_r'. lia.
Qed.
Lemma limbs_bytes s : Forall (fun a => a < 2 ^ 64) s ->
  digits_value 256 (flat_map (le_bytes 8) s) = digits_value (2 ^ 64) s /\ Forall is_byte (flat_map (le_bytes 8) s).
Proof.
  induction 1 as [|a s H _ [I1 I2]]; [split; [reflexivity|constructor]|]. cbn [flat_map].
  destruct (le_bytes_value 8 a H) as [B1 [B2 B3]]. rewrite digits_app, B1, B3, I1. split; [reflexivity|]. apply Forall_app. auto.
Qed.
Theorem C53_limbs_to_bytes :
  forall s, Forall (fun a => a < 2 ^ 64) s ->
  digits_value 256 (u64_lsf_to_bytes s) = digits_value (2 ^ 64) s /\ Forall is_byte (u64_lsf_to_bytes s) /\
  (u64_lsf_to_bytes s <> [] -> last (u64_lsf_to_bytes s) 0 <> 0).
Proof.
  intros s H. destruct (limbs_bytes s H) as [H1 H2]. unfold u64_lsf_to_bytes. rewrite drop_zeros_value, rev_involutive.
  split; [exact H1|]. split; [now apply Forall_rev, drop_zeros_F, Forall_rev|]. intros Hn.
  destruct (drop_zeros (rev (flat_map (le_bytes 8) s))) as [|b l] eqn:E; [now cbn in Hn|]. cbn [rev]. rewrite last_last. eapply drop_zeros_head, E.
Qed.
Print Assumptions C53_limbs_to_bytes.

Lemma limbs_fuel_value fuel : forall s, (length s <= fuel)%nat -> Forall is_byte s ->
  digits_value (2 ^ 64) (u64_limbs_fuel fuel s) = digits_value 256 s /\ Forall (fun a => a < 2 ^ 64) (u64_limbs_fuel fuel s).
Proof.
  induction fuel as [|fuel IH]; intros s L HF; [destruct s; [split; [reflexivity|constructor]|cbn in L; lia]|].
  destruct s as [|b s0] eqn:Es; [split; [reflexivity|constructor]|]. rewrite <- Es in *. 
  assert (E : u64_limbs_fuel (S fuel) s = le_value (firstn 8 s) :: u64_limbs_fuel fuel (skipn 8 s)) by (rewrite Es; reflexivity).
  rewrite E. clear E.
  assert (B : Forall is_byte (firstn 8 s) /\ Forall is_byte (skipn 8 s)) by (rewrite <- (firstn_skipn 8 s) in HF; now apply Forall_app in HF).
  destruct B as [B1 B2]. destruct (IH (skipn 8 s)) as [I1 I2]; [rewrite skipn_length; rewrite Es in *; cbn [length] in *; lia|exact B2|].
  assert (V : forall l, Forall is_byte l -> digits_value 256 l < 256 ^ N.of_nat (length l)).
  { induction 1 as [|x l Hx _ IHl]; [cbn; lia|]. cbn [digits_value fold_right length]. fold (digits_value 256 l). rewrite Nat2N.inj_succ, N.pow_succ_r'. unfold is_byte in Hx. nia. }
  assert (LT : le_value (firstn 8 s) < 2 ^ 64).
  { rewrite le_value_digits. eapply N.lt_le_trans; [apply V, B1|]. change (2 ^ 64) with (256 ^ 8). apply N.pow_le_mono_r; [lia|]. rewrite firstn_length. lia. }
  split; [|now constructor].
  cbn [digits_value fold_right]. fold (digits_value (2 ^ 64) (u64_limbs_fuel fuel (skipn 8 s))). rewrite I1.
  rewrite <- (firstn_skipn 8 s) at 3. rewrite digits_app, le_value_digits.
  destruct (Nat.le_gt_cases 8 (length s)) as [Hl|Hl].
  - rewrite firstn_length, Nat.min_l by lia. reflexivity.
  - rewrite skipn_all2 by lia. cbn. lia.
Qed.
Theorem C53_bytes_to_limbs :
  forall s, Forall is_byte s ->
  digits_value (2 ^ 64) (u64_limbs_from_bytes s) = digits_value 256 s /\ Forall (fun a => a < 2 ^ 64) (u64_limbs_from_bytes s).
Proof. intros s H. now apply limbs_fuel_value. Qed.
Print Assumptions C53_bytes_to_limbs.
(** Hence the round trip keeps the number. *)
Theorem C53_limbs_round_trip :
  forall s, Forall (fun a => a < 2 ^ 64) s ->
  digits_value (2 ^ 64) (u64_limbs_from_bytes (u64_lsf_to_bytes s)) = digits_value (2 ^ 64) s.
Proof.
  intros s H. destruct (C53_limbs_to_bytes s H) as [H1 [H2 _]]. destruct (C53_bytes_to_limbs _ H2) as [H3 _]. now rewrite H3, H1.
Qed.
Print Assumptions C53_limbs_round_trip.

(** C53 (partial): the rounding to a power of two is right between 1 and 2^31. *)
Theorem C53_power_of_two_partial :
  forall n, 0 < n <= 2 ^ 31 ->
  exists k, min_greater_equal_power_of_two n = 2 ^ k /\ n <= 2 ^ k /\ forall j, n <= 2 ^ j -> 2 ^ k <= 2 ^ j.
Proof.
  intros n [H0 H]. unfold min_greater_equal_power_of_two. destruct (N.eqb_spec n 0); [lia|].
  assert (L : N.log2_up n <= 31) by (apply N.log2_up_le_pow2; assumption).
  assert (P : 2 ^ N.log2_up n <= 2 ^ 31) by (apply N.pow_le_mono_r; [lia|assumption]).
  exists (N.log2_up n). rewrite N.min_l by (change (2 ^ 31) with 2147483648 in P; lia). split; [reflexivity|]. split.
  - now apply N.log2_log2_up_spec.
  - intros j Hj. apply N.pow_le_mono_r; [lia|]. now apply N.log2_up_le_pow2.
Qed.
Print Assumptions C53_power_of_two_partial.
(** C53 is false for this helper elsewhere: 0 gives 0, and every u32 above 2^31
    gives 2^32 - 1, which is no power of two. *)
Theorem C53_power_of_two_refuted :
  min_greater_equal_power_of_two 0 = 0 /\
  forall n, 2 ^ 31 < n -> n < 2 ^ 32 -> min_greater_equal_power_of_two n = 2 ^ 32 - 1 /\ forall k, 2 ^ k <> 2 ^ 32 - 1.
Proof.
  split; [reflexivity|]. intros n H1 H2. unfold min_greater_equal_power_of_two. destruct (N.eqb_spec n 0); [subst; cbn in H1; lia|]. split.
  - assert (L : 31 < N.log2_up n) by (apply N.log2_up_lt_pow2; lia).
    assert (P : 2 ^ 32 <= 2 ^ N.log2_up n) by (apply N.pow_le_mono_r; lia). rewrite N.min_r; [reflexivity|]. change (2 ^ 32) with 4294967296 in P. lia.
  - intros k E. destruct (N.eq_dec k 0) as [->|]; [discriminate|].
    assert (X : (2 ^ k) mod 2 = 0). { replace k with (N.succ (k - 1)) by lia. rewrite N.pow_succ_r', N.mul_comm. apply N.mod_mul. lia. }
    rewrite E in X. discriminate.
Qed.
Print Assumptions C53_power_of_two_refuted.
Example C53_case : shift_u8_vec [3; 129; 1] = Ok [129; 192] /\ u64_lsf_to_bytes [258; 0] = [2; 1] /\
  u64_limbs_from_bytes [1; 0; 0; 0; 0; 0; 0; 0; 7] = [1; 7] /\ u8_be_slice_to_u32 [0; 0; 1; 2] = Ok 258 /\
  min_greater_equal_power_of_two 5 = 8 /\ min_greater_equal_power_of_two 3000000000 = 4294967295.
Proof. vm_compute. repeat split; reflexivity. Qed.
