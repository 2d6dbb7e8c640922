(** Key range checks and injectivity of the packings. *)
From Coq Require Import List ZArith NArith Bool Lia ZifyBool ZifyNat ZifyN Field.
From Verif Require Import Base Field PField UtilsModel TurboModel TurboSpec TurboProofs TurboHonest TurboKit TurboEmit
  RescueModel AxfrModel AxfrSpec AxfrLemmas FoldModel FoldProofs.
Import ListNotations.
Ltac Zify.zify_post_hook ::= Z.div_mod_to_equations.
Local Open Scope F_scope.

Section L.
Context (F : PField) (Hbig : (2 ^ 254 < pchar F)%Z).
Implicit Types (c : tcs F) (w : nat -> F).
Definition tbits (z : Z) (n : nat) : list bool := map (fun i => Z.testbit z (Z.of_nat i)) (seq 0 n).
Lemma nth_f2 {A B} (R : A -> B -> Prop) (l : list A) (l' : list B) da db :
  length l = length l' -> (forall i, (i < length l)%nat -> R (nth i l da) (nth i l' db)) -> Forall2 R l l'.
Proof.
  revert l'. induction l as [|a l IH]; intros [|b l'] L H; try discriminate; constructor.
  - apply (H 0%nat). cbn. lia.
  - apply IH; [now injection L|]. intros i Hi. apply (H (S i)). cbn. lia.
Qed.
Lemma range_bits v n : (2 <= n)%nat -> (n <= 254)%nat ->
  sound (range_check F v n) (fun w b => length b = n /\ (toZ (w v) < 2 ^ Z.of_nat n)%Z /\
    Forall2 (fun i x => w i = b2f F x) b (tbits (toZ (w v)) n)).
Proof.
  intros H1 H2. eapply sw; [apply range_check_sound; [exact H1|]|].
  - apply Z.lt_le_incl. apply Z.le_lt_trans with (2 ^ 254)%Z; [|exact Hbig]. apply Z.pow_le_mono_r; lia.
  - intros w b [L [Hv Hb]]. split; [exact L|]. split; [exact Hv|]. unfold tbits.
    apply (nth_f2 _ _ _ 0%nat (Z.testbit (toZ (w v)) (Z.of_nat 0%nat))); [rewrite map_length, seq_length; exact L|].
    intros i Hi. rewrite (map_nth (fun i => Z.testbit (toZ (w v)) (Z.of_nat i))), seq_nth by lia. apply Hb. lia.
Qed.
Lemma toZ_nonneg (x : F) : (0 <= toZ x)%Z. Proof. apply toZ_range. Qed.
Lemma tbits_len z n : length (tbits z n) = n. Proof. unfold tbits. now rewrite map_length, seq_length. Qed.
Lemma tbits_val z n : (0 <= z < 2 ^ Z.of_nat n)%Z -> bitsZ (map Z.b2z (tbits z n)) = z.
Proof.
  intros H. unfold tbits. rewrite bitsZ_testbits by lia. change (2 ^ Z.of_nat 0)%Z with 1%Z. rewrite Z.div_1_r. now apply Z.mod_small.
Qed.
Lemma join_val z0 z1 : (0 <= z0 < 2 ^ Z.of_nat 248)%Z -> (0 <= z1 < 2 ^ Z.of_nat 8)%Z ->
  bitsZ (map Z.b2z (tbits z0 248 ++ tbits z1 8)) = (z0 + 2 ^ 248 * z1)%Z.
Proof.
  intros H0 H1. rewrite map_app, bitsZ_app, !tbits_val, map_length, tbits_len by assumption. reflexivity.
Qed.

Lemma check_keys_sound pk sk skb modulus : length skb = 32%nat -> length modulus = 32%nat -> Forall (fun b => b < 256)%N modulus ->
  sound (check_keys F pk sk skb modulus) (fun w _ => let '(p0, p1, p2) := pk in
    (toZ (w p0) < 2 ^ 248)%Z /\ (toZ (w p1) < 2 ^ 248)%Z /\ (toZ (w p2) < 2 ^ 16)%Z /\
    (toZ (w (fst sk)) < 2 ^ 248)%Z /\ (toZ (w (snd sk)) < 2 ^ 8)%Z /\
    (w 0%nat = 0 -> (toZ (w (fst sk)) + 2 ^ 248 * toZ (w (snd sk)) < Z.of_N (le_value modulus))%Z)).
Proof.
  intros L1 L2 HM. destruct pk as [[p0 p1] p2]. unfold check_keys.
  eapply sb; [apply range_bits; lia|]. intros b0. eapply sb; [apply range_bits; lia|]. intros b1.
  eapply sb; [apply range_bits; lia|]. intros b2. eapply sb; [apply range_bits; lia|]. intros c0.
  eapply (sb F _ _ (fun w b => length b = 8%nat /\ (toZ (w (snd sk)) < 2 ^ Z.of_nat 8)%Z /\
    Forall2 (fun i x => w i = b2f F x) b (tbits (toZ (w (snd sk))) 8))); [apply range_bits; lia|]. intros c1.
  destruct (Nat.eq_dec (length (c0 ++ c1)) 256) as [LL|NL].
  2:{ intros c w HS. rewrite bnd_eq in HS. cbn [ret snd] in HS.
      assert (HP : sound (compare_bits F (c0 ++ c1) (bits_of_bytes skb) (bits_of_bytes modulus)) (fun _ _ => True)).
      { unfold compare_bits. eapply sb; [apply compare_loop_sound|]. intros o. eapply sw; [apply sound_push|]. auto. }
      destruct (HP c w HS) as [S1 _]. split; [exact S1|]. intros [K1 _] [K2 _].
      exfalso. apply NL. rewrite app_length. lia. }
  eapply sb; [apply compare_bits_sound; rewrite bits_of_bytes_len; lia|]. intros ?. apply sr.
  intros w HC [_ [G1 F1]] [_ [G0 F0]] [_ [G2 _]] [_ [G3 _]] [_ [G4 _]].
  change (Z.of_nat 248) with 248%Z in *. change (Z.of_nat 16) with 16%Z in *. change (Z.of_nat 8) with 8%Z in *.
  repeat (split; [assumption|]). intros H0. specialize (HC H0 _ (Forall2_app F0 F1)).
  rewrite join_val, bytes_bits in HC; try assumption; split; try assumption; apply toZ_nonneg.
Qed.

Lemma b2f_bit z i : bit F z i = b2f F (Z.testbit z (Z.of_nat i)). Proof. reflexivity. Qed.
Lemma has_bits c b z n : Forall2 (has F c) b (map (bit F z) (seq 0 n)) -> Forall2 (fun v x => has F c v (b2f F x)) b (tbits z n).
Proof.
  unfold tbits. generalize (seq 0 n). intros l. revert b. induction l as [|i l IH]; intros b H; inversion H; subst; constructor; auto.
Qed.
Lemma bytes_tbits bs : Forall (fun b => b < 256)%N bs -> forall n, length bs = n ->
  bits_of_bytes bs = tbits (Z.of_N (le_value bs)) (8 * n).
Proof.
  intros HB n L. assert (E : bitsZ (map Z.b2z (bits_of_bytes bs)) = Z.of_N (le_value bs)) by now apply bytes_bits.
  apply (nth_ext _ _ false false); [rewrite bits_of_bytes_len, tbits_len; lia|]. intros i Hi.
  rewrite bits_of_bytes_len in Hi. rewrite <- bitsZ_testbit, E. unfold tbits.
  rewrite (nth_indep _ false (Z.testbit (Z.of_N (le_value bs)) (Z.of_nat 0))) by (rewrite map_length, seq_length; lia).
  rewrite (map_nth (fun i => Z.testbit (Z.of_N (le_value bs)) (Z.of_nat i))), seq_nth by lia. reflexivity.
Qed.
Lemma le_value_app a b : le_value (a ++ b) = (le_value a + 256 ^ N.of_nat (length a) * le_value b)%N.
Proof.
  induction a as [|x a IH]; cbn [app le_value length]; [change (256 ^ N.of_nat 0)%N with 1%N; lia|].
  rewrite IH, Nat2N.inj_succ, N.pow_succ_r'. lia.
Qed.
Lemma le_value_lt a : Forall (fun b => b < 256)%N a -> (le_value a < 256 ^ N.of_nat (length a))%N.
Proof.
  induction 1 as [|x a H _ IH]; [cbn; lia|]. cbn [le_value length]. rewrite Nat2N.inj_succ, N.pow_succ_r'. lia.
Qed.
Lemma le_value_inj a : forall b, length a = length b -> Forall (fun b => b < 256)%N a -> Forall (fun b => b < 256)%N b ->
  le_value a = le_value b -> a = b.
Proof.
  induction a as [|x a IH]; intros [|y b] L HA HB E; try discriminate; [reflexivity|].
  inversion HA; inversion HB; subst. cbn [le_value] in E.
  assert (x = y /\ le_value a = le_value b)%N as [-> E2] by lia. f_equal. apply IH; auto.
Qed.
Lemma small_fofN (x y : N) : (Z.of_N x < 2 ^ 254)%Z -> (Z.of_N y < 2 ^ 254)%Z -> fofN x = (fofN y : F) -> x = y.
Proof.
  intros Hx Hy E. apply (f_equal toZ) in E. unfold fofN in E. rewrite !toZ_small in E by lia. lia.
Qed.
Lemma bytes31 a : (length a <= 31)%nat -> Forall (fun b => b < 256)%N a -> (Z.of_N (le_value a) < 2 ^ 248)%Z.
Proof.
  intros L H. pose proof (le_value_lt a H) as B.
  assert (X : (256 ^ N.of_nat (length a) <= 256 ^ 31)%N) by (apply N.pow_le_mono_r; lia).
  assert (Y : (Z.of_N (le_value a) < Z.of_N (256 ^ 31))%Z) by lia.
  change (Z.of_N (256 ^ 31)) with (2 ^ 248)%Z in Y. exact Y.
Qed.
Lemma scalar_inj a b x : (length a <= 31)%nat -> length a = length b ->
  Forall (fun b => b < 256)%N a -> Forall (fun b => b < 256)%N b ->
  scalar_from_bytes F a = Ok x -> scalar_from_bytes F b = Ok x -> a = b.
Proof.
  intros L1 L2 HA HB EA EB. unfold scalar_from_bytes in *.
  destruct (Nat.ltb 32 (length a)); [discriminate|]. destruct (Nat.ltb 32 (length b)); [discriminate|].
  rewrite <- EB in EA. apply Ok_inj in EA. apply small_fofN in EA.
  - now apply le_value_inj.
  - apply Z.lt_le_trans with (2 ^ 248)%Z; [now apply bytes31|discriminate].
  - apply Z.lt_le_trans with (2 ^ 248)%Z; [apply bytes31; [lia|exact HB]|discriminate].
Qed.
Lemma firstn_F {A} (P : A -> Prop) n l : Forall P l -> Forall P (firstn n l).
Proof. intros H. rewrite <- (firstn_skipn n l) in H. apply Forall_app in H. apply H. Qed.
Lemma skipn_F {A} (P : A -> Prop) n l : Forall P l -> Forall P (skipn n l).
Proof. intros H. rewrite <- (firstn_skipn n l) in H. apply Forall_app in H. apply H. Qed.
Lemma skip2 {A} n : forall m (l : list A), skipn n (skipn m l) = skipn (m + n) l.
Proof. intros m. induction m as [|m IH]; intros l; [reflexivity|]. destruct l; [now rewrite !skipn_nil|]. cbn. apply IH. Qed.
Lemma secret_packing_inj a b s : length a = 32%nat -> length b = 32%nat ->
  Forall (fun b => b < 256)%N a -> Forall (fun b => b < 256)%N b ->
  get_secret_key_scalars F a = Ok s -> get_secret_key_scalars F b = Ok s -> a = b.
Proof.
  intros LA LB HA HB EA EB. unfold get_secret_key_scalars in *. rewrite LA in EA. rewrite LB in EB. cbn [Nat.ltb Nat.leb] in *.
  apply bind_ok in EA. destruct EA as [x [A1 A2]]. apply bind_ok in A2. destruct A2 as [y [A2 A3]].
  apply bind_ok in EB. destruct EB as [x' [B1 B2]]. apply bind_ok in B2. destruct B2 as [y' [B2 B3]].
  apply Ok_inj in A3. apply Ok_inj in B3. subst s. inversion B3; subst x' y'.
  rewrite <- (firstn_skipn 31 a), <- (firstn_skipn 31 b). f_equal.
  - eapply scalar_inj; [| | | |exact A1|exact B1]; rewrite ?firstn_length; try lia; now apply firstn_F.
  - eapply scalar_inj; [| | | |exact A2|exact B2]; rewrite ?skipn_length; try lia; now apply skipn_F.
Qed.
Lemma app_inj_len {A} (a b : list A) : forall a' b', a ++ b = a' ++ b' -> length a = length a' -> a = a' /\ b = b'.
Proof.
  induction a as [|x a IH]; intros [|y a'] b' E L; try discriminate; [auto|]. injection E as -> E. injection L as L.
  destruct (IH _ _ E L) as [-> ->]. auto.
Qed.
Lemma public_packing_inj xa ya xb yb s : length xa = 32%nat -> length ya = 32%nat -> length xb = 32%nat -> length yb = 32%nat ->
  Forall (fun b => b < 256)%N (xa ++ ya) -> Forall (fun b => b < 256)%N (xb ++ yb) ->
  get_public_key_scalars F xa ya = Ok s -> get_public_key_scalars F xb yb = Ok s -> xa = xb /\ ya = yb.
Proof.
  intros L1 L2 L3 L4 HA HB EA EB. unfold get_public_key_scalars in *.
  assert (LA : length (xa ++ ya) = 64%nat) by (rewrite app_length; lia).
  assert (LB : length (xb ++ yb) = 64%nat) by (rewrite app_length; lia).
  rewrite LA in EA. rewrite LB in EB. cbn [Nat.ltb Nat.leb] in *.
  apply bind_ok in EA. destruct EA as [x [A1 A2]]. apply bind_ok in A2. destruct A2 as [y [A2 A3]]. apply bind_ok in A3. destruct A3 as [z [A3 A4]].
  apply bind_ok in EB. destruct EB as [x' [B1 B2]]. apply bind_ok in B2. destruct B2 as [y' [B2 B3]]. apply bind_ok in B3. destruct B3 as [z' [B3 B4]].
  apply Ok_inj in A4. apply Ok_inj in B4. subst s. inversion B4; subst x' y' z'.
  assert (E : xa ++ ya = xb ++ yb).
  { assert (E1 : firstn 31 (xa ++ ya) = firstn 31 (xb ++ yb)).
    { eapply scalar_inj; [| | | |exact A1|exact B1]; rewrite ?firstn_length; try lia; now apply firstn_F. }
    assert (E2 : firstn 31 (skipn 31 (xa ++ ya)) = firstn 31 (skipn 31 (xb ++ yb))).
    { eapply scalar_inj; [| | | |exact A2|exact B2]; rewrite ?firstn_length, ?skipn_length; try lia; now apply firstn_F, skipn_F. }
    assert (E3 : skipn 62 (xa ++ ya) = skipn 62 (xb ++ yb)).
    { eapply scalar_inj; [| | | |exact A3|exact B3]; rewrite ?skipn_length; try lia; now apply skipn_F. }
    rewrite <- (firstn_skipn 31 (xa ++ ya)), <- (firstn_skipn 31 (xb ++ yb)). f_equal; [exact E1|].
    rewrite <- (firstn_skipn 31 (skipn 31 (xa ++ ya))), <- (firstn_skipn 31 (skipn 31 (xb ++ yb))). f_equal; [exact E2|].
    rewrite !skip2. exact E3. }
  apply app_inj_len in E; [exact E|lia].
Qed.

(** The two scalars of a 32-byte key hold its number. *)
Lemma secret_scalars_value bs s : length bs = 32%nat -> Forall (fun b => b < 256)%N bs -> get_secret_key_scalars F bs = Ok s ->
  fst s = fofN (le_value (firstn 31 bs)) /\ snd s = fofN (le_value (skipn 31 bs)) /\
  toZ (fst s) = Z.of_N (le_value (firstn 31 bs)) /\ toZ (snd s) = Z.of_N (le_value (skipn 31 bs)) /\
  (toZ (fst s) < 2 ^ 248)%Z /\ (toZ (snd s) < 2 ^ 8)%Z /\
  (toZ (fst s) + 2 ^ 248 * toZ (snd s) = Z.of_N (le_value bs))%Z.
Proof.
  intros L HB E. unfold get_secret_key_scalars in E. rewrite L in E. cbn [Nat.ltb Nat.leb] in E.
  unfold scalar_from_bytes in E. rewrite firstn_length, skipn_length, L in E. cbn [Nat.ltb Nat.leb Nat.min Nat.sub bind] in E. apply Ok_inj in E. subst s. cbn [fst snd].
  pose proof (le_value_lt _ (firstn_F _ 31 _ HB)) as B1. pose proof (le_value_lt _ (skipn_F _ 31 _ HB)) as B2.
  rewrite firstn_length, L in B1. rewrite skipn_length, L in B2.
  assert (Z1 : (Z.of_N (le_value (firstn 31 bs)) < 2 ^ 248)%Z).
  { assert (X : (Z.of_N (le_value (firstn 31 bs)) < Z.of_N (256 ^ N.of_nat (Nat.min 31 32)))%Z) by lia. exact X. }
  assert (Z2 : (Z.of_N (le_value (skipn 31 bs)) < 2 ^ 8)%Z).
  { assert (X : (Z.of_N (le_value (skipn 31 bs)) < Z.of_N (256 ^ N.of_nat (32 - 31)))%Z) by lia. exact X. }
  assert (T : (2 ^ 248 < 2 ^ 254)%Z) by reflexivity. assert (T2 : (2 ^ 8 < 2 ^ 254)%Z) by reflexivity.
  assert (E1 : toZ (fofN (le_value (firstn 31 bs)) : F) = Z.of_N (le_value (firstn 31 bs))) by (unfold fofN; apply toZ_small; lia).
  assert (E2 : toZ (fofN (le_value (skipn 31 bs)) : F) = Z.of_N (le_value (skipn 31 bs))) by (unfold fofN; apply toZ_small; lia).
  split; [reflexivity|]. split; [reflexivity|]. split; [exact E1|]. split; [exact E2|]. rewrite E1, E2. split; [exact Z1|]. split; [exact Z2|].
  assert (EV : le_value bs = (le_value (firstn 31 bs) + 256 ^ 31 * le_value (skipn 31 bs))%N).
  { rewrite <- (firstn_skipn 31 bs) at 1. rewrite le_value_app, firstn_length, L. reflexivity. }
  rewrite EV, N2Z.inj_add, N2Z.inj_mul. change (Z.of_N (256 ^ 31)) with (2 ^ 248)%Z. reflexivity.
Qed.

Lemma check_keys_complete pk sk skb modulus c (P0 P1 P2 S0 S1 : F) : Inv c ->
  length skb = 32%nat -> length modulus = 32%nat -> Forall (fun b => b < 256)%N skb -> Forall (fun b => b < 256)%N modulus ->
  get_secret_key_scalars F skb = Ok (S0, S1) -> (le_value skb < le_value modulus)%N ->
  (let '(p0, p1, p2) := pk in has F c p0 P0 /\ has F c p1 P1 /\ has F c p2 P2) ->
  (toZ P0 < 2 ^ 248)%Z -> (toZ P1 < 2 ^ 248)%Z -> (toZ P2 < 2 ^ 16)%Z ->
  has F c (fst sk) S0 -> has F c (snd sk) S1 ->
  ha F (check_keys F pk sk skb modulus) c (fun _ _ => True).
Proof.
  intros HI L1 L2 HB HM ES HL HP R0 R1 R2 K0 K1. destruct pk as [[p0 p1] p2]. destruct HP as [H0 [H1 H2]]. unfold check_keys.
  destruct (secret_scalars_value skb _ L1 HB ES) as [V0 [V1 [Z0 [Z1 [B0 [B1 EV]]]]]]. cbn [fst snd] in *.
  eapply hb; [apply (ha_range_check F c p0 248 P0 HI); [lia|exact H0|exact R0]|]. intros b0 c1 I1 E1 _.
  eapply hb; [apply (ha_range_check F c1 p1 248 P1 I1); [lia|exact (has_mono F _ _ _ _ E1 H1)|exact R1]|]. intros b1 c2 I2 E2 _.
  eapply hb; [apply (ha_range_check F c2 p2 16 P2 I2); [lia|exact (has_mono F _ _ _ _ E2 (has_mono F _ _ _ _ E1 H2))|exact R2]|]. intros b2 c3 I3 E3 _.
  pose proof (has_mono F _ _ _ _ E3 (has_mono F _ _ _ _ E2 (has_mono F _ _ _ _ E1 K0))) as K03.
  pose proof (has_mono F _ _ _ _ E3 (has_mono F _ _ _ _ E2 (has_mono F _ _ _ _ E1 K1))) as K13.
  eapply hb; [apply (ha_range_check F c3 (fst sk) 248 S0 I3); [lia|exact K03|exact B0]|]. intros d0 c4 I4 E4 D0.
  eapply hb; [apply (ha_range_check F c4 (snd sk) 8 S1 I4); [lia|exact (has_mono F _ _ _ _ E4 K13)|exact B1]|]. intros d1 c5 I5 E5 D1.
  apply has_bits in D0. apply has_bits in D1.
  assert (D0' : Forall2 (fun v x => has F c5 v (b2f F x)) d0 (tbits (toZ S0) 248)).
  { revert D0. clear -E5. generalize (tbits (toZ S0) 248). intros l. induction 1; constructor; [now apply (has_mono F _ _ _ _ E5)|assumption]. }
  assert (EB : bits_of_bytes skb = tbits (toZ S0) 248 ++ tbits (toZ S1) 8).
  { rewrite <- (firstn_skipn 31 skb). unfold bits_of_bytes. rewrite flat_map_app. fold (bits_of_bytes (firstn 31 skb)). fold (bits_of_bytes (skipn 31 skb)).
    rewrite (bytes_tbits _ (firstn_F _ 31 _ HB) 31) by (rewrite firstn_length; lia).
    rewrite (bytes_tbits _ (skipn_F _ 31 _ HB) 1) by (rewrite skipn_length; lia). now rewrite Z0, Z1. }
  pose proof (f2len _ _ _ D0') as LD0. pose proof (f2len _ _ _ D1) as LD1. rewrite tbits_len in LD0, LD1.
  eapply hb; [apply (ha_compare_bits F c5 (d0 ++ d1) (bits_of_bytes skb) (bits_of_bytes modulus) I5)|].
  - rewrite bits_of_bytes_len, app_length. lia.
  - rewrite EB. now apply Forall2_app.
  - rewrite !bytes_bits by assumption. lia.
  - intros u c6 I6 E6 _. now apply hr.
Qed.

(** ** Nullifiers *)
Definition null_inputs (H : F -> F -> F -> F -> F) (pk : F * F * F) (sk : F * F) (x t : F) : list (F * F * F * F) :=
  let '(p0, p1, p2) := pk in [(x, t, p0, p1); (H x t p0 p1, p2, fst sk, snd sk)].
Lemma nullifier_binding (H : F -> F -> F -> F -> F) pk sk x t pk' sk' x' t' :
  (let '(p0, p1, p2) := pk in H (H x t p0 p1) p2 (fst sk) (snd sk)) =
  (let '(p0, p1, p2) := pk' in H (H x' t' p0 p1) p2 (fst sk') (snd sk')) ->
  (pk = pk' /\ sk = sk' /\ x = x' /\ t = t') \/
  Exists (collide F H) (combine (null_inputs H pk sk x t) (null_inputs H pk' sk' x' t')).
Proof.
  destruct pk as [[p0 p1] p2], pk' as [[p0' p1'] p2'], sk as [s0 s1], sk' as [s0' s1']. cbn [fst snd null_inputs combine]. intros E.
  destruct (in4_dec F (H x t p0 p1, p2, s0, s1) (H x' t' p0' p1', p2', s0', s1')) as [e|n].
  - destruct (in4_dec F (x, t, p0, p1) (x', t', p0', p1')) as [e'|n]; [inversion e'; inversion e; subst; auto 6|]. right. left. split; [exact n|]. cbn. congruence.
  - right. right. left. split; [exact n|exact E].
Qed.
Lemma uid_amount_inj u a u' a' : (u < 2 ^ 64)%N -> (a < 2 ^ 64)%N -> (u' < 2 ^ 64)%N -> (a' < 2 ^ 64)%N ->
  fofN u * fofZ (2 ^ 64) + fofN a = (fofN u' * fofZ (2 ^ 64) + fofN a' : F) -> u = u' /\ a = a'.
Proof.
  intros H1 H2 H3 H4 E. unfold fofN in E. rewrite <- !fofZ_mul, <- !fofZ_add in E.
  apply (f_equal toZ) in E. assert (T : (2 ^ 128 < 2 ^ 254)%Z) by reflexivity.
  change (2 ^ 128)%Z with (2 ^ 64 * 2 ^ 64)%Z in T. change (2 ^ 64)%N with (Z.to_N (2 ^ 64)) in *.
  set (B := (2 ^ 64)%Z) in *. assert (HB : (0 < B)%Z) by reflexivity.
  rewrite !toZ_small in E by nia. nia.
Qed.
End L.
