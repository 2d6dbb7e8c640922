(** Address folding: honest runs of the whole gadget and what it publishes. *)
From Coq Require Import List ZArith NArith Bool Lia ZifyBool ZifyNat ZifyN Field.
From Verif Require Import Base Field PField UtilsModel TurboModel TurboSpec TurboProofs TurboHonest TurboKit TurboEmit Power RescueModel RescueSpec RescueProofs
  MixModel MixLemmas AxfrModel AxfrProofs AxfrHonest FoldModel FoldProofs FoldLemmas SimModel SimSpec SimProofs SimZero SimCircuit SimHonest SimAlloc
  NoteProofs AfoldModel AfoldEmit AfoldProofs AfoldHonest.
Import ListNotations.
Local Open Scope Z_scope.

(** ** Bits *)
Lemma tbits_mod z n k : (n <= k)%nat -> tbits (z mod 2 ^ Z.of_nat k) n = tbits z n.
Proof.
  intros H. unfold tbits. apply map_ext_in. intros i Hi. apply in_seq in Hi. apply Z.mod_pow2_bits_low. lia.
Qed.
Lemma tbits_split z n m : tbits z (n + m) = tbits z n ++ tbits (z / 2 ^ Z.of_nat n) m.
Proof.
  unfold tbits. rewrite seq_app, map_app, Nat.add_0_l. f_equal. replace (seq n m) with (map (fun i => i + n)%nat (seq 0 m)).
  - rewrite map_map. apply map_ext. intros i. rewrite Z.div_pow2_bits by lia. f_equal. lia.
  - apply (nth_ext _ _ 0%nat 0%nat); [now rewrite map_length, !seq_length|]. intros i Hi. rewrite map_length, seq_length in Hi.
    rewrite (nth_indep _ 0%nat (0 + n)%nat) by (rewrite map_length, seq_length; exact Hi). rewrite (map_nth (fun i => i + n)%nat (seq 0 m) 0%nat i), !seq_nth by exact Hi. lia.
Qed.
Lemma tbits_parts z0 z1 z2 : 0 <= z0 < 2 ^ 248 -> 0 <= z1 < 2 ^ 248 ->
  tbits (z0 + 2 ^ 248 * (z1 + 2 ^ 248 * z2)) 512 = tbits z0 248 ++ tbits z1 248 ++ tbits z2 16.
Proof.
  intros H0 H1. change 512%nat with (248 + (248 + 16))%nat. rewrite !tbits_split. change (Z.of_nat 248) with 248.
  rewrite (Z.mul_comm (2 ^ 248) (_ + _)), Z.div_add, (Z.div_small z0), Z.add_0_l by lia.
  rewrite (Z.mul_comm (2 ^ 248) z2), Z.div_add, (Z.div_small z1), Z.add_0_l by lia.
  rewrite <- (tbits_mod _ 248 248 (le_n _)), <- (tbits_mod (z1 + _) 248 248 (le_n _)). change (Z.of_nat 248) with 248.
  now rewrite !Z_mod_plus_full, !Z.mod_small.
Qed.
Lemma tbits_two x y : 0 <= x < 2 ^ 256 -> tbits (x + 2 ^ 256 * y) 512 = tbits x 256 ++ tbits y 256.
Proof.
  intros H. change 512%nat with (256 + 256)%nat. rewrite tbits_split. change (Z.of_nat 256) with 256.
  rewrite (Z.mul_comm (2 ^ 256) y), Z.div_add, (Z.div_small x), Z.add_0_l by lia.
  rewrite <- (tbits_mod _ 256 256 (le_n _)). change (Z.of_nat 256) with 256. now rewrite Z_mod_plus_full, Z.mod_small.
Qed.

Section Run.
Context (F K : PField) (Hp : 2 ^ 254 < pchar F) (P : rescue_instance F) (HP : rescue_ok F P) (e : N) (He : exp_inv F 5 e).
Context (HK : pchar K = modulus secq256k1).
Add Field Fafr : (f_th F).
Local Open Scope F_scope.
Notation S := secq256k1.
Notation har := (har F).
Notation has := (has F).
Notation ha := (ha F).
Notation all c vs xs := (Forall2 (has c) vs xs).
Notation allb c vs bs := (Forall2 (fun v b => has c v (b2f F b)) vs bs).
Notation hon := (hon F). Notation rtot := (rtot F). Notation six := (six F). Notation sta := (sta F).
Let Hp' : (2 ^ 254 <= pchar F)%Z. Proof. lia. Qed.
Let HS : facts S. Proof. apply valid_facts. now right. Qed.
Implicit Types (c : tcs F).

Lemma allb_mono c c' vs bs : extends c c' -> allb c vs bs -> allb c' vs bs.
Proof. intros X. induction 1; constructor; [now apply (has_mono F _ _ _ _ X)|assumption]. Qed.
Lemma hr_both {A} (m : CR F A) c Q1 Q2 : har m c Q1 -> har m c Q2 -> har m c (fun a c' => Q1 a c' /\ Q2 a c').
Proof. intros (a & c1 & E & H1 & H2 & H3) (a' & c1' & E' & _ & _ & H3'). rewrite E in E'. apply Ok_inj in E'. injection E' as <- <-. exists a, c1. auto 6. Qed.

Lemma digit_small z : (0 <= z < 2 ^ 44)%Z -> toZ (fofZ z : F) = z.
Proof. intros H. apply toZ_small. assert (2 ^ 44 < 2 ^ 254)%Z by reflexivity. lia. Qed.
Lemma limb_bits x : (0 <= x < 2 ^ 256)%Z -> flat_map (fun i => tbits (toZ (nth i (limbs (sim_from F S x)) 0)) (width S i)) (seq 0 6) = tbits x 256.
Proof.
  intros Hx. cbn [seq flat_map sim_from limbs digits NUM_OF_LIMBS nth]. change (step S) with (2 ^ 44)%Z.
  change (width S 0) with 44%nat. change (width S 1) with 44%nat. change (width S 2) with 44%nat. change (width S 3) with 44%nat. change (width S 4) with 44%nat. change (width S 5) with 36%nat.
  assert (G : forall z, (0 <= z mod 2 ^ 44 < 2 ^ 44)%Z) by (intros; apply Z.mod_pos_bound; reflexivity).
  rewrite !digit_small by apply G. change (2 ^ 44)%Z with (2 ^ Z.of_nat 44)%Z. rewrite !tbits_mod by lia. rewrite app_nil_r.
  change 256%nat with (44 + (44 + (44 + (44 + (44 + 36)))))%nat. now rewrite !tbits_split.
Qed.
Lemma h_alloc_bits x c : (0 <= x < 2 ^ 256)%Z -> Inv c -> har (alloc_witness S (sim_from F S x)) c (fun ob c' => allb c' (snd ob) (tbits x 256)).
Proof.
  intros Hx HI. assert (HV : valid S) by now right. unfold alloc_witness. eapply hr_bind; [apply hr_require; [exact HI|reflexivity]|].
  intros _ c1 I1 X1 _. apply hr_lift. set (v := sim_from F S x) in *.
  eapply hb.
  { apply (ha_mapM2 F _ (fun c i p => allb c (snd p) (tbits (toZ (nth i (limbs v) 0)) (width S i)))); [|exact I1|].
    - intros c2 c3 i p X H. eapply allb_mono; eassumption.
    - intros i c2 Hi I2. apply in_seq in Hi. eapply hb; [apply ha_new, I2|]. intros o c3 I3 X3 H3.
      eapply hb; [apply (ha_range_check F c3 o _ (nth i (limbs v) 0) I3); [apply width_ok, HV|exact H3|apply (from_nth F Hp'); auto; unfold NUM_OF_LIMBS in *; lia]|].
      intros b c4 I4 X4 H4. apply hr; [exact I4|]. cbn [snd]. now apply has_bits. }
  intros l c2 I2 X2 H. apply hr; [exact I2|]. cbn [fst snd]. rewrite <- (limb_bits x Hx). unfold NUM_OF_LIMBS in H. fold v.
  revert H. generalize (seq 0 6). intros s H. induction H as [|i p s l H _ IH]; cbn [flat_map]; [constructor|]. now apply Forall2_app.
Qed.
Lemma h_witness x c : (0 <= x < 2 ^ 256)%Z -> Inv c ->
  har (alloc_witness S (sim_from F S x)) c (fun ob c' => hon c' (fst ob) x ByOne /\ allb c' (snd ob) (tbits x 256) /\
    sv (fst ob) = mkSim (limbs (sim_from F S x)) x ByOne /\ length (snd ob) = 256%nat).
Proof.
  intros Hx HI. eapply hr_weak.
  - apply hr_both; [eapply hr_stat; [exact (tt_alloc_witness F (sim_from F S x) eq_refl)|exact (h_alloc_bits x c Hx HI)]|].
    apply (alloc_witness_ha F Hp' S x c); [now right|exact Hx|exact HI].
  - intros ob c' _ _ [[(E & _ & L) H1] (H2 & H3 & H4)]. split; [split; [exact H2|split; assumption]|]. auto.
Qed.
Lemma sim_of_eq (x : K) : sim_of F K x = sim_from F S (toZ x). Proof. reflexivity. Qed.
Lemma range256 (x : K) : (0 <= toZ x < 2 ^ 256)%Z.
Proof. pose proof (toZ_range K x) as H. rewrite HK in H. assert (modulus S < 2 ^ 256)%Z by reflexivity. lia. Qed.
Lemma h_input (x : K) c : Inv c -> har (lift (alloc_input (sim_of F K x))) c (fun o c' => hon c' o (toZ x) Strict /\ sv o = sim_of F K x).
Proof.
  intros HI. pose proof (from_represents F Hp' S (toZ x) HS (of_range K HK x)) as R. apply hr_lift.
  eapply hw; [apply (alloc_input_ha F S (sim_of F K x)); [exact R|exact HI]|]. intros o c' _ _ [H1 H2].
  split; [|exact H2]. split; [exact H1|]. split; rewrite H2; [exact R|reflexivity].
Qed.

(** ** Keys *)
Lemma h_check_keys pk sk skb c (P0 P1 P2 S0 S1 : F) : Inv c ->
  length skb = 32%nat -> Forall (fun b => b < 256)%N skb -> get_secret_key_scalars F skb = Ok (S0, S1) -> (le_value skb < le_value secp256k1_order_bytes)%N ->
  (let '(p0, p1, p2) := pk in has c p0 P0 /\ has c p1 P1 /\ has c p2 P2) ->
  (toZ P0 < 2 ^ 248)%Z -> (toZ P1 < 2 ^ 248)%Z -> (toZ P2 < 2 ^ 16)%Z -> has c (fst sk) S0 -> has c (snd sk) S1 ->
  ha (check_keys F pk sk skb secp256k1_order_bytes) c (fun kb c' =>
    allb c' (fst kb) (tbits (toZ P0) 248 ++ tbits (toZ P1) 248 ++ tbits (toZ P2) 16) /\ allb c' (snd kb) (tbits (Z.of_N (le_value skb)) 256)).
Proof.
  intros HI L1 HB ES HL HPk R0 R1 R2 K0 K1. destruct pk as [[p0 p1] p2]. destruct HPk as [H0 [H1 H2]]. unfold check_keys.
  destruct (secret_scalars_value F Hp skb _ L1 HB ES) as [V0 [V1 [Z0 [Z1 [B0 [B1 EV]]]]]]. cbn [fst snd] in *.
  eapply hb; [apply (ha_range_check F c p0 248 P0 HI); [lia|exact H0|exact R0]|]. intros b0 c1 I1 E1 D00. apply has_bits in D00.
  eapply hb; [apply (ha_range_check F c1 p1 248 P1 I1); [lia|exact (has_mono F _ _ _ _ E1 H1)|exact R1]|]. intros b1 c2 I2 E2 D01. apply has_bits in D01.
  eapply hb; [apply (ha_range_check F c2 p2 16 P2 I2); [lia|exact (has_mono F _ _ _ _ E2 (has_mono F _ _ _ _ E1 H2))|exact R2]|]. intros b2 c3 I3 E3 D02. apply has_bits in D02.
  pose proof (has_mono F _ _ _ _ E3 (has_mono F _ _ _ _ E2 (has_mono F _ _ _ _ E1 K0))) as K03.
  pose proof (has_mono F _ _ _ _ E3 (has_mono F _ _ _ _ E2 (has_mono F _ _ _ _ E1 K1))) as K13.
  eapply hb; [apply (ha_range_check F c3 (fst sk) 248 S0 I3); [lia|exact K03|exact B0]|]. intros d0 c4 I4 E4 D0.
  eapply hb; [apply (ha_range_check F c4 (snd sk) 8 S1 I4); [lia|exact (has_mono F _ _ _ _ E4 K13)|exact B1]|]. intros d1 c5 I5 E5 D1.
  apply has_bits in D0. apply has_bits in D1. apply (allb_mono _ _ _ _ E5) in D0.
  assert (EB : bits_of_bytes skb = tbits (toZ S0) 248 ++ tbits (toZ S1) 8).
  { rewrite <- (firstn_skipn 31 skb). unfold bits_of_bytes. rewrite flat_map_app. fold (bits_of_bytes (firstn 31 skb)). fold (bits_of_bytes (skipn 31 skb)).
    rewrite (bytes_tbits _ (firstn_F _ 31 _ HB) 31) by (rewrite firstn_length; lia).
    rewrite (bytes_tbits _ (skipn_F _ 31 _ HB) 1) by (rewrite skipn_length; lia). now rewrite Z0, Z1. }
  pose proof (f2len _ _ _ D0) as LD0. pose proof (f2len _ _ _ D1) as LD1. rewrite tbits_len in LD0, LD1.
  assert (DD : allb c5 (d0 ++ d1) (bits_of_bytes skb)) by (rewrite EB; now apply Forall2_app).
  assert (HM : Forall (fun b => b < 256)%N secp256k1_order_bytes) by (repeat constructor).
  eapply hb; [apply (ha_compare_bits F c5 (d0 ++ d1) (bits_of_bytes skb) (bits_of_bytes secp256k1_order_bytes) I5)|].
  - rewrite bits_of_bytes_len, app_length. cbn [length secp256k1_order_bytes]. lia.
  - exact DD.
  - rewrite !bytes_bits by assumption. lia.
  - intros u c6 I6 E6 _. apply hr; [exact I6|]. cbn [fst snd]. split.
    + pose proof (extends_trans F _ _ _ E4 (extends_trans F _ _ _ E5 E6)) as X3. pose proof (extends_trans F _ _ _ E3 X3) as X2. pose proof (extends_trans F _ _ _ E2 X2) as X1.
      apply Forall2_app; [exact (allb_mono _ _ _ _ X1 D00)|]. apply Forall2_app; [exact (allb_mono _ _ _ _ X2 D01)|exact (allb_mono _ _ _ _ X3 D02)].
    + change 256%nat with (8 * 32)%nat. rewrite <- (bytes_tbits skb HB 32 L1). eapply allb_mono; eassumption.
Qed.
Lemma h_equal_all c l r bs : Inv c -> allb c l bs -> allb c r bs -> ha (equal_all F l r) c (fun _ _ => True).
Proof.
  intros HI Hl Hr. unfold equal_all. apply (hb F _ _ _ (fun _ _ => True)); [|intros u c1 I1 _ _; apply hr; [exact I1|exact I]].
  revert r bs c HI Hl Hr. induction l as [|a l IH]; intros r bs c HI Hl Hr.
  - cbn [combine RescueModel.mapM]. now apply hr.
  - inversion Hl; subst. inversion Hr; subst. cbn [combine RescueModel.mapM fst snd]. eapply hb; [eapply ha_equal; eassumption|]. intros u c1 I1 X1 _.
    eapply hb; [eapply IH; [exact I1|eapply allb_mono; eassumption|eapply allb_mono; eassumption]|]. intros os c2 I2 _ _. now apply hr.
Qed.

(** The coordinates and secret key of a witness, and the conditions under which its
    builder runs. *)
Definition key_ok (w : fold_witness F K) : Prop :=
  length (fw_sk w) = 32%nat /\ Forall (fun b => b < 256)%N (fw_sk w) /\ (le_value (fw_sk w) < le_value secp256k1_order_bytes)%N.
Definition ssk (w : fold_witness F K) : Z := Z.of_N (le_value (fw_sk w)).
Lemma ssk_range w : key_ok w -> (0 <= ssk w < 2 ^ 256)%Z.
Proof.
  intros (_ & _ & H). unfold ssk. assert (Z.of_N (le_value secp256k1_order_bytes) < 2 ^ 256)%Z by reflexivity. lia.
Qed.
Lemma len_bits w : key_ok w -> Nat.eqb (length (bits_of_bytes (fw_sk w))) (length (bits_of_bytes secp256k1_order_bytes)) = true.
Proof. intros (L & _). rewrite !bits_of_bytes_len, L. reflexivity. Qed.
Definition wsta (v : simvar F) (x : Z) : Prop := sv v = mkSim (limbs (sim_from F S x)) x ByOne /\ six v.
Lemma represents_wit x : (0 <= x < 2 ^ 256)%Z -> represents S (mkSim (limbs (sim_from F S x)) x ByOne) x.
Proof.
  intros Hx. destruct (from_ok F Hp' S x HS) as [(L & O & _) N]; [change (st S * st S * st S * st S * st S * tp S)%Z with (2 ^ 256)%Z; exact Hx|].
  split; [split; [exact L|split; [exact O|exact I]]|]. split; [exact N|]. split; [reflexivity|]. cbn [red additions].
  assert (2 ^ 256 < 2 * modulus S)%Z by reflexivity. lia.
Qed.
Lemma wsta_sta v x : (0 <= x < 2 ^ 256)%Z -> wsta v x -> sta v x ByOne.
Proof. intros Hx [E _]. split; rewrite E; [now apply represents_wit|reflexivity]. Qed.
Lemma tt_weak {A} (m : CR F A) (Q Q' : A -> Prop) : rtot m Q -> (forall a, Q a -> Q' a) -> rtot m Q'.
Proof. intros H G c. destruct (H c) as (a & c' & E & H1). eauto. Qed.
Lemma tt_witness x : rtot (alloc_witness S (sim_from F S x)) (fun ob => wsta (fst ob) x /\ length (snd ob) = 256%nat).
Proof. eapply tt_weak; [apply (tt_alloc_witness F (sim_from F S x) eq_refl)|]. intros ob (H1 & H2 & H3). repeat split; assumption. Qed.
Lemma tt_any {A} (m : CS F A) : rtot (lift m) (fun _ => True).
Proof. apply tt_lift. auto. Qed.
Lemma tt_link pk sk w : key_ok w ->
  rtot (link_keys F K pk sk w) (fun k => wsta (fst (fst k)) (toZ (fw_x w)) /\ wsta (snd (fst k)) (toZ (fw_y w)) /\ wsta (snd k) (ssk w)).
Proof.
  intros Hk. unfold link_keys. rewrite !sim_of_eq. fold (ssk w). eapply tt_bind; [apply tt_require, len_bits, Hk|]. intros _ _.
  eapply tt_bind; [apply tt_check_keys|]. intros kb [L1 L2]. eapply tt_bind; [apply tt_witness|]. intros x [X1 X2].
  eapply tt_bind; [apply tt_witness|]. intros y [Y1 Y2]. eapply tt_bind; [apply tt_witness|]. intros s [S1 S2].
  eapply tt_bind; [apply tt_require; rewrite app_length, X2, Y2, L1; reflexivity|]. intros _ _.
  eapply tt_bind; [apply tt_require; rewrite S2, L2; reflexivity|]. intros _ _.
  eapply tt_bind; [apply tt_any|]. intros _ _. eapply tt_bind; [apply tt_any|]. intros _ _. apply tt_ret. cbn [fst snd]. auto.
Qed.
Lemma h_link pk sk w c (P0 P1 P2 S0 S1 : F) : key_ok w -> Inv c -> get_secret_key_scalars F (fw_sk w) = Ok (S0, S1) ->
  (let '(p0, p1, p2) := pk in has c p0 P0 /\ has c p1 P1 /\ has c p2 P2) ->
  (toZ P0 < 2 ^ 248)%Z -> (toZ P1 < 2 ^ 248)%Z -> (toZ P2 < 2 ^ 16)%Z -> has c (fst sk) S0 -> has c (snd sk) S1 ->
  (toZ P0 + 2 ^ 248 * (toZ P1 + 2 ^ 248 * toZ P2) = toZ (fw_x w) + 2 ^ 256 * toZ (fw_y w))%Z ->
  har (link_keys F K pk sk w) c (fun k c' =>
    hon c' (fst (fst k)) (toZ (fw_x w)) ByOne /\ hon c' (snd (fst k)) (toZ (fw_y w)) ByOne /\ hon c' (snd k) (ssk w) ByOne).
Proof.
  intros Hk HI ES HPk R0 R1 R2 K0 K1 EP. pose proof Hk as (L1 & HB & HL).
  pose proof (range256 (fw_x w)) as Rx. pose proof (range256 (fw_y w)) as Ry. pose proof (ssk_range w Hk) as Rs.
  unfold link_keys. rewrite !sim_of_eq. fold (ssk w). eapply hr_bind; [apply hr_require; [exact HI|apply len_bits, Hk]|]. intros _ c0 I0 X0 _.
  eapply hr_bind; [eapply hr_stat; [apply tt_check_keys|apply hr_lift, (h_check_keys pk sk (fw_sk w) c0 P0 P1 P2 S0 S1 I0 L1 HB ES HL)]; try assumption|].
  { destruct pk as [[p0 p1] p2]. destruct HPk as (A1 & A2 & A3). split; [exact (has_mono F _ _ _ _ X0 A1)|]. split; [exact (has_mono F _ _ _ _ X0 A2)|exact (has_mono F _ _ _ _ X0 A3)]. }
  { exact (has_mono F _ _ _ _ X0 K0). } { exact (has_mono F _ _ _ _ X0 K1). }
  intros kb c1 I1 X1 [[LB1 LB2] [B1 B2]]. rewrite <- tbits_parts in B1 by (split; [apply toZ_range|assumption]). rewrite EP, tbits_two in B1 by exact Rx. fold (ssk w) in B2.
  eapply hr_bind; [apply h_witness; assumption|]. intros x c2 I2 X2 (Hx & Bx & _ & LX). eapply hr_bind; [apply h_witness; assumption|]. intros y c3 I3 X3 (Hy & By & _ & LY).
  eapply hr_bind; [apply h_witness; assumption|]. intros s c4 I4 X4 (Hs & Bs & _ & LS).
  eapply hr_bind; [apply hr_require; [exact I4|]; rewrite app_length, LX, LY, LB1; reflexivity|]. intros _ c5 I5 X5 _.
  eapply hr_bind; [apply hr_require; [exact I5|]; rewrite LS, LB2; reflexivity|]. intros _ c6 I6 X6 _.
  pose proof (extends_trans F _ _ _ X5 X6) as X46. pose proof (extends_trans F _ _ _ X4 X46) as X36. pose proof (extends_trans F _ _ _ X3 X36) as X26. pose proof (extends_trans F _ _ _ X2 X26) as X16.
  eapply hr_bind; [apply hr_lift; eapply (h_equal_all c6 _ _ (tbits (toZ (fw_x w)) 256 ++ tbits (toZ (fw_y w)) 256)); [exact I6| |exact (allb_mono _ _ _ _ X16 B1)]|].
  { apply Forall2_app; [exact (allb_mono _ _ _ _ X26 Bx)|exact (allb_mono _ _ _ _ X36 By)]. }
  intros _ c7 I7 X7 _.
  eapply hr_bind; [apply hr_lift; eapply (h_equal_all c7 _ _ (tbits (ssk w) 256)); [exact I7|exact (allb_mono _ _ _ _ (extends_trans F _ _ _ X46 X7) Bs)|exact (allb_mono _ _ _ _ (extends_trans F _ _ _ X16 X7) B2)]|].
  intros _ c8 I8 X8 _. pose proof (extends_trans F _ _ _ X7 X8) as X68. apply hr_ret; [exact I8|]. cbn [fst snd].
  split; [exact (hon_mono F _ _ _ _ _ (extends_trans F _ _ _ X26 X68) Hx)|]. split; [exact (hon_mono F _ _ _ _ _ (extends_trans F _ _ _ X36 X68) Hy)|exact (hon_mono F _ _ _ _ _ (extends_trans F _ _ _ X46 X68) Hs)].
Qed.

(** ** Allocations of the equation *)
Definition ista (v : simvar F) (x : K) : Prop := sv v = sim_of F K x /\ six v.
Lemma ista_sta v x : ista v x -> sta v (toZ x) Strict.
Proof. intros [E _]. split; rewrite E; [exact (from_represents F Hp' S (toZ x) HS (of_range K HK x))|reflexivity]. Qed.
Lemma tt_input x : rtot (lift (alloc_input (sim_of F K x))) (fun o => ista o x).
Proof. apply (tt_alloc_input F). Qed.
Lemma tt_schnorr_alloc rx ry rs resp beta lambda : rtot (alloc_schnorr F K rx ry rs resp beta lambda) (fun v =>
  ista (v_l1 F v) lambda /\ ista (v_l2 F v) (lambda * lambda) /\ ista (v_b0 F v) (1 * beta) /\ ista (v_b1 F v) (lambda * beta) /\ ista (v_b2 F v) (lambda * lambda * beta) /\
  wsta (v_rx F v) (toZ rx) /\ wsta (v_ry F v) (toZ ry) /\ wsta (v_rs F v) (toZ rs) /\ ista (v_resp F v) resp).
Proof.
  unfold alloc_schnorr. do 5 (eapply tt_bind; [apply tt_input|]; intros ? ?). rewrite !(sim_of_eq rx), !(sim_of_eq ry), !(sim_of_eq rs).
  do 3 (eapply tt_bind; [apply tt_witness|]; intros ? [? _]). eapply tt_bind; [apply tt_input|]; intros ? ?. apply tt_ret. cbn. auto 12.
Qed.
Lemma h_schnorr_alloc rx ry rs resp beta lambda c : Inv c -> har (alloc_schnorr F K rx ry rs resp beta lambda) c (fun v c' =>
  hon c' (v_l1 F v) (toZ lambda) Strict /\ hon c' (v_l2 F v) (toZ (lambda * lambda)) Strict /\ hon c' (v_b0 F v) (toZ (1 * beta)) Strict /\
  hon c' (v_b1 F v) (toZ (lambda * beta)) Strict /\ hon c' (v_b2 F v) (toZ (lambda * lambda * beta)) Strict /\
  hon c' (v_rx F v) (toZ rx) ByOne /\ hon c' (v_ry F v) (toZ ry) ByOne /\ hon c' (v_rs F v) (toZ rs) ByOne /\ hon c' (v_resp F v) (toZ resp) Strict).
Proof.
  intros HI. unfold alloc_schnorr.
  Ltac up X := repeat match goal with H : AfoldHonest.hon _ _ _ _ _ |- _ => first [apply (hon_mono F _ _ _ _ _ X) in H] end.
  eapply hr_bind; [apply h_input, HI|]. intros l1 c1 I1 X1 [A1 _]. eapply hr_bind; [apply h_input, I1|]. intros l2 c2 I2 X2 [A2 _]. apply (hon_mono F _ _ _ _ _ X2) in A1.
  eapply hr_bind; [apply h_input, I2|]. intros b0 c3 I3 X3 [A3 _]. apply (hon_mono F _ _ _ _ _ X3) in A1, A2.
  eapply hr_bind; [apply h_input, I3|]. intros b1 c4 I4 X4 [A4 _]. apply (hon_mono F _ _ _ _ _ X4) in A1, A2, A3.
  eapply hr_bind; [apply h_input, I4|]. intros b2 c5 I5 X5 [A5 _]. apply (hon_mono F _ _ _ _ _ X5) in A1, A2, A3, A4.
  rewrite !(sim_of_eq rx), !(sim_of_eq ry), !(sim_of_eq rs).
  eapply hr_bind; [apply h_witness; [apply range256|exact I5]|]. intros vx c6 I6 X6 (A6 & _). apply (hon_mono F _ _ _ _ _ X6) in A1, A2, A3, A4, A5.
  eapply hr_bind; [apply h_witness; [apply range256|exact I6]|]. intros vy c7 I7 X7 (A7 & _). apply (hon_mono F _ _ _ _ _ X7) in A1, A2, A3, A4, A5, A6.
  eapply hr_bind; [apply h_witness; [apply range256|exact I7]|]. intros vs c8 I8 X8 (A8 & _). apply (hon_mono F _ _ _ _ _ X8) in A1, A2, A3, A4, A5, A6, A7.
  eapply hr_bind; [apply h_input, I8|]. intros vr c9 I9 X9 [A9 _]. apply (hon_mono F _ _ _ _ _ X9) in A1, A2, A3, A4, A5, A6, A7, A8.
  apply hr_ret; [exact I9|]. cbn. auto 12.
Qed.

(** ** The commitment *)
Lemma h_chunk l xs c : (1 <= length l <= 5)%nat -> Inv c -> all c l xs -> ha (compress_chunk F l) c (fun o c' => has c' o (fofZ (packed F xs))).
Proof.
  intros HL HI H. unfold compress_chunk. pose proof (has_zero F c HI) as Z0.
  assert (G : forall i, has c (nth i l zero_var) (nth i xs 0)).
  { intros i. destruct (Nat.lt_ge_cases i (length l)) as [Hi|Hi].
    - revert i Hi. clear -H. induction H; intros i Hi; [cbn in Hi; lia|]. destruct i; cbn [nth]; [assumption|]. apply IHForall2. cbn in Hi. lia.
    - rewrite !nth_overflow; [exact Z0|rewrite <- (f2len _ _ _ H); exact Hi|exact Hi]. }
  eapply hb; [apply (ha_linear_combine F c); [exact HI|apply G..]|]. intros sum c1 I1 X1 Hs. pose proof (f2len _ _ _ H) as L.
  destruct (Nat.eqb_spec (length l) 5) as [E5|E5].
  - eapply hw; [apply (ha_linear_combine F c1); [exact I1|exact Hs|exact (has_mono F _ _ _ _ X1 (G 4%nat))|exact (has_zero F c1 I1)|exact (has_zero F c1 I1)]|].
    intros o c2 _ _ Ho. replace (fofZ (packed F xs)) with
      (1 * (1 * nth 0 xs 0 + step_pow F 1 * nth 1 xs 0 + step_pow F 2 * nth 2 xs 0 + step_pow F 3 * nth 3 xs 0) + step_pow F 4 * nth 4 xs 0 + 0 * 0 + 0 * 0); [exact Ho|].
    rewrite packed_F. rewrite E5 in L. do 5 (destruct xs as [|? xs]; [discriminate L|]). destruct xs; [|discriminate L]. cbn [fold_right nth]. rewrite (step_mul F 3), (step_mul F 2), (step_mul F 1). ring.
  - apply hr; [exact I1|]. replace (fofZ (packed F xs)) with (1 * nth 0 xs 0 + step_pow F 1 * nth 1 xs 0 + step_pow F 2 * nth 2 xs 0 + step_pow F 3 * nth 3 xs 0); [exact Hs|].
    rewrite packed_F. rewrite L in *. destruct xs as [|? xs]; [cbn in HL; lia|].
    do 4 (destruct xs as [|? xs]; [cbn [fold_right nth]; rewrite ?(step_mul F 2), ?(step_mul F 1); ring|]). cbn in HL, E5. lia.
Qed.
Lemma chunks_all c n f : forall l xs, all c l xs -> Forall2 (fun ch ys => all c ch ys) (chunks_fuel f n l) (chunks_fuel f n xs).
Proof.
  induction f as [|f IH]; intros l xs H; cbn [chunks_fuel]; [constructor|]. destruct H as [|a x l xs Ha H]; [constructor|].
  assert (G : all c (a :: l) (x :: xs)) by now constructor. constructor; [|apply IH]; revert G; generalize (a :: l) (x :: xs); clear.
  - induction n as [|n IH]; intros l xs G; cbn [firstn]; [constructor|]. destruct G; constructor; auto.
  - induction n as [|n IH]; intros l xs G; cbn [skipn]; [exact G|]. destruct G; auto.
Qed.
Lemma h_compress l xs c : Inv c -> all c l xs -> ha (compress_cs F l) c (fun os c' => all c' os (compress F xs)).
Proof.
  intros HI H. unfold compress_cs, compress, chunks. rewrite <- (f2len _ _ _ H).
  pose proof (chunks_len num_limbs_compressed (length l) ltac:(unfold num_limbs_compressed; lia) l) as HC.
  pose proof (chunks_all c num_limbs_compressed (length l) l xs H) as HA. revert HC HA.
  generalize (chunks_fuel (length l) num_limbs_compressed l) (chunks_fuel (length l) num_limbs_compressed xs). clear H l xs.
  intros cs ys HC HA. revert c HI HA. revert ys. induction HC as [|ch cs Hch _ IH]; intros ys c HI HA; inversion HA as [|? y ? ys' H1 H2]; subst; cbn [RescueModel.mapM map].
  - apply hr; [exact HI|constructor].
  - eapply hb; [apply (h_chunk ch y c Hch HI H1)|]. intros o c1 I1 X1 Ho. eapply hb; [apply (IH ys' c1 I1)|].
    { clear -H2 X1. induction H2; constructor; [eapply all_mono; eassumption|assumption]. }
    intros os c2 I2 X2 Hos. apply hr; [exact I2|]. constructor; [exact (has_mono F _ _ _ _ X2 Ho)|exact Hos].
Qed.
Lemma h_absorb n : forall l xs h y c z, (length l <= n)%nat -> Inv c -> has c h y -> all c l xs -> absorb F P y xs = Ok z ->
  har (absorb_cs F P e h l) c (fun o c' => has c' o z).
Proof.
  induction n as [|n IH]; intros l xs h y c z Hn HI Hh H E.
  - destruct H; [|cbn in Hn; lia]. cbn in E. apply Ok_inj in E. subst z. now apply hr_ret.
  - destruct H as [|v1 x1 l xs K1 H]; [cbn in E; apply Ok_inj in E; subst z; now apply hr_ret|].
    destruct H as [|v2 x2 l xs K2 H]; [discriminate E|]. destruct H as [|v3 x3 l xs K3 H]; [discriminate E|]. cbn [absorb absorb_cs] in *.
    eapply hr_bind; [apply hr_lift, (ha_hash F P HP e He); eassumption|]. intros h' c1 I1 X1 Hh'.
    eapply IH; [cbn in Hn; lia|exact I1|exact Hh'|eapply all_mono; eassumption|exact E].
Qed.
Lemma h_sponge l xs c z : Inv c -> all c l xs -> sponge F P xs = Ok z -> har (sponge_cs F P e l) c (fun o c' => has c' o z).
Proof.
  intros HI H E. destruct H as [|v1 x1 l xs K1 H]; [discriminate E|]. destruct H as [|v2 x2 l xs K2 H]; [discriminate E|].
  destruct H as [|v3 x3 l xs K3 H]; [discriminate E|]. destruct H as [|v4 x4 l xs K4 H]; [discriminate E|]. cbn [sponge sponge_cs] in *.
  eapply hr_bind; [apply hr_lift, (ha_hash F P HP e He); eassumption|]. intros h c1 I1 X1 Hh.
  eapply h_absorb; [apply le_n|exact I1|exact Hh|eapply all_mono; eassumption|exact E].
Qed.
Lemma all_resized c l xs : Inv c -> all c l xs -> all c (resized zero_var l) (resized 0 xs).
Proof.
  intros HI H. unfold resized. rewrite <- (f2len _ _ _ H). apply Forall2_app; [exact H|].
  generalize ((length l - 1 + 2) / 3 * 3 + 1 - length l)%nat. induction n; cbn [repeat]; constructor; [exact (has_zero F c HI)|assumption].
Qed.
Lemma hon_limbs c v x r : hon c v x r -> slack r = 1%Z -> all c (svar v) (limbs (sim_from F S x)).
Proof.
  intros [H [(L & N & _) R]] Hs. rewrite <- N. replace (limbs (sim_from F S _)) with (limbs (sv v)); [exact H|]. symmetry. cbn [sim_from limbs].
  destruct L as (L1 & O & _). rewrite map_length in L1. apply digits_number; [exact L1|]. apply Forall_forall. intros z Hz. apply (In_nth _ _ 0) in Hz. destruct Hz as (i & Hi & <-).
  specialize (O i ltac:(lia)). rewrite nth_toZ in O. rewrite R, Hs in O. split; [apply O|]. eapply Z.lt_le_trans; [apply O|].
  rewrite Z.mul_1_l. unfold st. apply Z.pow_le_mono_r; [lia|]. unfold width. destruct (Nat.eqb _ _); cbn; lia.
Qed.
Lemma h_comm data rhos dz rz r z c : Inv c -> Forall2 (fun v x => hon c v x ByOne) (data ++ rhos) (dz ++ rz) -> inspection_comm F P dz rz r = Ok z ->
  har (check_comm F P e data rhos r z) c (fun o c' => has c' o z).
Proof.
  intros HI H E. unfold check_comm. unfold inspection_comm in E.
  assert (HL : all c (flat_map svar (data ++ rhos)) (flat_map (fun x => limbs (sim_from F S x)) (dz ++ rz))).
  { clear E. induction H as [|v x l xs Hv _ IH]; cbn [flat_map]; [constructor|]. apply Forall2_app; [now apply (hon_limbs c v x ByOne)|exact IH]. }
  eapply hr_bind; [apply hr_lift, (h_compress _ _ c HI HL)|]. intros cl c1 I1 X1 Hc. eapply hr_bind; [apply hr_lift, ha_new, I1|]. intros rv c2 I2 X2 Hr.
  eapply hr_bind; [apply hr_lift, ha_new, I2|]. intros cv c3 I3 X3 Hv.
  eapply hr_bind; [eapply h_sponge; [exact I3|apply all_resized; [exact I3|]|exact E]|].
  { apply Forall2_app; [eapply all_mono; [exact (extends_trans F _ _ _ X2 X3)|exact Hc]|]. constructor; [exact (has_mono F _ _ _ _ X3 Hr)|constructor]. }
  intros h c4 I4 X4 Hh. eapply hr_bind; [apply hr_lift; eapply (ha_equal F c4); [exact I4|exact (has_mono F _ _ _ _ X4 Hv)|exact Hh]|]. intros u c5 I5 X5 _.
  apply hr_ret; [exact I5|]. exact (has_mono F _ _ _ _ (extends_trans F _ _ _ X4 X5) Hv).
Qed.
Lemma compress_len l : length (chunks num_limbs_compressed l) = length (chunks num_limbs_compressed (map (fun _ : nat => tt) l)).
Proof. unfold chunks. now rewrite chunks_map, map_length, map_length. Qed.
Lemma tt_comm data rhos r z : length data = 3%nat -> length rhos = 3%nat -> Forall six (data ++ rhos) -> rtot (check_comm F P e data rhos r z) (fun _ => True).
Proof.
  intros L1 L2 H6. unfold check_comm.
  assert (HL : length (flat_map svar (data ++ rhos)) = 36%nat).
  { assert (L : length (data ++ rhos) = 6%nat) by (rewrite app_length; lia). revert L H6. generalize (data ++ rhos). intros l L H6.
    enough (G : length (flat_map svar l) = (6 * length l)%nat) by lia. clear L. induction H6 as [|v l Hv _ IH]; [reflexivity|]. cbn [flat_map length]. rewrite app_length, IH, Hv. lia. }
  eapply (tt_bind F _ _ (fun cl => length cl = 8%nat)).
  { apply tt_lift. intros c. unfold compress_cs. rewrite mapM_lenB, compress_len. revert HL. generalize (flat_map svar (data ++ rhos)). intros l HL.
    replace (map (fun _ : nat => tt) l) with (repeat tt 36); [reflexivity|]. rewrite <- HL. clear. induction l; cbn; congruence. }
  intros cl L8. eapply tt_bind; [apply tt_any|]. intros rv _. eapply tt_bind; [apply tt_any|]. intros cv _.
  eapply (tt_bind F _ _ (fun _ => True)); [|intros h _; eapply tt_bind; [apply tt_any|]; intros _ _; now apply tt_ret].
  do 8 (destruct cl as [|? cl]; [discriminate L8|]). destruct cl; [|discriminate L8]. cbn [app resized length repeat Nat.sub Nat.add Nat.mul Nat.div Nat.divmod fst].
  cbn [sponge_cs absorb_cs]. do 3 (eapply tt_bind; [apply tt_any|]; intros ? _). now apply tt_ret.
Qed.

(** ** The whole gadget *)
(** A witness whose circuit is built without a panic: its key has 32 bytes and is
    below the order, three randomizers and responses are present, and the combined
    verification equation holds. *)
Definition witness_builds (w : fold_witness F K) : Prop :=
  key_ok w /\ exists rx ry rs rest resp, fw_rhos w = rx :: ry :: rs :: rest /\ combined_response K (fw_resp w) (fw_lambda w) = Ok resp /\
  schnorr_holds K (fw_x w) (fw_y w) (fofZ (ssk w)) rx ry rs resp (fw_beta w) (fw_lambda w).
Lemma total_ok w rx ry rs resp : schnorr_holds K (fw_x w) (fw_y w) (fofZ (ssk w)) rx ry rs resp (fw_beta w) (fw_lambda w) ->
  (total_of (toZ (fw_x w)) (toZ (fw_y w)) (ssk w) (toZ rx) (toZ ry) (toZ rs) (toZ (fw_lambda w)) (toZ (fw_lambda w * fw_lambda w))
     (toZ (1 * fw_beta w)) (toZ (fw_lambda w * fw_beta w)) (toZ (fw_lambda w * fw_lambda w * fw_beta w)) (toZ resp) mod modulus S = 0)%Z.
Proof. intros H. apply total_zero. rewrite <- HK. apply (proj2 (equation_iff K _ _ _ _ _ _ _ _ _)). now rewrite !fofZ_toZ. Qed.
Lemma tt_fold_body pk sk w : witness_builds w -> rtot (fold_body F K P e pk sk w) (fun l => length l = 37%nat).
Proof.
  intros (Hk & rx & ry & rs & rest & resp & E1 & E2 & HE). unfold fold_body. rewrite E1, E2.
  eapply tt_bind; [apply (tt_link pk sk w Hk)|]. intros [[x y] s]. cbn [fst snd]. intros (Hx & Hy & Hs).
  eapply tt_bind; [apply tt_schnorr_alloc|]. intros v (V1 & V2 & V3 & V4 & V5 & V6 & V7 & V8 & V9).
  eapply tt_bind.
  { eapply (tt_schnorr F Hp); [apply wsta_sta; [apply range256|exact Hx]|apply wsta_sta; [apply range256|exact Hy]|apply wsta_sta; [apply ssk_range, Hk|exact Hs]
      |apply wsta_sta; [apply range256|exact V6]|apply wsta_sta; [apply range256|exact V7]|apply wsta_sta; [apply range256|exact V8]
      |apply ista_sta; exact V1|apply ista_sta; exact V2|apply ista_sta; exact V3|apply ista_sta; exact V4|apply ista_sta; exact V5|apply ista_sta; exact V9|]. now apply total_ok. }
  intros _ _. eapply tt_bind.
  { apply tt_comm; [reflexivity|reflexivity|]. cbn [app]. destruct Hx, Hy, Hs, V6, V7, V8. repeat (constructor; [assumption|]). constructor. }
  intros cv _. apply tt_ret. cbn [length]. rewrite !app_length. destruct V1 as [_ ->], V2 as [_ ->], V3 as [_ ->], V4 as [_ ->], V5 as [_ ->], V9 as [_ ->]. reflexivity.
Qed.
Lemma h_fold_body pk sk w c (P0 P1 P2 S0 S1 : F) vs : witness_builds w -> Inv c -> get_secret_key_scalars F (fw_sk w) = Ok (S0, S1) ->
  (let '(p0, p1, p2) := pk in has c p0 P0 /\ has c p1 P1 /\ has c p2 P2) ->
  (toZ P0 < 2 ^ 248)%Z -> (toZ P1 < 2 ^ 248)%Z -> (toZ P2 < 2 ^ 16)%Z -> has c (fst sk) S0 -> has c (snd sk) S1 ->
  (toZ P0 + 2 ^ 248 * (toZ P1 + 2 ^ 248 * toZ P2) = toZ (fw_x w) + 2 ^ 256 * toZ (fw_y w))%Z ->
  inspection_comm F P [toZ (fw_x w); toZ (fw_y w); ssk w] (map toZ (firstn 3 (fw_rhos w))) (fw_r w) = Ok (fw_comm w) ->
  prepare_verifier_input F K (fw_comm w) (fw_resp w) (fw_beta w) (fw_lambda w) = Ok vs ->
  har (fold_body F K P e pk sk w) c (fun l c' => all c' l vs).
Proof.
  intros (Hk & rx & ry & rs & rest & resp & E1 & E2 & HE) HI ES HPk R0 R1 R2 K0 K1 EP EC EV. unfold fold_body. rewrite E1, E2. rewrite E1 in EC. cbn [firstn map] in EC.
  unfold prepare_verifier_input in EV. rewrite E2 in EV. cbn [rmap bind] in EV. apply Ok_inj in EV. subst vs.
  eapply hr_bind; [apply (h_link pk sk w c P0 P1 P2 S0 S1); assumption|]. intros [[x y] s] c1 I1 X1. cbn [fst snd]. intros (Hx & Hy & Hs).
  eapply hr_bind; [apply h_schnorr_alloc, I1|]. intros v c2 I2 X2 (V1 & V2 & V3 & V4 & V5 & V6 & V7 & V8 & V9). apply (hon_mono F _ _ _ _ _ X2) in Hx, Hy, Hs.
  eapply hr_bind; [eapply (h_schnorr F Hp); try eassumption; now apply total_ok|]. intros u c3 I3 X3 _. apply (hon_mono F _ _ _ _ _ X3) in Hx, Hy, Hs, V1, V2, V3, V4, V5, V6, V7, V8, V9.
  eapply hr_bind; [eapply h_comm; [exact I3| |exact EC]; repeat (constructor; [assumption|]); constructor|]. intros cv c4 I4 X4 Hv.
  apply (hon_mono F _ _ _ _ _ X4) in V1, V2, V3, V4, V5, V9. apply hr_ret; [exact I4|]. constructor; [exact Hv|].
  cbn [lambda_series beta_lambda_series tl flat_map map]. rewrite !app_nil_r, <- !app_assoc.
  repeat (apply Forall2_app; [eapply hon_limbs; [eassumption|reflexivity]|]). eapply hon_limbs; [eassumption|reflexivity].
Qed.
End Run.
