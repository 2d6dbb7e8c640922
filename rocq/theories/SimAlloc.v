(** Allocation of simulated elements: what the constraints say and honest runs. *)
From Coq Require Import List ZArith Bool Lia ZifyBool ZifyNat Field.
From Verif Require Import Base Field PField TurboModel TurboSpec TurboProofs TurboHonest TurboKit RescueModel RescueProofs AxfrHonest
  SimModel SimSpec SimProofs SimZero SimCircuit SimHonest.
Import ListNotations.
Local Open Scope Z_scope.

Section Alloc.
Context (F : PField) (Hp : 2 ^ 254 <= pchar F).
Add Field Fsima : (f_th F).
Local Open Scope F_scope.
Implicit Types (w : nat -> F).
Notation bitsof x n := (map (bit F x) (seq 0 n)).

Lemma seq_add k n : forall m, seq (k + m) n = map (fun i => (k + i)%nat) (seq m n).
Proof. induction n as [|n IH]; intros m; cbn [seq map]; [reflexivity|]. now rewrite <- IH, Nat.add_succ_r. Qed.
Lemma bits_app x y k n : (0 <= x < 2 ^ Z.of_nat k)%Z ->
  bitsof (x + 2 ^ Z.of_nat k * y)%Z (k + n) = bitsof x k ++ bitsof y n.
Proof.
  intros Hx. rewrite seq_app, map_app. cbn [Nat.add]. f_equal.
  - apply map_ext_in. intros i Hi. apply in_seq in Hi. unfold bit.
    rewrite <- (Z.mod_pow2_bits_low (x + 2 ^ Z.of_nat k * y) (Z.of_nat k) (Z.of_nat i)) by lia.
    rewrite Z.mul_comm, Z_mod_plus_full, Z.mod_small by lia. reflexivity.
  - pose proof (seq_add k n 0) as E. rewrite Nat.add_0_r in E. rewrite E, map_map. apply map_ext. intros i. unfold bit.
    replace (Z.of_nat (k + i)) with (Z.of_nat i + Z.of_nat k)%Z by lia. rewrite <- Z.div_pow2_bits by lia.
    rewrite Z.mul_comm, Z.div_add, Z.div_small by lia. reflexivity.
Qed.
Lemma mapM_all2_sound {A B} (f : A -> CS F B) (Q : (nat -> F) -> A -> B -> Prop) l :
  (forall a, In a l -> sound (f a) (fun w o => Q w a o)) ->
  sound (mapM F f l) (fun w os => Forall2 (Q w) l os).
Proof.
  induction l as [|a l IH]; intros H; cbn [mapM].
  - apply sr. constructor.
  - eapply sb; [apply H; now left|]. intros o. eapply sb; [apply IH; intros; apply H; now right|]. intros os. apply sr. intros w H1 H2. now constructor.
Qed.
Lemma map_nth_seq (g : nat -> F) b n w : length b = n -> (forall i, (i < n)%nat -> w (nth i b 0%nat) = g i) -> map w b = map g (seq 0 n).
Proof.
  intros <- H. transitivity (map w (map (fun i => nth i b 0%nat) (seq 0 (length b)))); [now rewrite nth_self|].
  rewrite map_map. apply map_ext_in. intros i Hi. apply in_seq in Hi. apply H. lia.
Qed.
Lemma range_sound v n : (2 <= n <= 253)%nat -> sound (range_check F v n) (fun w b => (0 <= toZ (w v) < 2 ^ Z.of_nat n)%Z /\ map w b = bitsof (toZ (w v)) n).
Proof.
  intros Hn. eapply sw; [apply range_check_sound; [lia|]|].
  - assert (2 ^ Z.of_nat n <= 2 ^ 254)%Z by (apply Z.pow_le_mono_r; lia). lia.
  - intros w b (L & H1 & H2). split; [split; [apply toZ_range|exact H1]|]. now apply map_nth_seq.
Qed.
Definition total P : nat := (5 * BIT_PER_LIMB P + BIT_IN_TOP_LIMB P)%nat.
Lemma width_ok P : valid P -> forall i, (2 <= width P i <= 253)%nat.
Proof. intros [-> | ->] i; unfold width; destruct (Nat.eqb _ _); cbn; lia. Qed.
Lemma B_ok P : valid P -> (2 <= BIT_PER_LIMB P <= 253)%nat.
Proof. intros [-> | ->]; cbn; lia. Qed.
Lemma alloc_witness_sound P (v : sim F) : valid P ->
  rsound F (alloc_witness P v) (fun w ob => leaf_ok F P w (fst ob) /\ sv (fst ob) = mkSim (limbs v) (sval v) ByOne /\ red v = Strict /\
    (0 <= wnumber P w (svar (fst ob)) < 2 ^ Z.of_nat (total P))%Z /\
    map w (snd ob) = bitsof (wnumber P w (svar (fst ob))) (total P)).
Proof.
  intros HV. pose proof (valid_facts P HV) as K. unfold alloc_witness. eapply rs_bind; [apply rs_require|]. intros [].
  apply rs_lift. eapply sb.
  { apply (mapM_all2_sound _ (fun w i p => (0 <= toZ (w (fst p)) < 2 ^ Z.of_nat (width P i))%Z /\ map w (snd p) = bitsof (toZ (w (fst p))) (width P i))).
    intros i Hi. eapply sb; [apply sound_new|]. intros o. eapply sb; [apply range_sound; now apply width_ok|]. intros b. apply sr. intros w H _. exact H. }
  intros l. apply sr. intros w H Hr. cbn [fst snd svar sv red]. unfold NUM_OF_LIMBS in H. cbn [seq] in H.
  assert (L : length l = 6%nat) by (symmetry; apply (Forall2_len _ _ _ H)).
  destruct (list6 l L) as (a & b & c & d & e & g & ->). cbn [map flat_map].
  repeat match goal with H : Forall2 _ _ _ |- _ => inversion H; clear H; subst end.
  change (width P 5) with (BIT_IN_TOP_LIMB P) in *.
  change (width P 0) with (BIT_PER_LIMB P) in *. change (width P 1) with (BIT_PER_LIMB P) in *. change (width P 2) with (BIT_PER_LIMB P) in *.
  change (width P 3) with (BIT_PER_LIMB P) in *. change (width P 4) with (BIT_PER_LIMB P) in *.
  repeat match goal with H : _ /\ map w _ = _ |- _ => destruct H end.
  split; [|split; [reflexivity|split; [destruct (red v); try discriminate; reflexivity|split]]].
  - split; [reflexivity|]. split; [|exact I]. intros i Hi. change (slack (red _)) with 1%Z. rewrite Z.mul_1_l.
    do 6 (destruct i as [|i]; [cbn [svar wlimbs map nth]; assumption|]). lia.
  - unfold wnumber, total. cbn [wlimbs map number]. fold (st P) (tp P) in *. pose proof (f_st P K). destruct (f_tp P K) as [T1 T2].
    replace (Z.of_nat (5 * BIT_PER_LIMB P + BIT_IN_TOP_LIMB P)) with
      (Z.of_nat (BIT_PER_LIMB P) + (Z.of_nat (BIT_PER_LIMB P) + (Z.of_nat (BIT_PER_LIMB P) + (Z.of_nat (BIT_PER_LIMB P) + (Z.of_nat (BIT_PER_LIMB P) + Z.of_nat (BIT_IN_TOP_LIMB P))))))%Z by lia.
    rewrite !Z.pow_add_r by lia. fold (st P) (tp P).
    assert (G : forall x y m, (0 <= x < st P -> 0 <= y < m -> 0 <= x + st P * y < st P * m)%Z) by (intros; nia).
    rewrite Z.mul_0_r, Z.add_0_r. auto 10.
  - unfold wnumber, total. cbn [wlimbs map number].
    replace (5 * BIT_PER_LIMB P + BIT_IN_TOP_LIMB P)%nat with
      (BIT_PER_LIMB P + (BIT_PER_LIMB P + (BIT_PER_LIMB P + (BIT_PER_LIMB P + (BIT_PER_LIMB P + BIT_IN_TOP_LIMB P)))))%nat by lia.
    rewrite Z.mul_0_r, Z.add_0_r, !bits_app by assumption. rewrite app_nil_r, !map_app. congruence.
Qed.
Lemma total_mod P : valid P -> (2 ^ Z.of_nat (total P) <= 2 * modulus P)%Z.
Proof. intros [-> | ->]; vm_compute; congruence. Qed.
Lemma alloc_constant_sound P (v : sim F) : represents P v (sval v) ->
  sound (alloc_constant v) (fun w o => leaf_ok F P w o /\ sv o = v /\ wnumber P w (svar o) = sval v).
Proof.
  intros (O & N & _). unfold alloc_constant. eapply sb.
  { apply (mapM_sound F _ (fun w i => nth i (limbs v) 0)). intros i _. eapply sb; [apply sound_new|]. intros o.
    eapply sb; [apply const_gate_sound|]. intros u. apply sr. intros w H _. exact H. }
  intros l. apply sr. intros w E. cbn [svar sv]. unfold NUM_OF_LIMBS in E.
  rewrite nth_self in E by (rewrite <- (map_length toZ); apply O).
  unfold leaf_ok, wnumber. cbn [svar sv]. rewrite wlimbs_map, E. auto.
Qed.

(** ** The bounded allocation *)
Lemma bounded_sound P (v : sim F) : valid P -> forall js rem,
  rsound F (bounded_loop F P v js rem) (fun w r => w 0%nat = 0 ->
    length (fst r) = length js /\ Forall (fun z => 0 <= z < st P)%Z (wlimbs w (fst r)) /\
    (0 <= wnumber P w (fst r) < 2 ^ Z.of_nat rem)%Z /\
    ((rem <= BIT_PER_LIMB P * length js)%nat -> map w (snd r) = bitsof (wnumber P w (fst r)) rem)).
Proof.
  intros HV. pose proof (valid_facts P HV) as K. pose proof (f_st P K) as Hs. induction js as [|j js IH]; intros rem; cbn [bounded_loop].
  - apply rs_ret. intros w _. cbn. split; [reflexivity|]. split; [constructor|]. split; [split; [lia|apply Z.pow_pos_nonneg; lia]|].
    intros H. replace rem with 0%nat by lia. reflexivity.
  - destruct (Nat.eqb_spec rem 0) as [-> | Hr].
    + eapply rs_bind; [apply IH|]. intros r. apply rs_ret. intros w H W0. destruct (H W0) as (H1 & H2 & H3 & H4). cbn [fst snd length].
      unfold wnumber in *. cbn [wlimbs map number]. change (map (fun v => toZ (w v)) (fst r)) with (wlimbs w (fst r)).
      change zero_var with 0%nat. rewrite W0, (toZ_0 F). change (2 ^ Z.of_nat 0)%Z with 1%Z in *.
      replace (number (2 ^ Z.of_nat (BIT_PER_LIMB P)) (wlimbs w (fst r))) with 0%Z in * by lia.
      rewrite Z.mul_0_r. split; [lia|]. split; [constructor; [lia|exact H2]|]. split; [lia|]. intros _. apply H4. lia.
    + cbn zeta. set (lim := Nat.min rem (BIT_PER_LIMB P)). destruct (Nat.leb_spec 2 lim) as [Hl|Hl]; [|intros c a c' E; discriminate E].
      eapply rs_bind; [apply rs_require|]. intros [].
      * eapply (rs_bind F _ _ (fun w p => (0 <= toZ (w (fst p)) < 2 ^ Z.of_nat lim)%Z /\ map w (snd p) = bitsof (toZ (w (fst p))) lim)).
        { apply rs_lift. eapply sb; [apply sound_new|]. intros o. eapply sb; [apply (range_sound o lim); pose proof (B_ok P HV); lia|]. intros b. apply sr.
          intros w H _. exact H. }
        intros [o b]. eapply rs_bind; [apply IH|]. intros r. apply rs_ret. intros w H [Ho Hb] _ W0. destruct (H W0) as (H1 & H2 & H3 & H4).
        cbn [fst snd] in *. unfold wnumber in *. cbn [wlimbs map number length]. change (map (fun v => toZ (w v)) (fst r)) with (wlimbs w (fst r)).
        set (N := number (2 ^ Z.of_nat (BIT_PER_LIMB P)) (wlimbs w (fst r))) in *.
        assert (HL : (2 ^ Z.of_nat lim <= st P)%Z) by (unfold st; apply Z.pow_le_mono_r; lia).
        split; [lia|]. split; [constructor; [lia|exact H2]|].
        destruct (Nat.le_gt_cases rem (BIT_PER_LIMB P)) as [G|G].
        -- assert (El : lim = rem) by lia. rewrite El in *. rewrite Nat.sub_diag in *. change (2 ^ Z.of_nat 0)%Z with 1%Z in *.
           replace N with 0%Z in * by lia. rewrite Z.mul_0_r, Z.add_0_r. split; [lia|]. intros _.
           specialize (H4 ltac:(lia)). cbn [seq map] in H4. now rewrite map_app, H4, Hb, app_nil_r.
        -- assert (El : lim = BIT_PER_LIMB P) by lia. rewrite El in *.
           replace (Z.of_nat rem) with (Z.of_nat (BIT_PER_LIMB P) + Z.of_nat (rem - BIT_PER_LIMB P))%Z by lia. rewrite Z.pow_add_r by lia.
           split; [nia|]. intros HR. rewrite <- (Nat.sub_add (BIT_PER_LIMB P) rem) at 1 by lia. rewrite Nat.add_comm, bits_app by exact Ho.
           rewrite map_app, Hb, H4 by lia. reflexivity.
Qed.
Lemma alloc_bounded_sound P (v : sim F) n : valid P -> (n <= total P)%nat ->
  rsound F (alloc_witness_bounded_total_bits P v n) (fun w ob => w 0%nat = 0 ->
    leaf_ok F P w (fst ob) /\ (0 <= wnumber P w (svar (fst ob)) < 2 ^ Z.of_nat n)%Z /\
    map w (snd ob) = bitsof (wnumber P w (svar (fst ob))) n).
Proof.
  intros HV Hn. pose proof (valid_facts P HV) as K. unfold alloc_witness_bounded_total_bits.
  eapply rs_bind; [apply rs_require|]. intros []. eapply rs_bind; [apply (bounded_sound P v HV)|]. intros r. apply rs_ret.
  intros w H Hr W0. destruct (H W0) as (H1 & H2 & H3 & H4). unfold leaf_ok. cbn [fst snd svar sv red]. unfold NUM_OF_LIMBS in *. rewrite seq_length in *.
  pose proof (f_st P K) as Hs. destruct (f_tp P K) as [T1 T2].
  assert (HT : (nth 5 (wlimbs w (fst r)) 0 < tp P)%Z).
  { apply (top_digit P); auto; [now rewrite wlimbs_len|]. fold (st P) in *. unfold wnumber in H3. fold (st P) in H3. eapply Z.lt_le_trans; [apply H3|].
    replace (st P * st P * st P * st P * st P * tp P)%Z with (2 ^ Z.of_nat (total P))%Z; [apply Z.pow_le_mono_r; lia|].
    unfold total, st, tp. rewrite <- !Z.pow_add_r by lia. f_equal. lia. }
  assert (HB : (BIT_IN_TOP_LIMB P <= BIT_PER_LIMB P)%nat) by (destruct HV as [-> | ->]; cbn; lia).
  split; [|split; [exact H3|apply H4; unfold total in Hn; lia]].
  split; [rewrite wlimbs_len; exact H1|]. split.
  - intros i Hi. assert (S1 : slack (if Nat.eqb n 253 then ByOne else red v) = 1%Z).
    { destruct (Nat.eqb n 253); [reflexivity|]. destruct (red v); [reflexivity|reflexivity|discriminate]. }
    rewrite S1, Z.mul_1_l. assert (Hz : In (nth i (wlimbs w (fst r)) 0%Z) (wlimbs w (fst r))) by (apply nth_In; rewrite wlimbs_len; lia).
    rewrite Forall_forall in H2. apply H2 in Hz. destruct (Nat.eq_dec i 5) as [-> | Ni]; [rewrite width_top; lia|rewrite width_low by lia; lia].
  - destruct (Nat.eqb n 253); [exact I|]. destruct (red v); [exact I|exact I|discriminate].
Qed.

(** ** Honest allocation *)
Lemma from_nth P x i : valid P -> (0 <= x < 2 ^ Z.of_nat (total P))%Z -> (i < 6)%nat ->
  (toZ (nth i (limbs (sim_from F P x)) 0%F) < 2 ^ Z.of_nat (width P i))%Z.
Proof.
  intros HV Hx Hi. pose proof (valid_facts P HV) as K. destruct (from_ok F Hp P x K) as [(_ & H & _) _].
  - replace (st P * st P * st P * st P * st P * tp P)%Z with (2 ^ Z.of_nat (total P))%Z; [exact Hx|].
    unfold total, st, tp. rewrite <- !Z.pow_add_r by lia. f_equal. lia.
  - specialize (H i Hi). rewrite nth_toZ in H. change (slack Strict) with 1%Z in H. lia.
Qed.
Lemma ha_mapM2 {A B} (f : A -> CS F B) (Q : tcs F -> A -> B -> Prop) l : 
  (forall c c' a b, extends c c' -> Q c a b -> Q c' a b) -> forall c, Inv c ->
  (forall a c', In a l -> Inv c' -> ha F (f a) c' (fun b c'' => Q c'' a b)) ->
  ha F (mapM F f l) c (fun bs c' => Forall2 (Q c') l bs).
Proof.
  intros Mono. induction l as [|a l IH]; intros c HI H; cbn [mapM].
  - apply hr; [exact HI|constructor].
  - eapply hb; [apply H; [now left|exact HI]|]. intros b c1 I1 X1 Hb. eapply hb; [apply IH; [exact I1|intros; apply H; [now right|assumption]]|].
    intros bs c2 I2 X2 Hbs. apply hr; [exact I2|]. constructor; [eapply Mono; eassumption|exact Hbs].
Qed.
Lemma alloc_witness_ha P x c : valid P -> (0 <= x < 2 ^ Z.of_nat (total P))%Z -> Inv c ->
  har F (alloc_witness P (sim_from F P x)) c (fun ob c' => honest_leaf F c' (fst ob) /\ represents P (sv (fst ob)) x /\ red (sv (fst ob)) = ByOne).
Proof.
  intros HV Hx HI. pose proof (valid_facts P HV) as K. unfold alloc_witness. eapply hr_bind; [apply hr_require; [exact HI|reflexivity]|].
  intros _ c1 I1 X1 _. apply hr_lift. set (v := sim_from F P x) in *.
  assert (Lv : length (limbs v) = 6%nat) by reflexivity.
  eapply hb.
  { apply (ha_mapM2 _ (fun c i p => has F c (fst p) (nth i (limbs v) 0))); [|exact I1|].
    - intros c2 c3 i p X H. eapply has_mono; eassumption.
    - intros i c2 Hi I2. apply in_seq in Hi. eapply hb; [apply ha_new, I2|]. intros o c3 I3 X3 H3.
      eapply hb; [apply (ha_range_check F c3 o _ (nth i (limbs v) 0) I3); [apply width_ok, HV|exact H3|apply from_nth; auto; unfold NUM_OF_LIMBS in *; lia]|].
      intros b c4 I4 X4 _. apply hr; [exact I4|]. cbn [fst]. eapply has_mono; eassumption. }
  intros l c2 I2 X2 H. apply hr; [exact I2|]. cbn [fst snd]. split; [|split; [|reflexivity]].
  - unfold honest_leaf. cbn [svar sv limbs]. unfold NUM_OF_LIMBS in H. rewrite <- (nth_self (limbs v) 6 0 Lv).
    generalize (seq 0 6) H. clear - F. intros s H. induction H as [|i p s l H _ IH]; cbn [map]; constructor; auto.
  - cbn [sv]. destruct (from_ok F Hp P x K) as [(L & O & _) N].
    { replace (st P * st P * st P * st P * st P * tp P)%Z with (2 ^ Z.of_nat (total P))%Z; [exact Hx|].
      unfold total, st, tp. rewrite <- !Z.pow_add_r by lia. f_equal. lia. }
    pose proof (total_mod P HV). split; [split; [exact L|split; [exact O|exact I]]|]. cbn [limbs sval red additions].
    split; [exact N|]. split; [reflexivity|]. lia.
Qed.
Lemma alloc_constant_ha P (v : sim F) c : represents P v (sval v) -> Inv c ->
  ha F (alloc_constant v) c (fun o c' => honest_leaf F c' o /\ sv o = v).
Proof.
  intros (O & _) HI. unfold alloc_constant. eapply hb.
  { apply (ha_seq F _ (fun i => nth i (limbs v) 0)); [exact HI|]. intros i c1 _ I1 X1. eapply hb; [apply ha_new, I1|]. intros o c2 I2 X2 H2.
    eapply hb; [apply ha_const_gate; [exact I2|exact H2]|]. intros _ c3 I3 X3 _. apply hr; [exact I3|]. eapply has_mono; eassumption. }
  intros l c1 I1 X1 H. apply hr; [exact I1|]. unfold honest_leaf. cbn [svar sv]. split; [|reflexivity].
  unfold NUM_OF_LIMBS in H. rewrite nth_self in H by (rewrite <- (map_length toZ); apply O). exact H.
Qed.
Lemma alloc_input_ha P (v : sim F) c : represents P v (sval v) -> Inv c ->
  ha F (alloc_input v) c (fun o c' => honest_leaf F c' o /\ sv o = v).
Proof.
  intros (O & _) HI. unfold alloc_input. eapply hb.
  { apply (ha_seq F _ (fun i => nth i (limbs v) 0)); [exact HI|]. intros i c1 _ I1 X1. apply ha_new, I1. }
  intros l c1 I1 X1 H. apply hr; [exact I1|]. unfold honest_leaf. cbn [svar sv]. split; [|reflexivity].
  unfold NUM_OF_LIMBS in H. rewrite nth_self in H by (rewrite <- (map_length toZ); apply O). exact H.
Qed.
End Alloc.
