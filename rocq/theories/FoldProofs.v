(** Proofs about the key packing and the secret-key comparison. *)
From Coq Require Import List ZArith NArith Bool Lia ZifyBool ZifyNat ZifyN Field.
From Verif Require Import Base Field PField UtilsModel TurboModel TurboSpec TurboProofs TurboHonest TurboKit TurboEmit FoldModel.
Import ListNotations.
Ltac Zify.zify_post_hook ::= Z.div_mod_to_equations.
Local Open Scope F_scope.

Section Fold.
Context (F : PField).
Add Field Ffold : (f_th F).
Implicit Types (c : tcs F) (w : nat -> F).
Notation b2f := (b2f F).

(** Value of a bit list read from the top. *)
Definition hz (a : Z) (l : list bool) : Z := fold_left (fun a b => (Z.b2z b + 2 * a)%Z) l a.
Lemma hz_app a l l' : hz a (l ++ l') = hz (hz a l) l'.
Proof. apply fold_left_app. Qed.
Lemma hz_bits l : hz 0 (rev l) = bitsZ (map Z.b2z l).
Proof. induction l as [|b l IH]; [reflexivity|]. cbn [rev]. rewrite hz_app, IH. reflexivity. Qed.

Definition lt_flag (X M : Z) : F := b2f (X <? M)%Z.
Definition ne_flag (X M : Z) : F := b2f (negb (X =? M)%Z).
Lemma small_step X M x : b2f (Z.b2z x + 2 * X <? 1 + 2 * M)%Z =
  lt_flag X M + (1 - ne_flag X M) * (1 - b2f x).
Proof.
  unfold lt_flag, ne_flag. assert (X < M \/ X = M \/ M < X)%Z as [H|[H|H]] by lia.
  - replace (X <? M)%Z with true by lia. replace (X =? M)%Z with false by lia.
    replace (Z.b2z x + 2 * X <? 1 + 2 * M)%Z with true by (destruct x; cbn [Z.b2z]; lia). cbn. ring.
  - subst. replace (M <? M)%Z with false by lia. rewrite Z.eqb_refl. destruct x; cbn [Z.b2z].
    + replace (1 + 2 * M <? 1 + 2 * M)%Z with false by lia. cbn. ring.
    + replace (0 + 2 * M <? 1 + 2 * M)%Z with true by lia. cbn. ring.
  - replace (X <? M)%Z with false by lia. replace (X =? M)%Z with false by lia.
    replace (Z.b2z x + 2 * X <? 1 + 2 * M)%Z with false by (destruct x; cbn [Z.b2z]; lia). cbn. ring.
Qed.
Lemma keep_step X M x : (Z.b2z x + 2 * X <? 0 + 2 * M)%Z = (X <? M)%Z.
Proof. destruct x; cbn [Z.b2z]; lia. Qed.
Lemma diff_step1 X M x : b2f (negb (Z.b2z x + 2 * X =? 1 + 2 * M)%Z) = 1 - b2f x + ne_flag X M * b2f x.
Proof.
  unfold ne_flag. destruct (Z.eqb_spec X M) as [->|H].
  - destruct x; cbn [Z.b2z]; [rewrite Z.eqb_refl|replace (0 + 2 * M =? 1 + 2 * M)%Z with false by lia]; cbn; ring.
  - replace (Z.b2z x + 2 * X =? 1 + 2 * M)%Z with false by (destruct x; cbn [Z.b2z]; lia). destruct x; cbn; ring.
Qed.
Lemma diff_step0 X M x : b2f (negb (Z.b2z x + 2 * X =? 0 + 2 * M)%Z) = ne_flag X M + b2f x - ne_flag X M * b2f x.
Proof.
  unfold ne_flag. destruct (Z.eqb_spec X M) as [->|H].
  - destruct x; cbn [Z.b2z]; [replace (1 + 2 * M =? 0 + 2 * M)%Z with false by lia|rewrite Z.eqb_refl]; cbn; ring.
  - replace (Z.b2z x + 2 * X =? 0 + 2 * M)%Z with false by (destruct x; cbn [Z.b2z]; lia). destruct x; cbn; ring.
Qed.

Ltac row := unfold gate_eq; cbn [q1 q2 q3 q4 qm1 qm2 qc qecc qh1 qh2 qh3 qh4 qo w1 w2 w3 w4 wo g_pub];
  split; intros H;
  [ match type of H with ?l = ?r => match goal with |- ?x = ?y => transitivity r; [ring|]; rewrite <- H; ring end end
  | rewrite H; ring ].
Lemma small_row_eq w d s m o : gate_eq w (small_row F d s m o) <-> w o = w m + (1 - w d) * (1 - w s).
Proof. unfold small_row. row. Qed.
Lemma diff1_row_eq w d s o : gate_eq w (diff1_row F d s o) <-> w o = 1 - w s + w d * w s.
Proof. unfold diff1_row. row. Qed.
Lemma diff0_row_eq w d s o : gate_eq w (diff0_row F d s o) <-> w o = w d + w s - w d * w s.
Proof. unfold diff0_row. row. Qed.
Lemma final_row_eq w s d : gate_eq w (final_row F s d) <-> w s * w d = 1.
Proof.
  unfold final_row, gate_eq; cbn [q1 q2 q3 q4 qm1 qm2 qc qecc qh1 qh2 qh3 qh4 qo w1 w2 w3 w4 wo g_pub]. split; intros H.
  - assert (E : 1 - w s * w d = 0). { transitivity (0 * w zero_var); [rewrite <- H; ring|ring]. }
    symmetry. now apply (proj1 (fsub_0 F _ _)).
  - transitivity (1 - w s * w d); [ring|]. rewrite H. ring.
Qed.

Lemma compare_loop_sound l : forall vs vd s d,
  sound (compare_loop F l vs vd s d) (fun w o => forall xs X M,
    Forall2 (fun it x => w (fst (fst it)) = b2f x) l xs -> w vs = lt_flag X M -> w vd = ne_flag X M ->
    w (fst o) = lt_flag (hz X xs) (hz M (map snd l)) /\ w (snd o) = ne_flag (hz X xs) (hz M (map snd l))).
Proof.
  induction l as [|[[v b] []] l IH]; intros vs vd s d; cbn [compare_loop].
  - apply sr. intros w xs X M HF H1 H2. inversion HF; subst. cbn. auto.
  - eapply sb; [apply sound_new|]. intros vs'. eapply sb; [apply sound_push|]. intros ?.
    eapply sb; [apply sound_new|]. intros vd'. eapply sb; [apply sound_push|]. intros ?.
    eapply sw; [apply IH|]. intros w o HR [G2 _] _ [G1 _] _ xs X M HF H1 H2.
    inversion HF as [|it x l0 xs' Hx HF']; subst. cbn [fst snd map] in *.
    apply small_row_eq in G1. apply diff1_row_eq in G2. cbn [hz fold_left]. apply HR; [exact HF'| |].
    + unfold lt_flag at 1. rewrite G1, H1, H2, Hx. symmetry. apply small_step.
    + unfold ne_flag at 1. rewrite G2, H2, Hx. symmetry. apply diff_step1.
  - eapply sb; [apply sound_new|]. intros vd'. eapply sb; [apply sound_push|]. intros ?.
    eapply sw; [apply IH|]. intros w o HR [G2 _] _ xs X M HF H1 H2.
    inversion HF as [|it x l0 xs' Hx HF']; subst. cbn [fst snd map] in *.
    apply diff0_row_eq in G2. cbn [hz fold_left]. apply HR; [exact HF'| |].
    + rewrite H1. unfold lt_flag. cbn [Z.b2z]. now rewrite keep_step.
    + unfold ne_flag at 1. rewrite G2, H2, Hx. symmetry. apply diff_step0.
Qed.
Lemma flag_1 (b : bool) : b2f b = 1 -> b = true.
Proof. destruct b; [reflexivity|]. intros H. exfalso. symmetry in H. exact (F_1_neq_0 (f_th F) H). Qed.

Lemma combine3_map {A B C} (vars : list A) : forall (bits : list B) (m : list C), length bits = length vars -> length m = length vars ->
  map snd (combine (combine vars bits) m) = m /\ map (fun it => fst (fst it)) (combine (combine vars bits) m) = vars.
Proof.
  induction vars as [|v vars IH]; intros [|b bits] [|x m] H1 H2; try discriminate; [split; reflexivity|].
  cbn. destruct (IH bits m) as [E1 E2]; [now injection H1|now injection H2|]. cbn in *. now rewrite E1, E2.
Qed.
Lemma Forall2_map_l {A B C} (f : A -> B) (R : B -> C -> Prop) l : forall l', Forall2 R (map f l) l' -> Forall2 (fun a x => R (f a) x) l l'.
Proof. induction l as [|a l IH]; intros l' H; inversion H; subst; constructor; auto. Qed.

Lemma compare_bits_sound vars bits modulus : length bits = length vars -> length modulus = length vars ->
  sound (compare_bits F vars bits modulus) (fun w _ => w 0%nat = 0 -> forall xs,
    Forall2 (fun v x => w v = b2f x) vars xs -> (bitsZ (map Z.b2z xs) < bitsZ (map Z.b2z modulus))%Z).
Proof.
  intros L1 L2. unfold compare_bits. destruct (combine3_map vars bits modulus L1 L2) as [E1 E2].
  eapply sb; [apply compare_loop_sound|]. intros [os od]. eapply sw; [apply sound_push|]. intros w _ [G _] HR H0 xs HF.
  apply final_row_eq in G. cbn [fst snd] in *. specialize (HR (rev xs) 0%Z 0%Z).
  rewrite map_rev, E1, !hz_bits in HR. destruct HR as [R1 R2].
  - apply Forall2_rev'. apply (Forall2_map_l (fun it => fst (fst it)) (fun v x => w v = b2f x)). now rewrite E2.
  - unfold zero_var. rewrite H0. reflexivity.
  - unfold zero_var. rewrite H0. reflexivity.
  - rewrite R1, R2 in G. unfold lt_flag in G. destruct (Z.ltb_spec (bitsZ (map Z.b2z xs)) (bitsZ (map Z.b2z modulus))) as [H|H]; [exact H|].
    exfalso. apply (F_1_neq_0 (f_th F)). rewrite <- G. cbn. ring.
Qed.

(** Bits of numbers and of byte strings. *)
Lemma bitsZ_app a b : bitsZ (a ++ b) = (bitsZ a + 2 ^ Z.of_nat (length a) * bitsZ b)%Z.
Proof.
  induction a as [|x a IH]; cbn [app length]; [change (bitsZ []) with 0%Z; cbn [Z.of_nat]; lia|].
  unfold bitsZ in *. cbn [fold_right]. rewrite IH, Nat2Z.inj_succ, Z.pow_succ_r by lia. ring.
Qed.
Lemma bitsZ_testbits n : forall z k, (0 <= z)%Z ->
  bitsZ (map Z.b2z (map (fun i => Z.testbit z (Z.of_nat i)) (seq k n))) = ((z / 2 ^ Z.of_nat k) mod 2 ^ Z.of_nat n)%Z.
Proof.
  induction n as [|n IH]; intros z k Hz; [cbn; now rewrite Z.mod_1_r|].
  cbn [seq map]. unfold bitsZ in *. cbn [fold_right]. rewrite IH by exact Hz.
  rewrite !Nat2Z.inj_succ, !Z.pow_succ_r by lia.
  rewrite Z.testbit_spec' by lia. rewrite (Z.mul_comm 2 (2 ^ Z.of_nat k)), <- Z.div_div by lia.
  set (y := (z / 2 ^ Z.of_nat k)%Z). rewrite Z.rem_mul_r by lia. reflexivity.
Qed.
Lemma byte_bits b : (b < 256)%N -> bitsZ (map Z.b2z (bits_of_byte b)) = Z.of_N b.
Proof.
  intros H. unfold bits_of_byte.
  rewrite (map_ext _ (fun i => Z.testbit (Z.of_N b) (Z.of_nat i))).
  - rewrite bitsZ_testbits by lia. change (2 ^ Z.of_nat 0)%Z with 1%Z. rewrite Z.div_1_r. apply Z.mod_small. change (2 ^ Z.of_nat 8)%Z with 256%Z. lia.
  - intros i. rewrite <- Z.testbit_of_N. f_equal. lia.
Qed.
Lemma bytes_bits bs : Forall (fun b => b < 256)%N bs -> bitsZ (map Z.b2z (bits_of_bytes bs)) = Z.of_N (le_value bs).
Proof.
  induction 1 as [|b bs H _ IH]; [reflexivity|]. cbn [bits_of_bytes flat_map le_value]. fold (bits_of_bytes bs).
  rewrite map_app, bitsZ_app, byte_bits, IH, map_length by exact H. unfold bits_of_byte. rewrite map_length, seq_length. change (2 ^ Z.of_nat 8)%Z with 256%Z. lia.
Qed.
Lemma bits_of_bytes_len bs : length (bits_of_bytes bs) = (8 * length bs)%nat.
Proof. induction bs as [|b bs IH]; [reflexivity|]. cbn [bits_of_bytes flat_map length]. fold (bits_of_bytes bs). rewrite app_length, IH. unfold bits_of_byte. rewrite map_length, seq_length. lia. Qed.

(** ** Honest runs *)
Lemma wlt n a b d e o (g : gate F) : w1 g = a -> w2 g = b -> w3 g = d -> w4 g = e -> wo g = o -> g_pub g = None ->
  (a < n -> b < n -> d < n -> e < n -> o < n -> wire_lt n g)%nat.
Proof. intros E1 E2 E3 E4 E5 E ? ? ? ? ?. unfold wire_lt. rewrite E, E1, E2, E3, E4, E5. repeat split; assumption. Qed.
Lemma ha_compare_loop l : forall vs vd s d c X M, Inv c ->
  Forall (fun it => has F c (fst (fst it)) (b2f (snd (fst it)))) l ->
  s = (X <? M)%Z -> d = negb (X =? M)%Z -> has F c vs (b2f s) -> has F c vd (b2f d) ->
  ha F (compare_loop F l vs vd s d) c (fun o c' =>
    has F c' (fst o) (lt_flag (hz X (map (fun it => snd (fst it)) l)) (hz M (map snd l))) /\
    has F c' (snd o) (ne_flag (hz X (map (fun it => snd (fst it)) l)) (hz M (map snd l)))).
Proof.
  induction l as [|[[v b] []] l IH]; intros vs vd s d c X M HI HF Es Ed Hs Hd; cbn [compare_loop].
  - apply hr; [exact HI|]. cbn. subst. auto.
  - inversion HF as [|? ? Hv HF']; subst. cbn [fst snd] in Hv.
    assert (S1 : forall x y, b2f ((X <? M)%Z || (negb b && negb (negb (X =? M)%Z))) = x + (1 - y) * (1 - b2f b) <->
      lt_flag X M + (1 - ne_flag X M) * (1 - b2f b) = x + (1 - y) * (1 - b2f b)).
    { intros x y. rewrite <- small_step. replace ((X <? M)%Z || (negb b && negb (negb (X =? M)%Z))) with (Z.b2z b + 2 * X <? 1 + 2 * M)%Z; [tauto|].
      destruct b; cbn [Z.b2z]; lia. }
    eapply hb; [apply ha_new, HI|]. intros vs' c1 I1 E1 Hs'.
    pose proof (has_mono F _ _ _ _ E1 Hv) as V1. pose proof (has_mono F _ _ _ _ E1 Hs) as Hs1. pose proof (has_mono F _ _ _ _ E1 Hd) as Hd1.
    eapply hb; [apply ha_push; [exact I1| | |now apply nobool]|].
    { pose proof (has_zero F c1 I1) as [Z0 _]. destruct V1, Hs1, Hd1, Hs'. unfold small_row. eapply wlt; cbn; reflexivity || assumption. }
    { apply small_row_eq. destruct V1 as [_ ->], Hs1 as [_ ->], Hd1 as [_ ->], Hs' as [_ ->]. now apply S1. }
    intros _ c2 I2 E2 _. eapply hb; [apply ha_new, I2|]. intros vd' c3 I3 E3 Hd'.
    pose proof (has_mono F _ _ _ _ E3 (has_mono F _ _ _ _ E2 V1)) as V3.
    pose proof (has_mono F _ _ _ _ E3 (has_mono F _ _ _ _ E2 Hs')) as Hs3.
    pose proof (has_mono F _ _ _ _ E3 (has_mono F _ _ _ _ E2 Hd1)) as Hd3.
    eapply hb; [apply ha_push; [exact I3| | |now apply nobool]|].
    { pose proof (has_zero F c3 I3) as [Z0 _]. destruct V3, Hd3, Hd'. unfold diff1_row. eapply wlt; cbn; reflexivity || assumption. }
    { apply diff1_row_eq. destruct V3 as [_ ->], Hd3 as [_ ->], Hd' as [_ ->]. destruct b, (X =? M)%Z; cbn; ring. }
    intros _ c4 I4 E4 _. cbn [map hz fold_left fst snd]. apply IH; try assumption.
    + eapply Forall_impl; [|exact HF']. intros it Hit.
      apply (has_mono F _ _ _ _ E4), (has_mono F _ _ _ _ E3), (has_mono F _ _ _ _ E2), (has_mono F _ _ _ _ E1), Hit.
    + cbn [Z.b2z]. destruct b; cbn [Z.b2z]; lia.
    + destruct b; cbn [Z.b2z]; lia.
    + now apply (has_mono F _ _ _ _ E4).
    + now apply (has_mono F _ _ _ _ E4).
  - inversion HF as [|? ? Hv HF']; subst. cbn [fst snd] in Hv.
    eapply hb; [apply ha_new, HI|]. intros vd' c1 I1 E1 Hd'.
    pose proof (has_mono F _ _ _ _ E1 Hv) as V1. pose proof (has_mono F _ _ _ _ E1 Hs) as Hs1. pose proof (has_mono F _ _ _ _ E1 Hd) as Hd1.
    eapply hb; [apply ha_push; [exact I1| | |now apply nobool]|].
    { pose proof (has_zero F c1 I1) as [Z0 _]. destruct V1, Hd1, Hd'. unfold diff0_row. eapply wlt; cbn; reflexivity || assumption. }
    { apply diff0_row_eq. destruct V1 as [_ ->], Hd1 as [_ ->], Hd' as [_ ->]. destruct b, (X =? M)%Z; cbn; ring. }
    intros _ c2 I2 E2 _. cbn [map hz fold_left fst snd]. apply IH; try assumption.
    + eapply Forall_impl; [|exact HF']. intros it Hit. apply (has_mono F _ _ _ _ E2), (has_mono F _ _ _ _ E1), Hit.
    + destruct b; cbn [Z.b2z]; lia.
    + destruct b; cbn [Z.b2z]; lia.
    + now apply (has_mono F _ _ _ _ E2).
    + now apply (has_mono F _ _ _ _ E2).
Qed.

Lemma combine_has c vars bits (m : list bool) : Forall2 (fun v b => has F c v (b2f b)) vars bits ->
  Forall (fun it => has F c (fst (fst it)) (b2f (snd (fst it)))) (combine (combine vars bits) m).
Proof.
  intros H. revert m. induction H as [|v b vars bits Hv _ IH]; intros [|x m]; cbn; try constructor; auto.
Qed.
Lemma combine_bits {A} (vars : list A) : forall bits (m : list bool), length bits = length vars -> length m = length vars ->
  map (fun it => snd (fst it)) (combine (combine vars bits) m) = (bits : list bool).
Proof.
  induction vars as [|v vars IH]; intros [|b bits] [|x m] H1 H2; try discriminate; [reflexivity|].
  cbn. rewrite IH; [reflexivity|now injection H1|now injection H2].
Qed.
Lemma ha_compare_bits c vars bits modulus : Inv c -> length modulus = length vars ->
  Forall2 (fun v b => has F c v (b2f b)) vars bits ->
  (bitsZ (map Z.b2z bits) < bitsZ (map Z.b2z modulus))%Z ->
  ha F (compare_bits F vars bits modulus) c (fun _ _ => True).
Proof.
  intros HI L HF HL. pose proof (f2len _ _ _ HF) as L1. unfold compare_bits.
  destruct (combine3_map vars bits modulus (eq_sym L1) L) as [E1 _].
  pose proof (combine_bits vars bits modulus (eq_sym L1) L) as E2.
  eapply hb; [apply (ha_compare_loop _ _ _ _ _ c 0%Z 0%Z); try reflexivity; try assumption|].
  - apply Forall_rev. now apply combine_has.
  - exact (has_zero F c HI).
  - exact (has_zero F c HI).
  - rewrite !map_rev, E1, E2, !hz_bits. intros [os od] c1 I1 X1 [H1 H2]. cbn [fst snd] in *.
    apply ha_push; [exact I1| | |now apply nobool].
    + pose proof (has_zero F c1 I1) as [Z0 _]. destruct H1, H2. unfold final_row. eapply wlt; cbn; reflexivity || assumption.
    + apply final_row_eq. destruct H1 as [_ ->], H2 as [_ ->]. unfold lt_flag, ne_flag.
      replace (bitsZ (map Z.b2z bits) <? bitsZ (map Z.b2z modulus))%Z with true by lia.
      replace (bitsZ (map Z.b2z bits) =? bitsZ (map Z.b2z modulus))%Z with false by lia. cbn. ring.
Qed.

(** ** The flags start at variable 0: if that is set to one, anything passes. *)
Lemma adv_compare_loop l : forall vs vd s d c w, wf F c -> sat c w ->
  hasw F c w vs 1 -> hasw F c w vd 1 -> (0 < nvars c)%nat -> Forall (fun it => fst (fst it) < nvars c)%nat l ->
  adv F (compare_loop F l vs vd s d) c w (fun o c' w' => hasw F c' w' (fst o) 1 /\ hasw F c' w' (snd o) 1).
Proof.
  induction l as [|[[v b] []] l IH]; intros vs vd s d c w HW HS Hs Hd H0 HF; cbn [compare_loop].
  - apply ar; auto.
  - inversion HF as [|? ? Hv HF']; subst. cbn [fst snd] in Hv.
    eapply ab; [apply (adv_new F _ c w 1); assumption|]. intros vs' c1 w1 A1 N1 W1 S1 Hs'.
    pose proof (hasw_mono F _ _ _ _ _ _ A1 N1 Hs) as Hs1. pose proof (hasw_mono F _ _ _ _ _ _ A1 N1 Hd) as Hd1.
    eapply ab; [apply (adv_push F _ c1 w1); try assumption; [| |now apply nobool]|].
    { destruct Hs1, Hd1, Hs'. unfold small_row. eapply wlt; cbn; unfold zero_var; reflexivity || assumption || lia. }
    { apply small_row_eq. destruct Hs1 as [_ ->], Hd1 as [_ ->], Hs' as [_ ->]. ring. }
    intros _ c2 w2 A2 N2 W2 S2 _.
    eapply ab; [apply (adv_new F _ c2 w2 1); assumption|]. intros vd' c3 w3 A3 N3 W3 S3 Hd'.
    pose proof (hasw_mono F _ _ _ _ _ _ A3 N3 (hasw_mono F _ _ _ _ _ _ A2 N2 Hs')) as Hs3.
    pose proof (hasw_mono F _ _ _ _ _ _ A3 N3 (hasw_mono F _ _ _ _ _ _ A2 N2 Hd1)) as Hd3.
    eapply ab; [apply (adv_push F _ c3 w3); try assumption; [| |now apply nobool]|].
    { destruct Hs3, Hd3, Hd'. unfold diff1_row. eapply wlt; cbn; unfold zero_var; reflexivity || assumption || lia. }
    { apply diff1_row_eq. destruct Hd3 as [_ ->], Hd' as [_ ->]. ring. }
    intros _ c4 w4 A4 N4 W4 S4 _. apply IH; try assumption; [| |lia|].
    + now apply (hasw_mono F _ _ _ _ _ _ A4 N4).
    + now apply (hasw_mono F _ _ _ _ _ _ A4 N4).
    + eapply Forall_impl; [|exact HF']. cbn. intros it. lia.
  - inversion HF as [|? ? Hv HF']; subst. cbn [fst snd] in Hv.
    eapply ab; [apply (adv_new F _ c w 1); assumption|]. intros vd' c1 w1 A1 N1 W1 S1 Hd'.
    pose proof (hasw_mono F _ _ _ _ _ _ A1 N1 Hs) as Hs1. pose proof (hasw_mono F _ _ _ _ _ _ A1 N1 Hd) as Hd1.
    eapply ab; [apply (adv_push F _ c1 w1); try assumption; [| |now apply nobool]|].
    { destruct Hs1, Hd1, Hd'. unfold diff0_row. eapply wlt; cbn; unfold zero_var; reflexivity || assumption || lia. }
    { apply diff0_row_eq. destruct Hd1 as [_ ->], Hd' as [_ ->]. ring. }
    intros _ c4 w4 A4 N4 W4 S4 _. apply IH; try assumption; [| |lia|].
    + now apply (hasw_mono F _ _ _ _ _ _ A4 N4).
    + now apply (hasw_mono F _ _ _ _ _ _ A4 N4).
    + eapply Forall_impl; [|exact HF']. cbn. intros it. lia.
Qed.
Lemma combine_vars_lt (n : nat) vars : forall (bits m : list bool), Forall (fun v => v < n)%nat vars ->
  Forall (fun it => fst (fst it) < n)%nat (combine (combine vars bits) m).
Proof.
  induction vars as [|v vars IH]; intros [|b bits] [|x m] H; cbn; try constructor; inversion H; subst; auto.
Qed.
Lemma adv_compare_bits vars bits modulus c w : wf F c -> sat c w -> (0 < nvars c)%nat -> w 0%nat = 1 ->
  Forall (fun v => v < nvars c)%nat vars ->
  adv F (compare_bits F vars bits modulus) c w (fun _ _ _ => True).
Proof.
  intros HW HS H0 H1 HF. unfold compare_bits. eapply ab.
  - apply adv_compare_loop; try assumption; [split; assumption|split; assumption|]. apply Forall_rev. now apply combine_vars_lt.
  - intros [os od] c1 w1' A1 N1 W1 S1 [K1 K2]. cbn [fst snd] in *. apply adv_push; try assumption; [| |now apply nobool].
    + destruct K1, K2. unfold final_row. eapply wlt; cbn; unfold zero_var; reflexivity || assumption || lia.
    + apply final_row_eq. destruct K1 as [_ ->], K2 as [_ ->]. ring.
Qed.
End Fold.
