(** C38: points of the Jubjub curve inside circuits. *)
From Coq Require Import List ZArith NArith Bool Lia Field Ring.
From Verif Require Import Base Field PField Zp Primality Power TurboModel TurboSpec TurboProofs TurboHonest TurboKit
  UtilsModel Edwards EccModel EccProofs.
Import ListNotations.
Local Open Scope F_scope.
Local Set Warnings "-notation-overridden".

(** Facts over any prime field. *)
Section Generic.
Context (F : PField).
Add Field Fg : (f_th F).
Lemma euler (e : F) (h : N) : (1 + 1 : F) <> 0 -> h <> 0%N -> Z.to_N (pchar F - 1) = (2 * h)%N ->
  fpowN e h = - (1) -> forall s : F, s * s <> e.
Proof.
  intros H2 Hh Hp He s E. destruct (f_dec s 0) as [Z0|Z0].
  - subst s. assert (Ed : e = 0) by (rewrite <- E; ring). rewrite Ed in He. rewrite fpowN_0_l in He by exact Hh.
    apply (f1_neq_0 F). transitivity (- (- (1)) : F); [ring|]. rewrite <- He. ring.
  - pose proof (fermat F s Z0) as FT. rewrite Hp, fpowN_mul in FT.
    assert (E2 : fpowN s 2 = e) by (rewrite <- E; rewrite fpowN_fpow; change (N.to_nat 2) with 2%nat; cbn [fpow]; ring).
    rewrite E2, He in FT. apply H2. rewrite <- FT at 1. ring.
Qed.
Lemma rep_plus (w : F) : w = fofZ (pchar F + toZ w).
Proof. rewrite fofZ_add, fofZ_pchar, fofZ_toZ. ring. Qed.

Definition two_torsion : F * F := (0, - (1)).
Context (d : F) (Hi : exists i : F, i * i = - (1)) (Hd : forall s : F, s * s <> d) (H2 : (1 + 1 : F) <> 0).
Lemma torsion_on : on_curve d two_torsion. Proof. unfold on_curve, two_torsion. ring. Qed.
Lemma torsion_double : emul d 2 two_torsion = einf.
Proof.
  rewrite emul2. apply eadd_spec; [| |split; ring]; intro H; apply (f1_neq_0 F); rewrite <- H; ring.
Qed.
Lemma torsion_odd k : emul d (k * 2 + 1) two_torsion = two_torsion.
Proof.
  pose proof torsion_on as HT. rewrite emul_add, emul_mul, torsion_double, emul_1 by assumption.
  replace (emul d k einf) with (einf (F := F)); [apply eadd_0_l|].
  induction k as [|k IH]; [reflexivity|]. cbn [emul]. rewrite <- IH. symmetry. apply eadd_0_l.
Qed.
Lemma torsion_not_inf : two_torsion <> einf.
Proof.
  intro X. apply (f_equal snd) in X. cbn [two_torsion einf snd] in X. apply H2. rewrite <- X at 1. ring.
Qed.
End Generic.

(** The coefficient and the field. *)
Lemma bls_pchar' : pchar BLS = bls_r. Proof. reflexivity. Qed.
Lemma modZ a b : (a mod bls_r = b mod bls_r)%Z -> fofZ (F := BLS) a = fofZ b.
Proof. intro H. apply (fofZ_eq_mod BLS). exact H. Qed.

Theorem C38_coefficient : edwards_d * fofZ 10241 = - fofZ 10240.
Proof.
  unfold edwards_d, fofN. rewrite <- fofZ_mul, <- fofZ_opp. apply modZ. vm_compute. reflexivity.
Qed.

Lemma minus_one_square : exists i : BLS, i * i = - (1).
Proof.
  exists (fofZ 3465144826073652318776269530687742778270252468765361963008).
  rewrite <- fofZ_mul. rewrite <- (fofZ_1 BLS), <- fofZ_opp. apply modZ. vm_compute. reflexivity.
Qed.
Lemma two_nonzero : (1 + 1 : BLS) <> 0.
Proof.
  change (fofZ (F := BLS) 2 <> 0). apply (pf_char BLS). rewrite bls_pchar'. split; reflexivity.
Qed.
Lemma euler_d : fastpow (Z.of_N (le_value EDWARDS_D)) ((bls_r - 1) / 2) bls_r = (bls_r - 1)%Z.
Proof. vm_compute. reflexivity. Qed.
Lemma half_r : (Z.to_N (bls_r - 1) = 2 * Z.to_N ((bls_r - 1) / 2))%N.
Proof. vm_compute. reflexivity. Qed.
Lemma d_power : fpowN edwards_d (Z.to_N ((bls_r - 1) / 2)) = - (1).
Proof.
  unfold edwards_d, fofN. rewrite fofZ_powN. rewrite <- (fofZ_1 BLS), <- fofZ_opp. apply modZ.
  rewrite Z2N.id by (vm_compute; discriminate).
  rewrite <- fastpow_spec; [|reflexivity|vm_compute; discriminate]. rewrite euler_d. vm_compute. reflexivity.
Qed.
Lemma d_nonsquare : forall s : BLS, s * s <> edwards_d.
Proof.
  apply (euler BLS edwards_d (Z.to_N ((bls_r - 1) / 2))).
  - exact two_nonzero. - vm_compute. discriminate. - rewrite bls_pchar'. exact half_r. - exact d_power.
Qed.

(** The curve of the code: [on_curve], [eadd], [einf], [eneg] and [emul] are
    defined in Edwards.v. *)
Notation on := (on_curve edwards_d).
Notation plus := (eadd edwards_d).
Notation times := (emul edwards_d).

(** C38.  The points form a commutative group under the addition law, whose
    denominators never vanish on the curve. *)
Theorem C38_curve_is_a_group :
  on einf /\
  (forall p, on p -> on (eneg p)) /\
  (forall p q, on p -> on q -> on (plus p q)) /\
  (forall p q, plus p q = plus q p) /\
  (forall p, plus einf p = p) /\
  (forall p, on p -> plus p (eneg p) = einf) /\
  (forall p q r, on p -> on q -> on r -> plus p (plus q r) = plus (plus p q) r) /\
  (forall p q, on p -> on q ->
     1 + edwards_d * fst p * fst q * snd p * snd q <> 0 /\ 1 - edwards_d * fst p * fst q * snd p * snd q <> 0).
Proof.
  pose proof minus_one_square as Hi. pose proof d_nonsquare as Hd. pose proof two_nonzero as H2.
  split; [apply einf_on|]. split; [apply eneg_on|]. split; [intros; now apply eadd_on|].
  split; [apply eadd_comm|]. split; [apply eadd_0_l|]. split; [intros; now apply eadd_neg|].
  split; [intros; now apply eadd_assoc|].
  intros [x1 y1] [x2 y2] H1 H3. cbn [fst snd]. split; [now apply complete_x|now apply complete_y].
Qed.

(** C38.  Addition: in every satisfying assignment the output is the sum of the
    two inputs (even when an input is not on the curve, in which case a vanishing
    denominator makes the system unsatisfiable), and the prover's own values on
    the curve satisfy it. *)
Theorem C38_addition (p1 p2 : pvar) (e1 e2 : BLS * BLS) :
  sound (ecc_add BLS edwards_d p1 p2 e1 e2)
    (fun w o => wires BLS w (fst o) = plus (wires BLS w p1) (wires BLS w p2)) /\
  (forall c, Inv c -> hasp BLS c p1 e1 -> hasp BLS c p2 e2 -> on e1 -> on e2 ->
     let r := ecc_add BLS edwards_d p1 p2 e1 e2 c in
     Inv (snd r) /\ extends c (snd r) /\ wires BLS (val (snd r)) (fst (fst r)) = plus e1 e2).
Proof.
  split; [apply ecc_add_sound; [exact minus_one_square|exact d_nonsquare]|].
  intros c HI H1 H3 C1 C3.
  destruct (ha_ecc_add BLS edwards_d minus_one_square d_nonsquare two_nonzero c p1 p2 e1 e2 HI H1 H3 C1 C3) as [A [B [_ D]]].
  split; [exact A|]. split; [exact B|]. now apply hasp_wires.
Qed.

(** C38.  Selection by two bits. *)
Theorem C38_selection (g1 g2 g3 : BLS * BLS) (b0 b1 : nat) :
  sound (ecc_select BLS g1 g2 g3 b0 b1)
    (fun w o =>
       (w b0 = 0 -> w b1 = 0 -> wires BLS w (fst o) = einf) /\ (w b0 = 1 -> w b1 = 0 -> wires BLS w (fst o) = g1) /\
       (w b0 = 0 -> w b1 = 1 -> wires BLS w (fst o) = g2) /\ (w b0 = 1 -> w b1 = 1 -> wires BLS w (fst o) = g3)) /\
  (forall c, Inv c -> boolean (val c b0) -> boolean (val c b1) -> (b0 < nvars c)%nat -> (b1 < nvars c)%nat ->
     let r := ecc_select BLS g1 g2 g3 b0 b1 c in Inv (snd r) /\ extends c (snd r)).
Proof.
  split.
  - intros c w H.
    pose proof (fun x0 x1 => select_sound BLS g1 g2 g3 b0 b1 x0 x1 c w H) as S.
    split; [apply (S false false)|]. repeat split.
    + apply (S false false). + apply (S true false). + apply (S false true). + apply (S true true).
  - intros c HI B0 B1 L0 L1. destruct (boolean_bit BLS _ B0) as [x0 X0]. destruct (boolean_bit BLS _ B1) as [x1 X1].
    destruct (ha_select BLS edwards_d d_nonsquare c g1 g2 g3 b0 b1 x0 x1 HI (conj L0 X0) (conj L1 X1)) as [A [B _]].
    split; assumption.
Qed.

(** C38.  The precomputed multiples. *)
Theorem C38_base_multiples (base : BLS * BLS) (n : nat) : on base ->
  let '(b1, b2, b3) := compute_base_multiples BLS edwards_d base n in
  length b1 = n /\ length b2 = n /\ length b3 = n /\
  forall i, (i < n)%nat ->
    nth_error b1 i = Some (times (4 ^ i) base) /\ nth_error b2 i = Some (times (2 * 4 ^ i) base) /\
    nth_error b3 i = Some (times (3 * 4 ^ i) base).
Proof.
  intro H. unfold compute_base_multiples. rewrite !map_length, multiples_length. split; [reflexivity|].
  split; [reflexivity|]. split; [reflexivity|]. intros i Li. rewrite !nth_error_map.
  rewrite (multiples_nth BLS edwards_d minus_one_square d_nonsquare two_nonzero base n H i Li). auto.
Qed.

(** C38.  Multiplication by given bits (least significant first). *)
Theorem C38_multiplication_by_bits (base : BLS * BLS) (b : list nat) : on base ->
  Nat.even (length b) = true -> (0 < length b)%nat ->
  exists m, scalar_mul_with_bases BLS edwards_d (compute_base_multiples BLS edwards_d base (length b / 2)) b = Ok m /\
  sound m (fun w o => forall bits : list bool, Forall2 (fun i x => w i = fofZ (Z.b2z x)) b bits ->
             wires BLS w o = times (Z.to_nat (bitsZ (map Z.b2z bits))) base).
Proof.
  intros HB E L.
  destruct (with_bases_eq BLS edwards_d minus_one_square d_nonsquare two_nonzero base b HB E L) as [q [ps [n [_ [_ [_ Eq]]]]]].
  eexists. split; [exact Eq|]. intros c w Hs.
  pose proof (fun bs => with_bases_sound BLS edwards_d minus_one_square d_nonsquare two_nonzero base b bs _ HB E L Eq c w Hs) as WS.
  split; [apply (WS [])|]. intros bits Hb. destruct (WS bits) as [_ R]. rewrite (R Hb).
  rewrite <- (num_bits BLS edwards_d d_nonsquare), Nat2Z.id; [reflexivity|]. now rewrite <- (Forall2_len _ _ _ Hb).
Qed.

(** C38 (partial: scalars of at most 254 bits; for longer ones see
    C38_scalar_multiplication_any_length and C38_long_scalars_refuted).  The
    output is the multiple of the base by the value of the scalar variable, which
    is below [2^n]. *)
Theorem C38_scalar_multiplication_partial (base : BLS * BLS) (v n : nat) m : on base -> (n <= 254)%nat ->
  scalar_mul BLS edwards_d base v n = Ok m ->
  sound m (fun w o => (toZ (w v) < 2 ^ Z.of_nat n)%Z /\ wires BLS w o = times (Z.to_nat (toZ (w v))) base).
Proof.
  intros HB Hn Hm. eapply sound_weak.
  - exact (scalar_mul_sound BLS edwards_d minus_one_square d_nonsquare two_nonzero base v n m HB Hm).
  - intros w o [z [Rz [Ez Eo]]]. assert (T : toZ (w v) = z).
    { rewrite Ez. apply toZ_small. rewrite bls_pchar'. split; [apply Rz|].
      eapply Z.lt_trans; [apply Rz|]. apply (Z.le_lt_trans _ (2 ^ 254)).
      - apply Z.pow_le_mono_r; lia.
      - vm_compute. reflexivity. }
    rewrite T. split; [apply Rz|exact Eo].
Qed.

(** C38.  For every length: the outputs that satisfy the system are exactly the
    multiples by the numbers below [2^n] that reduce to the scalar. *)
Theorem C38_scalar_multiplication_any_length (base : BLS * BLS) (v n : nat) m : on base ->
  scalar_mul BLS edwards_d base v n = Ok m ->
  sound m (fun w o => exists z, (0 <= z < 2 ^ Z.of_nat n)%Z /\ w v = fofZ z /\ wires BLS w o = times (Z.to_nat z) base) /\
  (forall c w z, Forall (wire_lt (nvars c)) (grev c) -> (2 <= nvars c)%nat -> conv w -> sat c w -> (v < nvars c)%nat ->
     (0 <= z < 2 ^ Z.of_nat n)%Z -> w v = fofZ z ->
     exists w', (forall i, (i < nvars c)%nat -> w' i = w i) /\ sat (snd (m c)) w' /\
       wires BLS w' (fst (m c)) = times (Z.to_nat z) base).
Proof.
  intros HB Hm. split.
  - exact (scalar_mul_sound BLS edwards_d minus_one_square d_nonsquare two_nonzero base v n m HB Hm).
  - intros c w z. exact (scalar_mul_any BLS edwards_d minus_one_square d_nonsquare two_nonzero base v n m c w z HB Hm).
Qed.

(** C38.  The prover's own values satisfy the system and give the multiple. *)
Theorem C38_scalar_multiplication_honest (base : BLS * BLS) (v n : nat) m c : on base ->
  scalar_mul BLS edwards_d base v n = Ok m -> Inv c -> (v < nvars c)%nat -> (toZ (val c v) < 2 ^ Z.of_nat n)%Z ->
  Inv (snd (m c)) /\ extends c (snd (m c)) /\
  wires BLS (val (snd (m c))) (fst (m c)) = times (Z.to_nat (toZ (val c v))) base.
Proof.
  intros HB Hm HI Lv Lx.
  destruct (scalar_mul_honest BLS edwards_d minus_one_square d_nonsquare two_nonzero base v n m c (val c v) HB Hm HI (conj Lv eq_refl) Lx)
    as [A [B D]].
  split; [exact A|]. split; [exact B|]. now apply hasp_wires.
Qed.

(** C38.  When the gadget is refused. *)
Theorem C38_refused_lengths (base : BLS * BLS) (v n : nat) :
  (scalar_mul BLS edwards_d base v n = Panic <-> Nat.odd n = true \/ n = 0%nat) /\
  forall b1 b2 b3 b, scalar_mul_with_bases BLS edwards_d (b1, b2, b3) b = Panic <->
    Nat.odd (length b) = true \/ length b = 0%nat \/
    (length b / 2)%nat <> length b1 \/ (length b / 2)%nat <> length b2 \/ (length b / 2)%nat <> length b3.
Proof.
  split.
  - unfold scalar_mul. destruct (Nat.odd n); cbn [orb]; [split; auto|]. destruct (Nat.eqb_spec n 0); [split; auto|].
    split; [discriminate|]. intros [X|X]; [discriminate|contradiction].
  - intros b1 b2 b3 b. unfold scalar_mul_with_bases. cbv zeta.
    destruct (Nat.odd (length b)) eqn:Eo; cbn [orb]; [split; auto|].
    destruct (Nat.eqb_spec (length b) 0) as [E0|E0]; cbn [orb]; [split; auto|].
    destruct (Nat.eqb_spec (length b / 2) (length b1)) as [E1|E1]; cbn [orb negb]; [|split; auto].
    destruct (Nat.eqb_spec (length b / 2) (length b2)) as [E2|E2]; cbn [orb negb]; [|split; auto].
    destruct (Nat.eqb_spec (length b / 2) (length b3)) as [E3|E3]; cbn [orb negb]; [|split; auto 6].
    assert (Ev : Nat.even (length b) = true) by (rewrite <- Nat.negb_odd, Eo; reflexivity).
    pose proof (pairs_length BLS edwards_d d_nonsquare b Ev) as PL.
    assert (0 < length b / 2)%nat.
    { apply Nat.div_str_pos. split; [lia|]. destruct b as [|? [|]]; cbn in *; try discriminate; lia. }
    destruct b1, b2, b3; cbn [length] in *; try lia. destruct (pairs b); cbn [length] in *; [lia|].
    cbn [combine]. split; [discriminate|]. intros [X|[X|[X|[X|X]]]]; congruence.
Qed.

(** C38 (refuted for 256 bits, the length the crate's own test uses): if the base
    is not killed by the modulus of the scalar field, the same scalar has two
    satisfying outputs. *)
Theorem C38_long_scalars_refuted (base : BLS * BLS) (v : nat) m c w : on base ->
  times (Z.to_nat bls_r) base <> einf ->
  scalar_mul BLS edwards_d base v 256 = Ok m ->
  Forall (wire_lt (nvars c)) (grev c) -> (2 <= nvars c)%nat -> conv w -> sat c w -> (v < nvars c)%nat ->
  exists w1 w2, (forall i, (i < nvars c)%nat -> w1 i = w i /\ w2 i = w i) /\
    sat (snd (m c)) w1 /\ sat (snd (m c)) w2 /\
    wires BLS w1 (fst (m c)) = times (Z.to_nat (toZ (w v))) base /\
    wires BLS w2 (fst (m c)) <> times (Z.to_nat (toZ (w v))) base.
Proof.
  intros HB Hr Hm HW N2 HC HS Lv. set (x := toZ (w v)).
  assert (Rx : (0 <= x < bls_r)%Z) by apply (toZ_range BLS).
  assert (R2 : (bls_r < 2 ^ 255)%Z) by (vm_compute; reflexivity).
  assert (P2 : (2 ^ Z.of_nat 256 = 2 ^ 255 + 2 ^ 255)%Z) by (vm_compute; reflexivity).
  destruct (C38_scalar_multiplication_any_length base v 256 m HB Hm) as [_ K].
  destruct (K c w x HW N2 HC HS Lv) as [w1 [A1 [S1 O1]]]; [rewrite P2; lia|unfold x; now rewrite fofZ_toZ|].
  destruct (K c w (bls_r + x)%Z HW N2 HC HS Lv) as [w2 [A2 [S2 O2]]].
  { rewrite P2. lia. }
  { apply (rep_plus BLS). }
  exists w1, w2. split; [auto|]. split; [exact S1|]. split; [exact S2|]. split; [exact O1|].
  rewrite O2, Z2Nat.inj_add by lia.
  pose proof minus_one_square as Hi. pose proof d_nonsquare as Hd. pose proof two_nonzero as H2.
  rewrite emul_add by assumption. intro E. apply Hr.
  pose proof (emul_on edwards_d Hi Hd H2 (Z.to_nat bls_r) base HB) as C1.
  pose proof (emul_on edwards_d Hi Hd H2 (Z.to_nat x) base HB) as C2.
  apply (f_equal (fun p => plus p (eneg (times (Z.to_nat x) base)))) in E.
  rewrite <- eadd_assoc in E; [|assumption..|now apply eneg_on].
  rewrite eadd_neg, eadd_0_r in E by assumption. exact E.
Qed.

(** Non-vacuity: a point of the curve, the length 256, and a base that the modulus
    does not kill. *)
Definition a_point : BLS * BLS := (fofZ 947480793030046690521372793511108844824410854817750647956076029995258996586, fofZ 3).
Example C38_point_on_curve : on a_point.
Proof.
  unfold on_curve, a_point, edwards_d, fofN. rewrite <- (fofZ_1 BLS).
  rewrite <- !fofZ_mul, <- !fofZ_opp, <- !fofZ_add. apply modZ. vm_compute. reflexivity.
Qed.
Example C38_lengths : (exists m, scalar_mul BLS edwards_d a_point 2 254 = Ok m) /\ (exists m, scalar_mul BLS edwards_d a_point 2 256 = Ok m).
Proof. split; eexists; unfold scalar_mul; cbn [Nat.odd Nat.even negb orb Nat.eqb]; reflexivity. Qed.
Example C38_base_not_killed : on (two_torsion BLS) /\ times (Z.to_nat bls_r) (two_torsion BLS) <> einf.
Proof.
  split; [apply torsion_on|].
  assert (E : Z.to_nat bls_r = (Z.to_nat (bls_r / 2) * 2 + 1)%nat).
  { change 2%nat with (Z.to_nat 2). change 1%nat with (Z.to_nat 1) at 1.
    rewrite <- Z2Nat.inj_mul, <- Z2Nat.inj_add by (vm_compute; discriminate). f_equal. }
  rewrite E, torsion_odd; [apply torsion_not_inf, two_nonzero|exact minus_one_square|exact d_nonsquare|exact two_nonzero].
Qed.

Print Assumptions C38_coefficient.
Print Assumptions C38_curve_is_a_group.
Print Assumptions C38_addition.
Print Assumptions C38_selection.
Print Assumptions C38_base_multiples.
Print Assumptions C38_multiplication_by_bits.
Print Assumptions C38_scalar_multiplication_partial.
Print Assumptions C38_scalar_multiplication_any_length.
Print Assumptions C38_scalar_multiplication_honest.
Print Assumptions C38_refused_lengths.
Print Assumptions C38_long_scalars_refuted.
Print Assumptions C38_point_on_curve.
Print Assumptions C38_base_not_killed.
