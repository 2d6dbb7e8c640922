(** C23: the proof that a committed public key is the committed secret key times the generator. *)
From Coq Require Import List Arith NArith ZArith Bool Lia ZifyBool ZifyNat Field Ring.
From Verif Require Import Base Field PField Primality CmixModel CmixSpec SecpPrime MsmModel BucketModel BucketSpec BucketProps SmulModel SmulSpec SmulProofs SmulExact.
Import ListNotations.
Local Open Scope F_scope.

Section C23.
Context {F : PField}.
Add Field Fc23 : (f_th F).

(** Exactly what the verifier's constraints say about the committed coordinates and secret: the secret is the
    sum of some bits, and for some freely chosen slopes the walk from the dummy point meets the "sum" of the
    public key and the dummy point. *)
Theorem C23_exact (d : pt F) (pts : list (pt F)) (x y k : F) : accepts d pts x y k <->
  exists bs ss t, length bs = length pts /\ length ss = length pts /\ k = fofZ (bits_val bs) /\
    plus_slope t (x, y) d = walk (combine (combine bs pts) ss) d.
Proof. apply accepts_iff. Qed.
(** The ordinate of the public key is not constrained at all. *)
Theorem C23_ordinate_refuted (d : pt F) (pts : list (pt F)) (x y y' k : F) : accepts d pts x y k -> accepts d pts x y' k.
Proof. rewrite !C23_exact. intros [bs [ss [t [A [B [E H]]]]]]. exists bs, ss, t. repeat split; auto. Qed.
(** Any pair of numbers is accepted as public key of any secret with three set bits. *)
Theorem C23_total_forgery_refuted (d : pt F) (pts : list (pt F)) (bs : list bool) : 1 + 1 <> (0 : F) -> length bs = length pts -> (3 <= weight bs)%nat ->
  forall x y, accepts d pts x y (fofZ (bits_val bs)).
Proof. intros H2 L W x y. now apply forgery. Qed.
(** Prover and verifier build the same constraints. *)
Theorem C23_same_constraints (d : pt F) (pts : list (pt F)) pk k c : prover_system d pts pk k = Ok c -> exists c', verifier_system d pts = Ok c' /\ same_shape c c'.
Proof. intros E. destruct (verifier_ok d pts) as [c' E']. exists c'. split; [exact E'|]. pose proof (shape_system d pts pk k) as H. now rewrite E, E' in H. Qed.
End C23.

(** With a curve: [G] is the generator, [D] the dummy point. *)
Section Curve.
Context {F : PField} {K : Field} {M : Mod K} (C : Curve F K M) (G D : M) (d : pt F) (pts : list (pt F)).
Hypothesis HD : xy C D = Some d.
Hypothesis HT : table C G pts.
Add Field Fc23b : (f_th F).

(** The property fails: there are accepted triples whose point is not on the curve, and, whatever the point, accepted
    triples whose secret is not its discrete logarithm. *)
Theorem C23_public_key_refuted : (3 <= length pts)%nat ->
  ~ (forall x y k, accepts d pts x y k -> exists P, xy C P = Some (x, y)) /\
  (forall P x y, xy C P = Some (x, y) -> accepts d pts x y (fofZ 7)).
Proof.
  intros L.
  assert (A : forall x y, accepts d pts x y (fofZ 7)).
  { intros x y. pose proof (C23_total_forgery_refuted d pts (true :: true :: true :: repeat false (length pts - 3)) (two_neq_0 _ _ _ C)) as H.
    assert (E : bits_val (true :: true :: true :: repeat false (length pts - 3)) = 7%Z).
    { cbn [bits_val]. assert (Z0 : forall n, bits_val (repeat false n) = 0%Z) by (induction n as [|n IH]; cbn [repeat bits_val]; [reflexivity|rewrite IH; reflexivity]). rewrite Z0. reflexivity. }
    rewrite E in H. apply H; [cbn [length]; rewrite repeat_length; lia|unfold weight; cbn; lia]. }
  split; [|intros P x y _; apply A]. intros H.
  destruct (f_dec (coeff_b C) 0) as [E|E].
  - destruct (H 0 1 _ (A 0 1)) as [P HP]. apply (xy_curve _ _ _ C) in HP. rewrite E in HP. apply (f1_neq_0 F). transitivity (1 * 1 : F); [ring|]. rewrite HP. ring.
  - destruct (H 0 0 _ (A 0 0)) as [P HP]. apply (xy_curve _ _ _ C) in HP. apply E. transitivity (0 * 0 * 0 + coeff_b C); [ring|]. rewrite <- HP. ring.
Qed.

(** Completeness: the honest prover with secret [z] and public key [z G] produces a satisfied system, hence an
    accepted triple, unless a chord is missing on the way. *)
Theorem C23_honest_partial (z : Z) (x y : F) : (0 <= z < pchar F)%Z -> (z < 2 ^ Z.of_nat (length pts))%Z ->
  xy C (mulZ z G) = Some (x, y) ->
  (forall i, (i < length pts)%nat -> ~ collides G D z i) -> mulZ z G <> D -> mulZ z G <> mopp D ->
  (exists c, prover_system d pts (x, y) (fofZ z) = Ok c /\ sat c (wval c)) /\ accepts d pts x y (fofZ z).
Proof.
  intros Hz Hn HP Hc N1 N2. assert (Tz : toZ (fofZ (F := F) z) = z) by (apply toZ_small; lia).
  destruct (walk_ok C pts G D d z HT HD ltac:(lia) Hc) as [q [Q1 Q2]].
  destruct (chord_ok C (mulZ z G) D (x, y) d HP HD N1 N2) as [s [r [E R]]].
  assert (Er : r = q) by (rewrite madd_comm in R; congruence). subst r.
  destruct (prover_ok d pts (x, y) (fofZ z) q (s, q) ltac:(rewrite Tz; lia) ltac:(rewrite Tz; exact Q1) E eq_refl) as [c [Ec [Sc [Vx [Vy Vk]]]]].
  split; [exists c; auto|]. destruct (C23_same_constraints d pts _ _ c Ec) as [c' [Ec' Sh]]. exists c', (wval c). repeat split; auto; now apply (same_shape_sat c c' _ Sh).
Qed.
(** If a chord is missing the prover panics. *)
Theorem C23_prover_panics (z : Z) (x y : F) : (0 <= z < pchar F)%Z -> (z < 2 ^ Z.of_nat (length pts))%Z ->
  xy C (mulZ z G) = Some (x, y) ->
  (exists i, (i < length pts)%nat /\ collides G D z i) \/ mulZ z G = D \/ mulZ z G = mopp D ->
  prover_system d pts (x, y) (fofZ z) = Panic.
Proof.
  intros Hz Hn HP Hc. assert (Tz : toZ (fofZ (F := F) z) = z) by (apply toZ_small; lia).
  apply prover_panics; rewrite Tz; [lia|]. destruct Hc as [[i [Hi Hc]]|Hc].
  - pose proof (walk_panics C pts G D d z i HT HD Hi Hc) as H. destruct (prover_walk _ d); tauto.
  - destruct (prover_walk _ d); auto. now apply (chord_panics C (mulZ z G) D (x, y) d).
Qed.
End Curve.

(** The field of the code, with its 256 bits: any coordinates are accepted for any secret that has three set bits or
    is smaller than 2^32 + 977 (such a secret has a second decomposition, as itself plus the modulus). *)
Lemma weight_app a b : weight (a ++ b) = (weight a + weight b)%nat.
Proof. unfold weight. rewrite filter_app, app_length. reflexivity. Qed.
Lemma bits_le_app n m z : bits_le (n + m) z = bits_le n z ++ map (fun i => Z.testbit z (Z.of_nat i)) (seq n m).
Proof. unfold bits_le. now rewrite seq_app, map_app. Qed.
Lemma top_bits z : (2 ^ 256 - 2 ^ 253 <= z < 2 ^ 256)%Z -> (3 <= weight (bits_le 256 z))%nat.
Proof.
  intros H. change 256%nat with (253 + 3)%nat. rewrite bits_le_app, weight_app. cbn [seq map].
  assert (T : forall j, (253 <= j < 256)%Z -> Z.testbit z j = true).
  { intros j Hj. replace j with ((j - 253) + 253)%Z by lia. rewrite <- Z.shiftr_spec, Z.shiftr_div_pow2 by lia.
    assert (E : (z / 2 ^ 253 = 7)%Z) by (symmetry; apply (Z.div_unique_pos _ _ _ (z - 7 * 2 ^ 253)); lia). rewrite E.
    assert (J : (j - 253 = 0 \/ j - 253 = 1 \/ j - 253 = 2)%Z) by lia. destruct J as [-> | [-> | ->]]; reflexivity. }
  rewrite !T by lia. unfold weight at 2. cbn [filter length]. lia.
Qed.
Theorem C23_secp_forgery_refuted (d : pt SecpQ) (pts : list (pt SecpQ)) (k : SecpQ) : length pts = 256%nat ->
  (3 <= weight (bits_le 256 (toZ k)))%nat \/ (toZ k < 2 ^ 32 + 977)%Z ->
  forall x y, accepts d pts x y k.
Proof.
  intros L H x y. assert (H2 : 1 + 1 <> (0 : SecpQ)). { intros Q. apply (pf_char SecpQ 2); [split; [lia|reflexivity]|exact Q]. }
  pose proof (toZ_range SecpQ k) as R. change (pchar SecpQ) with secp_q in R. rewrite secp_q_eq in R.
  destruct H as [H|H].
  - rewrite <- (fofZ_toZ SecpQ k), <- (bits_le_val 256 (toZ k)) by lia. apply C23_total_forgery_refuted; auto.
  - assert (E : k = fofZ (bits_val (bits_le 256 (toZ k + secp_q)))).
    { rewrite bits_le_val by (rewrite secp_q_eq; lia). rewrite <- (fofZ_toZ SecpQ k) at 1. apply (toZ_inj SecpQ). rewrite !toZ_fofZ. change (pchar SecpQ) with secp_q. rewrite <- (Z.mul_1_l secp_q) at 2. now rewrite Z_mod_plus_full. }
    rewrite E. apply C23_total_forgery_refuted; [exact H2|now rewrite bits_le_len|]. apply top_bits. rewrite secp_q_eq. lia.
Qed.
(** Fewer than three commitments make [verify] panic; further ones are ignored. *)
Theorem C23_commitments {T} (l : list T) : verify_commitments l = Panic <-> (length l < 3)%nat.
Proof. destruct l as [|? [|? [|? l]]]; cbn; split; intros; try discriminate; try lia; reflexivity. Qed.

(** Cases: the group of the cubic y^2 = x^3 over the field with 101 elements, generator 1, dummy point 50, six bits, secret 45. *)
Lemma two_101 : 1 + 1 <> (0 : P101). Proof. intros H. apply (pf_char P101 2%Z); [split; reflexivity|exact H]. Qed.
Notation C101 := (cusp P101 two_101).
Definition pt101 (z : Z) : pt P101 := match cusp_xy P101 (fofZ z) with Some p => p | None => (0, 0) end.
Definition pts101 : list (pt P101) := map (fun i => pt101 (2 ^ Z.of_nat i)) (seq 0 6).
Lemma pt101_ok z : (z mod 101 <> 0)%Z -> xy C101 (fofZ (F := P101) z : self_mod P101) = Some (pt101 z).
Proof.
  intros H. unfold pt101. cbn [xy cusp]. destruct (cusp_xy P101 (fofZ z)) as [p|] eqn:E; [reflexivity|]. apply cusp_0 in E. exfalso. apply H. change 101%Z with (pchar P101). rewrite <- (toZ_fofZ P101), E. apply (toZ_0 P101).
Qed.
Lemma mul101 z : mulZ (M := self_mod P101) z (fofZ 1 : P101) = fofZ z.
Proof. unfold mulZ. cbn [smul self_mod]. rewrite <- (fofZ_mul P101). now rewrite Z.mul_1_r. Qed.
Lemma table101 : table C101 (fofZ 1 : self_mod P101) pts101.
Proof.
  intros i p H. rewrite mul101. do 6 (destruct i as [|i]; [injection H as <-; apply pt101_ok; discriminate|]). destruct i; discriminate.
Qed.
Lemma neq101 a b : ((a mod 101) <> (b mod 101))%Z -> fofZ (F := P101) a <> fofZ b.
Proof. intros H E. apply H. change 101%Z with (pchar P101). now rewrite <- !(toZ_fofZ P101), E. Qed.
Example C23_case : (exists c, prover_system (pt101 50) pts101 (pt101 45) (fofZ 45) = Ok c /\ sat c (wval c)) /\ accepts (pt101 50) pts101 (fst (pt101 45)) (snd (pt101 45)) (fofZ 45).
Proof.
  destruct (pt101 45) as [x y] eqn:E.
  apply (C23_honest_partial C101 (fofZ 1 : self_mod P101) (fofZ 50 : self_mod P101) (pt101 50) pts101).
  - apply pt101_ok. discriminate.
  - exact table101.
  - split; [discriminate|reflexivity].
  - reflexivity.
  - rewrite mul101, <- E. apply pt101_ok. discriminate.
  - intros i Hi. unfold collides. rewrite !mul101. cbn [madd mopp self_mod]. rewrite <- (fofZ_add P101), <- (fofZ_opp P101).
    assert (Hi' : (i < 6)%nat) by exact Hi. do 6 (destruct i as [|i]; [intros [Q|Q]; revert Q; apply neq101; discriminate|]). lia.
  - rewrite mul101. apply neq101. discriminate.
  - rewrite mul101. cbn [mopp self_mod]. rewrite <- (fofZ_opp P101). apply neq101. discriminate.
Qed.
(** The public key 1/4, 1/8 (the point 2) passes for the secret 45 as well. *)
Example C23_forgery_case : accepts (pt101 50) pts101 (fst (pt101 2)) (snd (pt101 2)) (fofZ 45).
Proof. apply (C23_total_forgery_refuted (pt101 50) pts101 (bits_le 6 45) two_101 eq_refl). vm_compute. lia. Qed.
(** With the dummy point equal to the generator, the prover panics at the first step. *)
Example C23_panic_case : prover_system (pt101 1) pts101 (pt101 45) (fofZ 45) = Panic.
Proof.
  destruct (pt101 45) as [x y] eqn:E.
  apply (C23_prover_panics C101 (fofZ 1 : self_mod P101) (fofZ 1 : self_mod P101) (pt101 1) pts101).
  - apply pt101_ok. discriminate.
  - exact table101.
  - split; [discriminate|reflexivity].
  - reflexivity.
  - rewrite mul101, <- E. apply pt101_ok. discriminate.
  - left. exists 0%nat. split; [cbn; lia|]. apply collides_0. now left.
Qed.
Example C23_secp_case (d : pt SecpQ) (pts : list (pt SecpQ)) : length pts = 256%nat -> accepts d pts (fofZ 5) (fofZ 6) (fofZ 1).
Proof. intros L. apply C23_secp_forgery_refuted; [exact L|right]. rewrite toZ_small; [reflexivity|split; [lia|reflexivity]]. Qed.
Print Assumptions C23_exact.
Print Assumptions C23_ordinate_refuted.
Print Assumptions C23_total_forgery_refuted.
Print Assumptions C23_same_constraints.
Print Assumptions C23_public_key_refuted.
Print Assumptions C23_honest_partial.
Print Assumptions C23_prover_panics.
Print Assumptions C23_secp_forgery_refuted.
Print Assumptions C23_commitments.
