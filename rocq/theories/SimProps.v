(** C42: arithmetic of a foreign field on limbs of BLS12-381 scalars. *)
From Coq Require Import List ZArith Bool Lia.
From Verif Require Import Base Field PField Zp Primality TurboModel TurboSpec TurboProofs TurboHonest TurboKit RescueModel
  SimModel SimSpec SimProofs SimZero SimCircuit SimHonest SimAlloc.
Import ListNotations.
Local Open Scope Z_scope.

Lemma bls_254 : 2 ^ 254 <= pchar BLS. Proof. vm_compute. discriminate. Qed.
Notation from P x := (sim_from BLS P x).

(** ** Conversions *)
(** Every element of the simulated field survives the conversion to limbs and
    back. *)
Theorem C42_round_trip : forall P, valid P -> forall x, 0 <= x < modulus P ->
  represents P (from P x) x /\ sim_into P (from P x) = Ok x.
Proof.
  intros P HV x Hx. pose proof (valid_facts P HV) as K. pose proof (from_represents BLS bls_254 P x K Hx) as R.
  split; [exact R|]. now apply into_represents.
Qed.
(** Integers of more than six limbs do not: the high digits are dropped and the
    conversion back panics. *)
Theorem C42_round_trip_iff : forall P, valid P -> forall x, 0 <= x ->
  sim_into P (from P x) = if x <? 2 ^ (6 * Z.of_nat (BIT_PER_LIMB P)) then Ok x else Panic.
Proof.
  intros P HV x Hx. rewrite (round_trip BLS bls_254 P x (valid_facts P HV) Hx). unfold st.
  rewrite <- Z.pow_mul_r by lia. now rewrite Z.mul_comm.
Qed.
Theorem C42_into : forall P a x, represents (F := BLS) P a x -> sim_into P a = Ok x /\ is_zero P a = Ok (x mod modulus P =? 0).
Proof. intros P a x R. split; [now apply into_represents|now apply is_zero_represents]. Qed.

(** ** The operations *)
Theorem C42_subtraction : forall P, valid P -> forall (a b : sim BLS) x y, represents P a x -> represents P b y ->
  additions (red a) <= 2 ^ 64 -> match red b with Others _ => False | _ => True end ->
  exists c z, sim_sub P a b = Ok c /\ represents P c z /\ same_mod P z (x - y).
Proof.
  intros P HV a b x y Ra Rb HC Hr. pose proof (valid_facts P HV) as K.
  destruct (sub_represents BLS bls_254 P a b x y K Ra Rb Hr HC) as (c & E & R & _). exists c, (x + pad_value P - y).
  split; [exact E|]. split; [exact R|]. pose proof (f_mod P K).
  apply same_sub; [lia|apply (f_pmod P K)|apply same_refl|apply same_refl].
Qed.
(** Subtracting an unreduced element panics. *)
Theorem C42_subtraction_unreduced : forall P (a b : sim BLS) n, red b = Others n -> sim_sub P a b = Panic.
Proof. intros P a b n H. unfold sim_sub. now rewrite H. Qed.
Theorem C42_multiplication : forall P, valid P -> forall (a b : sim BLS) x y, represents P a x -> represents P b y ->
  prod_additions (sim_mul a b) <= 2 ^ 64 -> mrepresents P (sim_mul a b) (x * y) /\ simul_into P (sim_mul a b) = Ok (x * y).
Proof.
  intros P HV a b x y Ra Rb HC. pose proof (valid_facts P HV) as K. pose proof (mul_represents BLS bls_254 P a b x y K Ra Rb HC) as R.
  split; [exact R|]. now apply minto_represents.
Qed.
Theorem C42_sum_of_products : forall P, valid P -> forall (a b : simul BLS) x y, mrepresents P a x -> mrepresents P b y ->
  prod_additions (simul_add a b) <= 2 ^ 64 -> mrepresents P (simul_add a b) (x + y).
Proof. intros P HV a b x y Ra Rb HC. exact (add_represents BLS bls_254 P a b x y (valid_facts P HV) Ra Rb HC). Qed.
Theorem C42_product_minus_element : forall P, valid P -> forall (a : simul BLS) (b : sim BLS) x y, mrepresents P a x -> represents P b y ->
  additions (red b) <= 4 -> prod_additions a + 12 <= 2 ^ 64 ->
  exists c z, simul_sub P a b = Ok c /\ mrepresents P c z /\ same_mod P z (x - y).
Proof.
  intros P HV a b x y Ra Rb Hr HC. pose proof (valid_facts P HV) as K.
  destruct (msub_represents BLS bls_254 P a b x y K Ra Rb Hr HC) as (c & E & R & _). exists c, (x + 4 * pad_value P - y).
  split; [exact E|]. split; [exact R|]. pose proof (f_mod P K) as HM.
  apply same_sub; [lia| |apply same_refl|apply same_refl]. pose proof (f_pmod P K) as HQ.
  apply Z.mod_divide in HQ; [|lia]. apply Z.mod_divide; [lia|]. now apply Z.divide_mul_r.
Qed.
(** The native zero check decides divisibility by the modulus, for products with
    a surfeit below 32; with more it panics. *)
Theorem C42_zero_check : forall P, valid P -> forall (m : simul BLS) x, mrepresents P m x ->
  enforce_zero P m = if (prod_additions m <? 32) && (x mod modulus P =? 0) then Ok tt else Panic.
Proof. intros P HV m x R. exact (enforce_zero_represents BLS bls_254 P m x (valid_facts P HV) R). Qed.

(** Any computation: if the operations do not panic, the zero check says exactly
    whether the result is zero in the simulated field. *)
Theorem C42_native_computation : forall P, valid P -> forall L (f : L -> sim BLS) (g : L -> Z) e m,
  mleaves (fun v => represents P (f v) (g v)) e -> meval P f e = Ok m ->
  (enforce_zero P m = Ok tt <-> prod_additions m < 32 /\ mmean g e mod modulus P = 0).
Proof. intros P HV L f g e m HL Em. exact (meval_zero BLS bls_254 f g P e m (valid_facts P HV) HL Em). Qed.

(** ** In the circuit *)
(** What an allocated witness is: any assignment gives it six limbs of the
    right widths, and the returned bits are the binary digits of its value. *)
Theorem C42_witness : forall P, valid P -> forall v c o bits c', alloc_witness P v c = Ok (o, bits, c') ->
  forall w, sat c' w -> limbs_ok P ByOne (wlimbs w (svar o)) /\
    0 <= wnumber P w (svar o) < 2 * modulus P /\
    map w bits = map (bit BLS (wnumber P w (svar o))) (seq 0 (5 * BIT_PER_LIMB P + BIT_IN_TOP_LIMB P)).
Proof.
  intros P HV v c o bits c' E w S. destruct (alloc_witness_sound BLS bls_254 P v HV c (o, bits) c' E w S) as (_ & H1 & H2 & _ & H3 & H4).
  cbn [fst snd] in *. unfold leaf_ok in H1. rewrite H2 in H1. pose proof (total_mod P HV). repeat split; try apply H1; try lia. exact H4.
Qed.
Theorem C42_bounded_witness_partial : forall P, valid P -> forall v n c o bits c', (n <= 5 * BIT_PER_LIMB P + BIT_IN_TOP_LIMB P)%nat ->
  alloc_witness_bounded_total_bits P v n c = Ok (o, bits, c') ->
  forall w, sat c' w -> w 0%nat = f0 -> limbs_ok P (red (sv o)) (wlimbs w (svar o)) /\
    0 <= wnumber P w (svar o) < 2 ^ Z.of_nat n /\ map w bits = map (bit BLS (wnumber P w (svar o))) (seq 0 n).
Proof.
  intros P HV v n c o bits c' Hn E w S W0.
  exact (proj2 (alloc_bounded_sound BLS bls_254 P v n HV Hn c (o, bits) c' E w S) W0).
Qed.
Theorem C42_constant : forall P (v : sim BLS) c w, represents P v (sval v) -> let '(o, c') := alloc_constant v c in
  sat c' w -> limbs_ok P (red (sv o)) (wlimbs w (svar o)) /\ wnumber P w (svar o) = sval v.
Proof.
  intros P v c w R. pose proof (alloc_constant_sound BLS P v R c w) as H. destruct (alloc_constant v c) as [o c']. intros S.
  destruct (H S) as (_ & H1 & _ & H2). auto.
Qed.
(** A public element is not constrained at all. *)
Theorem C42_input_unconstrained : forall v c w, let '(o, c') := alloc_input (F := BLS) v c in sat c w -> sat c' w.
Proof.
  intros v c w. unfold alloc_input. rewrite bnd_eq.
  assert (G : forall (l : list nat) c0, sat c0 w -> sat (snd (mapM BLS (fun i => new_variable BLS (nth i (limbs v) f0)) l c0)) w).
  { induction l as [|i l IH]; intros c0 S; [exact S|]. cbn [mapM]. rewrite !bnd_eq. cbn [ret snd]. apply IH. exact S. }
  cbn [ret]. intros S. now apply G.
Qed.

(** Whatever computation the circuit performs on elements of healthy limbs, an
    assignment that satisfies it and sends variable zero to zero makes the
    checked value a multiple of the modulus.  Missing for the full property: the
    constraint system does not force variable zero to be zero. *)
Theorem C42_circuit_sound_partial : forall P, valid P -> forall e c c', zero_circuit (F := BLS) P e c = Ok (tt, c') ->
  forall w, sat c' w -> w 0%nat = f0 -> mleaves (fun v => limbs_ok P (red (sv v)) (wlimbs w (svar v))) e ->
  mmean (fun v => wnumber P w (svar v)) e mod modulus P = 0.
Proof.
  intros P HV e c c' E w S W0 HL.
  exact (proj2 (zero_circuit_sound BLS bls_254 P e (valid_facts P HV) c tt c' E w S) W0 HL).
Qed.
(** Honest provers get through: when the leaves carry their limbs, and the native
    computation succeeds with a multiple of the modulus and a surfeit below 32,
    the circuit is built without panic and its recorded values satisfy it. *)
Theorem C42_circuit_complete : forall P, valid P -> forall e g m c, Inv c ->
  mleaves (fun v => Forall2 (has BLS c) (svar v) (limbs (sv v)) /\ represents P (sv v) (g v)) e ->
  meval P (@sv BLS) e = Ok m -> prod_additions m < 32 -> mmean g e mod modulus P = 0 ->
  exists c', zero_circuit P e c = Ok (tt, c') /\ Inv c'.
Proof.
  intros P HV e g m c HI HL Em Hn Hz.
  destruct (zero_circuit_ha BLS bls_254 P e g m c (valid_facts P HV) HI HL Em Hn Hz) as ([] & c' & E & I' & _). eauto.
Qed.

(** ** A complete circuit: three witnesses with [x * y = z] *)
Definition product_program (P : params) (x y z : Z) : CR BLS (simvar BLS * simvar BLS * simvar BLS) :=
  rbnd (alloc_witness P (from P x)) (fun a =>
  rbnd (alloc_witness P (from P y)) (fun b =>
  rbnd (alloc_witness P (from P z)) (fun d =>
  rbnd (zero_circuit P (MMinus (Times (Leaf (fst a)) (Leaf (fst b))) (Leaf (fst d)))) (fun _ => rret (fst a, fst b, fst d))))).
Theorem C42_product_circuit_sound_partial : forall P, valid P -> forall x y z a b d c', product_program P x y z (cs_new BLS) = Ok (a, b, d, c') ->
  forall w, sat c' w -> w 0%nat = f0 ->
  (wnumber P w (svar a) * wnumber P w (svar b)) mod modulus P = wnumber P w (svar d) mod modulus P.
Proof.
  intros P HV x y z a b d c' E w S W0. pose proof (valid_facts P HV) as K. pose proof (f_mod P K).
  assert (R : rsound BLS (product_program P x y z) (fun w r => w 0%nat = f0 ->
    (wnumber P w (svar (fst (fst r))) * wnumber P w (svar (snd (fst r))) - wnumber P w (svar (snd r))) mod modulus P = 0)).
  { unfold product_program. eapply rs_bind; [apply (alloc_witness_sound BLS bls_254 P _ HV)|]. intros va.
    eapply rs_bind; [apply (alloc_witness_sound BLS bls_254 P _ HV)|]. intros vb.
    eapply rs_bind; [apply (alloc_witness_sound BLS bls_254 P _ HV)|]. intros vd.
    eapply rs_bind; [apply (zero_circuit_sound BLS bls_254 P _ K)|]. intros []. apply rs_ret.
    intros w' Hz (Ld & _) (Lb & _) (La & _) W. cbn [fst snd]. apply (Hz W). cbn [mleaves sleaves]. auto. }
  destruct (R _ _ _ E w S) as [_ H1]. specialize (H1 W0). cbn [fst snd] in H1.
  rewrite (Z.mod_eq (wnumber P w (svar d))) by lia. apply Z.mod_divide in H1; [|lia]. destruct H1 as [q Hq].
  replace (wnumber P w (svar a) * wnumber P w (svar b)) with (wnumber P w (svar d) + q * modulus P) by lia.
  rewrite Z_mod_plus_full, <- Z.mod_eq by lia. reflexivity.
Qed.
Theorem C42_product_circuit_complete : forall P, valid P -> forall x y z, 0 <= x < modulus P -> 0 <= y < modulus P -> 0 <= z < modulus P ->
  (x * y) mod modulus P = z ->
  exists a b d c', product_program P x y z (cs_new BLS) = Ok (a, b, d, c') /\ Inv c' /\
    wnumber P (val c') (svar a) = x /\ wnumber P (val c') (svar b) = y /\ wnumber P (val c') (svar d) = z.
Proof.
  intros P HV x y z Hx Hy Hz E. pose proof (valid_facts P HV) as K. pose proof (f_mod P K) as HM. pose proof (f_mod1 P K) as HM1.
  assert (HT : forall u, 0 <= u < modulus P -> 0 <= u < 2 ^ Z.of_nat (total P)).
  { intros u Hu. replace (2 ^ Z.of_nat (total P)) with (st P * st P * st P * st P * st P * tp P); [lia|].
    unfold total, st, tp. rewrite <- !Z.pow_add_r by lia. f_equal. lia. }
  assert (G : har BLS (product_program P x y z) (cs_new BLS) (fun r c' =>
    (honest_leaf BLS c' (fst (fst r)) /\ represents P (sv (fst (fst r))) x) /\
    (honest_leaf BLS c' (snd (fst r)) /\ represents P (sv (snd (fst r))) y) /\
    (honest_leaf BLS c' (snd r) /\ represents P (sv (snd r)) z))).
  { unfold product_program.
    eapply hr_bind; [apply (alloc_witness_ha BLS bls_254 P x _ HV (HT _ Hx)), inv_new|]. intros va c1 I1 X1 (A1 & A2 & A3).
    eapply hr_bind; [apply (alloc_witness_ha BLS bls_254 P y _ HV (HT _ Hy)), I1|]. intros vb c2 I2 X2 (B1 & B2 & B3).
    eapply hr_bind; [apply (alloc_witness_ha BLS bls_254 P z _ HV (HT _ Hz)), I2|]. intros vd c3 I3 X3 (D1 & D2 & D3).
    assert (A1' : honest_leaf BLS c3 (fst va)) by (eapply all_mono; [|exact A1]; eapply extends_trans; eassumption).
    assert (B1' : honest_leaf BLS c3 (fst vb)) by (eapply all_mono; [exact X3|exact B1]).
    destruct (msub_represents BLS bls_254 P (sim_mul (sv (fst va)) (sv (fst vb))) (sv (fst vd)) (x * y) z K) as (m & Em & _ & Hm).
    - apply (mul_represents BLS bls_254); auto. cbn [sim_mul prod_additions]. rewrite A3, B3. cbn. unfold CAP. lia.
    - exact D2.
    - rewrite D3. cbn. lia.
    - cbn [sim_mul prod_additions]. rewrite A3, B3. cbn. unfold CAP. lia.
    - set (g := fun v : simvar BLS => sval (sv v)).
      assert (Ga : sval (sv (fst va)) = x) by apply A2. assert (Gb : sval (sv (fst vb)) = y) by apply B2. assert (Gd : sval (sv (fst vd)) = z) by apply D2.
      eapply hr_bind; [apply (zero_circuit_ha BLS bls_254 P _ g m c3 K I3)|].
      + cbn [mleaves sleaves]. unfold g. rewrite Ga, Gb, Gd. auto.
      + cbn [meval seval bind]. exact Em.
      + rewrite Hm. cbn [sim_mul prod_additions]. rewrite A3, B3. cbn. lia.
      + cbn [mmean smean]. unfold g. rewrite Ga, Gb, Gd. rewrite Zminus_mod, E, Zminus_mod_idemp_r, Z.sub_diag. apply Zmod_0_l.
      + intros _ c4 I4 X4 _. apply hr_ret; [exact I4|]. cbn [fst snd].
        split; [split; [exact (all_mono BLS _ _ _ _ X4 A1')|exact A2]|].
        split; [split; [exact (all_mono BLS _ _ _ _ X4 B1')|exact B2]|split; [exact (all_mono BLS _ _ _ _ X4 D1)|exact D2]]. }
  destruct G as ([[a b] d] & c' & E' & I' & _ & (A1 & A2) & (B1 & B2) & (D1 & D2)). cbn [fst snd] in *.
  exists a, b, d, c'. split; [exact E'|]. split; [exact I'|].
  assert (W : forall v u, honest_leaf BLS c' v -> represents P (sv v) u -> wnumber P (val c') (svar v) = u).
  { intros v u H (_ & N & _). unfold wnumber. rewrite wlimbs_map, (RescueProofs.has_map BLS c' _ _ H). exact N. }
  split; [now apply W|]. split; now apply W.
Qed.

(** ** Concrete cases *)
Example C42_valid : valid ristretto /\ valid secq256k1. Proof. split; [left|right]; reflexivity. Qed.
Example C42_moduli : modulus ristretto = 2 ^ 252 + 27742317777372353535851937790883648493 /\
  modulus secq256k1 = 2 ^ 256 - 2 ^ 32 - 977.
Proof. split; reflexivity. Qed.
Example C42_subtraction_case : match sim_sub ristretto (from ristretto 5) (from ristretto 7) with
  | Ok c => sim_into ristretto c = Ok (pad_value ristretto - 2) | _ => False end.
Proof. vm_compute. reflexivity. Qed.
Example C42_zero_case : enforce_zero secq256k1 (sim_mul (from secq256k1 5) (from secq256k1 0)) = Ok tt /\
  enforce_zero secq256k1 (sim_mul (from secq256k1 5) (from secq256k1 3)) = Panic.
Proof. split; vm_compute; reflexivity. Qed.
Example C42_complete_case : exists a b d c', product_program ristretto 3 5 15 (cs_new BLS) = Ok (a, b, d, c') /\ Inv c' /\
    wnumber ristretto (val c') (svar a) = 3 /\ wnumber ristretto (val c') (svar b) = 5 /\ wnumber ristretto (val c') (svar d) = 15.
Proof. apply C42_product_circuit_complete; [left; reflexivity| | | |reflexivity]; vm_compute; split; congruence. Qed.

Print Assumptions C42_round_trip.
Print Assumptions C42_round_trip_iff.
Print Assumptions C42_into.
Print Assumptions C42_subtraction.
Print Assumptions C42_subtraction_unreduced.
Print Assumptions C42_multiplication.
Print Assumptions C42_sum_of_products.
Print Assumptions C42_product_minus_element.
Print Assumptions C42_zero_check.
Print Assumptions C42_native_computation.
Print Assumptions C42_witness.
Print Assumptions C42_bounded_witness_partial.
Print Assumptions C42_constant.
Print Assumptions C42_input_unconstrained.
Print Assumptions C42_circuit_sound_partial.
Print Assumptions C42_circuit_complete.
Print Assumptions C42_product_circuit_sound_partial.
Print Assumptions C42_product_circuit_complete.
