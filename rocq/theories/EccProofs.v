(** Proofs about the in-circuit curve gadgets. *)
From Coq Require Import List ZArith NArith Bool Lia ZifyBool ZifyNat Field Ring.
From Verif Require Import Base Field PField TurboModel TurboSpec TurboProofs TurboHonest TurboKit Edwards EccModel.
Import ListNotations.
Local Open Scope F_scope.

Section EccP.
Context (F : PField) (d : F).
Add Field Feccp : (f_th F).
Context (Hi : exists i : F, i * i = - (1)) (Hd : forall s : F, s * s <> d) (H2 : (1 + 1 : F) <> 0).
Implicit Types (c : tcs F) (w : nat -> F).
Notation has := (has F).
Notation ha := (ha F).

(** The point carried by a pair of variables. *)
Definition wires w (v : pvar) : F * F := (w (fst v), w (snd v)).

(** ** Rows *)
Lemma ecc_row_eq w k a b (c : nat) e o :
  gate_eq w (ecc_row F k a b c e o) <-> w a * w b + w c * w e + k * w a * w b * w c * w e * w o = w o.
Proof.
  unfold gate_eq, ecc_row. cbn [q1 q2 q3 q4 qm1 qm2 qc qecc qh1 qh2 qh3 qh4 qo w1 w2 w3 w4 wo g_pub].
  split; intros H.
  - transitivity (1 * w o); [rewrite <- H; ring|ring].
  - transitivity (w o); [rewrite <- H at 2; ring|ring].
Qed.
Lemma select_row_eq w k1 k2 m k b0 b1 o :
  gate_eq w (EccModel.select_row F k1 k2 m k b0 b1 o) <-> w o = k1 * w b0 + k2 * w b1 + m * (w b0 * w b1) + k.
Proof.
  unfold gate_eq, EccModel.select_row.
  cbn [q1 q2 q3 q4 qm1 qm2 qc qecc qh1 qh2 qh3 qh4 qo w1 w2 w3 w4 wo g_pub].
  split; intros H.
  - transitivity (1 * w o); [ring|]. rewrite <- H. ring.
  - rewrite H. ring.
Qed.

(** ** Soundness *)
Lemma new_point_sound p : sound (new_point_variable F p) (fun _ _ => True).
Proof.
  apply (sb F _ _ (fun _ _ => True)); [apply sound_new|]. intros x.
  apply (sb F _ _ (fun _ _ => True)); [apply sound_new|]. intros y. now apply sr.
Qed.

(** The two rows force the sum, whatever the operands. *)
Lemma add_gate_sound p1 p2 out :
  sound (insert_ecc_add_gate F d p1 p2 out)
    (fun w _ => wires w out = eadd d (wires w p1) (wires w p2)).
Proof.
  apply (sb F _ _ (fun w _ => gate_eq w (ecc_row F (- d) (fst p1) (snd p2) (fst p2) (snd p1) (fst out)))).
  { eapply sound_weak; [apply sound_push|]. intros w a H. apply H. }
  intros u. eapply sound_weak; [apply sound_push|]. intros w a [E2 _] E1.
  apply ecc_row_eq in E1. apply ecc_row_eq in E2.
  destruct p1 as [x1 y1], p2 as [x2 y2], out as [x3 y3]. unfold wires. cbn [fst snd] in *.
  assert (N1 : w x3 * (1 + d * w x1 * w x2 * w y1 * w y2) = w x1 * w y2 + w y1 * w x2).
  { rewrite <- E1 at 1. replace (w x1 * w y2 + w y1 * w x2) with
      (w x1 * w y2 + w y1 * w x2 + (w x3 - w x3) * (1 + d * w x1 * w x2 * w y1 * w y2)) by ring.
    transitivity ((w x1 * w y2 + w x2 * w y1 + - d * w x1 * w y2 * w x2 * w y1 * w x3)
                  + w x3 * (d * w x1 * w x2 * w y1 * w y2)
                  + ((w x1 * w y2 + w x2 * w y1 + - d * w x1 * w y2 * w x2 * w y1 * w x3) - w x3)
                    * (d * w x1 * w x2 * w y1 * w y2)); [ring|].
    rewrite E1 at 2. ring. }
  assert (N2 : w y3 * (1 - d * w x1 * w x2 * w y1 * w y2) = w y1 * w y2 + w x1 * w x2).
  { transitivity (w y3 - d * w x1 * w x2 * w y1 * w y2 * w y3); [ring|]. rewrite <- E2 at 1. ring. }
  symmetry. apply eadd_spec; [| |split; assumption].
  - intro Z. apply (den_x d Hd _ _ _ _ Z). rewrite <- N1, Z. ring.
  - intro Z. apply (den_y d Hi Hd _ _ _ _ Z). rewrite <- N2, Z. ring.
Qed.

Lemma ecc_add_sound p1 p2 e1 e2 :
  sound (ecc_add F d p1 p2 e1 e2) (fun w o => wires w (fst o) = eadd d (wires w p1) (wires w p2)).
Proof.
  unfold ecc_add. apply (sb F _ _ (fun _ _ => True)); [apply new_point_sound|]. intros out.
  eapply sb; [apply add_gate_sound|]. intros u. apply sr. auto.
Qed.

(** The base selected by two bits. *)
Definition pick (g1 g2 g3 : F * F) (x0 x1 : bool) : F * F :=
  match x0, x1 with false, false => einf | true, false => g1 | false, true => g2 | true, true => g3 end.

Lemma select_values (g1 g2 g3 : F * F) x0 x1 :
  let f := fun b : bool => fofZ (F := F) (Z.b2z b) in
  fst g1 * f x0 + fst g2 * f x1 + (fst g3 - (fst g1 + fst g2)) * (f x0 * f x1) + 0 = fst (pick g1 g2 g3 x0 x1) /\
  (snd g1 - 1) * f x0 + (snd g2 - 1) * f x1 + (snd g3 + 1 - (snd g1 + snd g2)) * (f x0 * f x1) + 1
  = snd (pick g1 g2 g3 x0 x1).
Proof.
  cbv zeta. destruct x0, x1; cbn [Z.b2z pick einf fst snd]; rewrite ?fofZ_0, ?fofZ_1; split; ring.
Qed.

Lemma select_sound g1 g2 g3 b0 b1 x0 x1 :
  sound (ecc_select F g1 g2 g3 b0 b1)
    (fun w o => w b0 = fofZ (Z.b2z x0) -> w b1 = fofZ (Z.b2z x1) -> wires w (fst o) = pick g1 g2 g3 x0 x1).
Proof.
  intros c w. unfold ecc_select.
  match goal with |- sat (snd (bnd (new_point_variable F ?e) ?f c)) w -> _ =>
    revert c w; enough (G : forall e', sound (bnd (new_point_variable F e') (fun out =>
      bnd (push_gate F (EccModel.select_row F (fst g1) (fst g2) (fst g3 - (fst g1 + fst g2)) 0 b0 b1 (fst out))) (fun _ =>
      bnd (push_gate F (EccModel.select_row F (snd g1 - 1) (snd g2 - 1) (snd g3 + 1 - (snd g1 + snd g2)) 1 b0 b1 (snd out))) (fun _ =>
      ret (out, e'))))) (fun w o => w b0 = fofZ (Z.b2z x0) -> w b1 = fofZ (Z.b2z x1) -> wires w (fst o) = pick g1 g2 g3 x0 x1)) end.
  { intros c w H. apply (G _ c w H). }
  intros e. apply (sb F _ _ (fun _ _ => True)); [apply new_point_sound|]. intros out.
  eapply sb; [apply sound_push|]. intros u1. eapply sb; [apply sound_push|]. intros u2.
  apply sr. intros w [E2 _] [E1 _] _ B0 B1. apply select_row_eq in E1. apply select_row_eq in E2.
  unfold wires. cbn [fst]. rewrite E1, E2, B0, B1.
  destruct (select_values g1 g2 g3 x0 x1) as [V1 V2]. cbv zeta in V1, V2. rewrite V1, V2.
  symmetry. apply surjective_pairing.
Qed.

(** A list of slots with its bits. *)
Definition bit_is w (i : nat) (b : bool) : Prop := w i = fofZ (Z.b2z b).
Definition slot_val (t : slot F) (b : bool * bool) : F * F :=
  let '(g1, g2, g3, _) := t in pick g1 g2 g3 (fst b) (snd b).
Definition slot_bits w (t : slot F) (b : bool * bool) : Prop :=
  bit_is w (fst (snd t)) (fst b) /\ bit_is w (snd (snd t)) (snd b).
Definition slots_sum (acc : F * F) (l : list (slot F)) (bs : list (bool * bool)) : F * F :=
  fold_left (fun p tb => eadd d p (slot_val (fst tb) (snd tb))) (combine l bs) acc.

Lemma slot_sound t b : sound (select_slot F t) (fun w o => slot_bits w t b -> wires w (fst o) = slot_val t b).
Proof.
  destruct t as [[[g1 g2] g3] [b0 b1]]. cbn [select_slot slot_val]. unfold slot_bits. cbn [fst snd].
  eapply sound_weak; [apply (select_sound g1 g2 g3 b0 b1 (fst b) (snd b))|].
  intros w o H [B0 B1]. now apply H.
Qed.
Lemma loop_sound l : forall bs acc, sound (mul_loop F d acc l)
  (fun w o => Forall2 (slot_bits w) l bs -> wires w (fst o) = slots_sum (wires w (fst acc)) l bs).
Proof.
  induction l as [|t l IH]; intros bs acc.
  - cbn [mul_loop]. apply sr. intros w H. inversion H. reflexivity.
  - destruct bs as [|b bs].
    { intros c w H. assert (S0 : sound (mul_loop F d acc (t :: l)) (fun _ _ => True)).
      { cbn [mul_loop]. apply (sb F _ _ (fun _ _ => True)).
        { eapply sound_weak; [apply (slot_sound t (true, true))|auto]. }
        intros u. apply (sb F _ _ (fun _ _ => True)).
        { eapply sound_weak; [apply ecc_add_sound|auto]. }
        intros acc'. eapply sound_weak; [apply (IH [] acc')|auto]. }
      destruct (S0 c w H) as [H1 _]. split; [exact H1|]. intro X. inversion X. }
    cbn [mul_loop]. eapply sb; [apply (slot_sound t b)|]. intros u.
    eapply sb; [apply ecc_add_sound|]. intros acc'.
    eapply sound_weak; [apply (IH bs acc')|]. intros w o H E1 E2 X. inversion X; subst.
    rewrite H by assumption. unfold slots_sum. cbn [combine fold_left fst snd]. now rewrite E1, E2.
Qed.

(** ** The multiples of the base *)
Lemma multiples_on p n : on_curve d p ->
  Forall (fun t => on_curve d (fst (fst t)) /\ on_curve d (snd (fst t)) /\ on_curve d (snd t)) (multiples F d p n).
Proof.
  revert p. induction n as [|n IH]; intros p H; cbn [multiples]; [constructor|].
  pose proof (eadd_on d Hi Hd H2 p p H H) as H4.
  pose proof (eadd_on d Hi Hd H2 _ p H4 H) as H5. constructor; [cbn [fst snd]; auto|].
  apply IH. now apply eadd_on.
Qed.
Lemma multiples_length p n : length (multiples F d p n) = n.
Proof. revert p. induction n; intros p; cbn [multiples length]; [reflexivity|now rewrite IHn]. Qed.

Lemma emul2 p : emul d 2 p = eadd d p p.
Proof. cbn [emul]. now rewrite eadd_0_r. Qed.
Lemma emul3 p : on_curve d p -> emul d 3 p = eadd d (eadd d p p) p.
Proof.
  intro H. change (emul d 3 p) with (emul d (2 + 1) p). rewrite emul_add by assumption. now rewrite emul2, emul_1.
Qed.
Lemma emul4 p : on_curve d p -> emul d 4 p = eadd d (eadd d p p) (eadd d p p).
Proof.
  intro H. change (emul d 4 p) with (emul d (2 + 2) p). rewrite emul_add by assumption. now rewrite emul2.
Qed.

Lemma multiples_nth p n : on_curve d p -> forall i, (i < n)%nat ->
  nth_error (multiples F d p n) i = Some (emul d (4 ^ i) p, emul d (2 * 4 ^ i) p, emul d (3 * 4 ^ i) p).
Proof.
  revert p. induction n as [|n IH]; intros p H i Hn; [lia|]. cbn [multiples]. destruct i as [|i].
  - cbn [nth_error Nat.pow Nat.mul Nat.add]. now rewrite emul3, emul2, emul_1 by assumption.
  - cbn [nth_error]. rewrite <- emul4 by assumption. rewrite IH; [|now apply emul_on|lia].
    rewrite <- !emul_mul by assumption.
    replace (4 ^ S i)%nat with (4 ^ i * 4)%nat by (cbn [Nat.pow]; lia).
    now rewrite !Nat.mul_assoc.
Qed.

(** The number with the given bits, least significant first. *)
Fixpoint num (l : list (bool * bool)) : nat :=
  match l with [] => 0 | (x, y) :: l' => Nat.b2n x + 2 * Nat.b2n y + 4 * num l' end%nat.

Lemma pick_multiple p x y : on_curve d p ->
  pick p (eadd d p p) (eadd d (eadd d p p) p) x y = emul d (Nat.b2n x + 2 * Nat.b2n y) p.
Proof.
  intro H. destruct x, y; cbn [pick Nat.b2n Nat.add Nat.mul].
  - symmetry. now apply emul3. - symmetry. apply emul_1. - symmetry. apply emul2. - reflexivity.
Qed.
Lemma sum_multiples n : forall p bs ps A, on_curve d p -> on_curve d A -> length bs = n -> length ps = n ->
  slots_sum A (combine (multiples F d p n) ps) bs = eadd d A (emul d (num bs) p).
Proof.
  induction n as [|n IH]; intros p bs ps A Hp HA L1 L2; destruct bs as [|[x y] bs], ps as [|q ps]; try discriminate.
  - cbn [num emul]. symmetry. apply eadd_0_r.
  - cbn [multiples combine]. unfold slots_sum. cbn [combine fold_left fst snd slot_val].
    rewrite pick_multiple by assumption.
    set (k := (Nat.b2n x + 2 * Nat.b2n y)%nat).
    change (slots_sum (eadd d A (emul d k p)) (combine (multiples F d (eadd d (eadd d p p) (eadd d p p)) n) ps) bs
            = eadd d A (emul d (num ((x, y) :: bs)) p)).
    assert (H4 : on_curve d (emul d 4 p)) by now apply emul_on.
    assert (Hk : on_curve d (emul d k p)) by now apply emul_on.
    rewrite <- emul4 by assumption. rewrite IH; [|assumption|now apply eadd_on|cbn in L1; lia|cbn in L2; lia].
    rewrite <- emul_mul by assumption. rewrite <- eadd_assoc; [|assumption..|now apply emul_on].
    rewrite <- emul_add by assumption. f_equal. f_equal. cbn [num]. unfold k. lia.
Qed.

(** ** Bits in pairs *)
Fixpoint bpairs (l : list bool) : list (bool * bool) :=
  match l with a :: b :: l' => (a, b) :: bpairs l' | _ => [] end.
Lemma even_ind {A} (P : list A -> Prop) : P [] -> (forall a b l, Nat.even (length l) = true -> P l -> P (a :: b :: l)) ->
  forall l, Nat.even (length l) = true -> P l.
Proof.
  intros H0 HS l. remember (length l) as n eqn:E. revert l E.
  induction n as [n IH] using lt_wf_ind. intros l E Hn. destruct l as [|a [|b l]]; [exact H0|subst n; discriminate|].
  cbn [length] in E. subst n. cbn in Hn. apply HS; [exact Hn|]. apply (IH (length l)); [lia|reflexivity|exact Hn].
Qed.
Lemma num_bits bs : Nat.even (length bs) = true -> Z.of_nat (num (bpairs bs)) = bitsZ (map Z.b2z bs).
Proof.
  intros H. pattern bs. apply even_ind; [reflexivity| |exact H]. clear. intros a b l _ IH. cbn [bpairs num map].
  cbn [bitsZ fold_right]. fold (bitsZ (map Z.b2z l)). rewrite <- IH. destruct a, b; cbn [Nat.b2n Z.b2z]; lia.
Qed.
Lemma pairs_length l : Nat.even (length l) = true -> length (pairs l) = (length l / 2)%nat.
Proof.
  intros H. pattern l. apply even_ind; [reflexivity| |exact H]. clear. intros a b l H IH. cbn [pairs length]. rewrite IH.
  replace (S (S (length l))) with (length l + 1 * 2)%nat by lia. rewrite Nat.div_add by lia. lia.
Qed.
Lemma bpairs_length l : Nat.even (length l) = true -> length (bpairs l) = (length l / 2)%nat.
Proof.
  intros H. pattern l. apply even_ind; [reflexivity| |exact H]. clear. intros a b l H IH. cbn [bpairs length]. rewrite IH.
  replace (S (S (length l))) with (length l + 1 * 2)%nat by lia. rewrite Nat.div_add by lia. lia.
Qed.
Lemma pairs_bits w b bs : Forall2 (bit_is w) b bs -> Nat.even (length b) = true ->
  Forall2 (fun i x => bit_is w (fst i) (fst x) /\ bit_is w (snd i) (snd x)) (pairs b) (bpairs bs).
Proof.
  intros H E. revert bs H. pattern b. apply even_ind; [|clear|exact E].
  - intros bs H. inversion H. constructor.
  - intros i j l _ IH bs H. inversion H as [|? x ? ? Hx H']; subst. inversion H' as [|? y ? ? Hy H'']; subst.
    cbn [pairs bpairs]. constructor; [cbn [fst snd]; auto|]. now apply IH.
Qed.
Lemma combine_maps {A B C} (l : list (A * B * C)) :
  combine (combine (map (fun t => fst (fst t)) l) (map (fun t => snd (fst t)) l)) (map snd l) = l.
Proof. induction l as [|[[a b] c] l IH]; [reflexivity|]. cbn [map combine fst snd]. now rewrite IH. Qed.

(** ** Scalar multiplication on given bits *)
Lemma with_bases_eq base b : on_curve d base -> Nat.even (length b) = true -> (0 < length b)%nat ->
  exists q ps n, pairs b = q :: ps /\ (length b / 2 = S n)%nat /\ length ps = n /\
  scalar_mul_with_bases F d (compute_base_multiples F d base (length b / 2)) b =
  Ok (bnd (select_slot F (base, eadd d base base, eadd d (eadd d base base) base, q)) (fun u =>
      bnd (mul_loop F d u (combine (multiples F d (emul d 4 base) n) ps)) (fun r => ret (fst r)))).
Proof.
  intros HB E L. pose proof (pairs_length b E) as PL.
  assert (L2 : (0 < length b / 2)%nat).
  { apply Nat.div_str_pos. split; [lia|]. destruct b as [|? [|]]; cbn in *; try discriminate; lia. }
  destruct (pairs b) as [|q ps] eqn:Ep; [cbn [length] in PL; rewrite <- PL in L2; lia|]. destruct (length b / 2)%nat as [|n] eqn:En; [lia|].
  exists q, ps, n. split; [reflexivity|]. split; [reflexivity|]. split; [cbn [length] in PL; congruence|].
  unfold scalar_mul_with_bases, compute_base_multiples. rewrite En, !map_length, !multiples_length, Nat.eqb_refl.
  rewrite <- Nat.negb_even, E. destruct (Nat.eqb_spec (length b) 0); [lia|]. cbn [negb orb].
  rewrite combine_maps, Ep. cbn [multiples combine]. now rewrite <- emul4 by assumption.
Qed.

Lemma with_bases_sound base b bs m : on_curve d base -> Nat.even (length b) = true -> (0 < length b)%nat ->
  scalar_mul_with_bases F d (compute_base_multiples F d base (length b / 2)) b = Ok m ->
  sound m (fun w o => Forall2 (bit_is w) b bs -> wires w o = emul d (num (bpairs bs)) base).
Proof.
  intros HB E L Hm. destruct (with_bases_eq base b HB E L) as [q [ps [n [Ep [En [Lp Eq]]]]]].
  rewrite Eq in Hm. apply Ok_inj in Hm. subst m. clear Eq.
  destruct (bpairs bs) as [|x0 xs] eqn:Ex.
  { intros c w H. assert (S0 : sound (bnd (select_slot F (base, eadd d base base, eadd d (eadd d base base) base, q)) (fun u =>
      bnd (mul_loop F d u (combine (multiples F d (emul d 4 base) n) ps)) (fun r => ret (fst r)))) (fun _ _ => True)).
    { apply (sb F _ _ (fun _ _ => True)). { eapply sound_weak; [apply (slot_sound (base, eadd d base base, eadd d (eadd d base base) base, q) (true, true))|auto]. }
      intros u. apply (sb F _ _ (fun _ _ => True)). { eapply sound_weak; [apply (loop_sound _ [] u)|auto]. }
      intros r. now apply sr. }
    destruct (S0 c w H) as [H1 _]. split; [exact H1|]. intros X. apply pairs_bits in X; [|exact E].
    rewrite Ep, Ex in X. inversion X. }
  eapply sb; [apply (slot_sound (base, eadd d base base, eadd d (eadd d base base) base, q) x0)|]. intros u.
  eapply sb; [apply (loop_sound _ xs u)|]. intros r. apply sr. intros w E2 E1 X.
  apply pairs_bits in X; [|exact E]. rewrite Ep, Ex in X. inversion X as [|? ? ? ? X0 X1]; subst.
  assert (Lx : length xs = length ps) by (symmetry; eapply Forall2_len; exact X1).
  rewrite E2.
  - rewrite E1 by exact X0. destruct x0 as [a0 a1]. cbn [slot_val fst snd]. rewrite pick_multiple by assumption.
    assert (H4 : on_curve d (emul d 4 base)) by now apply emul_on.
    rewrite sum_multiples; [|assumption|now apply emul_on|exact Lx|reflexivity].
    change (eadd d base (eadd d base (eadd d base (eadd d base einf)))) with (emul d 4 base). rewrite <- emul_mul, <- emul_add by assumption. f_equal. cbn [num]. lia.
  - clear - X1. remember (length ps) as n eqn:En. revert n En. revert X1.
    match goal with |- context [multiples F d ?p _] => generalize p end. intros p X n En.
    revert p n En. induction X as [|t x ps xs H _ IH]; intros p n En; cbn [length] in En; subst n; [constructor|].
    cbn [multiples combine]. constructor; [exact H|]. now apply IH.
Qed.

(** ** Scalar multiplication *)
Lemma scalar_mul_sound base v n m : on_curve d base -> scalar_mul F d base v n = Ok m ->
  sound m (fun w o => exists z, (0 <= z < 2 ^ Z.of_nat n)%Z /\ w v = fofZ z /\ wires w o = emul d (Z.to_nat z) base).
Proof.
  intros HB Hm. unfold scalar_mul in Hm. destruct (Nat.odd n) eqn:Eo; [discriminate|].
  destruct (Nat.eqb_spec n 0) as [|Hn]; [discriminate|]. cbn [orb] in Hm. apply Ok_inj in Hm. subst m.
  assert (Ev : Nat.even n = true) by (rewrite <- Nat.negb_odd, Eo; reflexivity).
  assert (Hn2 : (2 <= n)%nat) by (destruct n as [|[|]]; try lia; discriminate).
  intros c w Hs. rewrite bnd_eq in *.
  remember (fst (range_check F v n c)) as b eqn:Eb.
  assert (Lb : length b = n).
  { assert (K : length (fst (range_check F v n c)) = n); [|now rewrite Eb].
    rewrite range_check_body. cbv beta. rewrite bnd_eq.
    assert (Lv : forall vs s, length (fst (new_variables F vs s)) = length vs).
    { induction vs as [|x vs IH]; intros s; [reflexivity|]. cbn [new_variables]. rewrite !bnd_eq. cbn [ret fst length]. now rewrite IH. }
    unfold range_body. destruct (rev _) as [|top rest]; rewrite ?bnd_eq; cbn [ret fst]; now rewrite Lv, map_length, seq_length. }
  assert (Ev' : Nat.even (length b) = true) by now rewrite Lb.
  assert (Lp : (0 < length b)%nat) by lia.
  destruct (with_bases_eq base b HB Ev' Lp) as [q [ps [k [_ [_ [_ Eq]]]]]].
  pose proof Eq as Eq'. rewrite Lb in Eq'. cbv beta in Hs |- *. rewrite Eq' in Hs |- *.
  match type of Eq with _ = Ok ?m => pose proof (fun bs => with_bases_sound base b bs m HB Ev' Lp Eq) as WS end.
  destruct (WS [] _ _ Hs) as [Hs1 _].
  destruct (range_check_field F v n Hn2 c w Hs1) as [Hc [_ [Bb Hv]]]. rewrite <- Eb in Bb, Hv.
  split; [exact Hc|]. destruct (fbits_Z F w b Bb) as [bs [M1 M2]].
  assert (Lbs : length bs = n). { apply (f_equal (@length F)) in M1. rewrite !map_length in M1. congruence. }
  exists (bitsZ (map Z.b2z bs)). split; [rewrite <- Lbs; apply bitsZ_range|]. split; [now rewrite Hv|].
  destruct (WS bs _ _ Hs) as [_ R]. rewrite R.
  - f_equal. rewrite <- num_bits by (now rewrite Lbs). now rewrite Nat2Z.id.
  - clear - M1. revert bs M1. induction b as [|i b IH]; intros [|x bs] M1; try discriminate; constructor.
    + injection M1 as M1 _. exact M1. + apply IH. now injection M1.
Qed.

(** ** Honest runs *)
Definition hasp c (v : pvar) (p : F * F) : Prop := has c (fst v) (fst p) /\ has c (snd v) (snd p).
Lemma hasp_mono c c' v p : extends c c' -> hasp c v p -> hasp c' v p.
Proof. intros H [H1 H3]. split; eapply has_mono; eassumption. Qed.
Lemma hasp_wires c v p : hasp c v p -> wires (val c) v = p.
Proof. intros [[_ H1] [_ H3]]. unfold wires. rewrite H1, H3. symmetry. apply surjective_pairing. Qed.

Lemma ha_new_point c p : Inv c -> ha (new_point_variable F p) c (fun o c' => hasp c' o p).
Proof.
  intro HI. unfold new_point_variable. eapply hb; [apply ha_new, HI|]. intros x c1 I1 E1 H1.
  eapply hb; [apply ha_new, I1|]. intros y c3 I3 E3 H3. apply hr; [exact I3|].
  split; cbn [fst snd]; [eapply has_mono; eassumption|exact H3].
Qed.

Lemma ha_ecc_add c p1 p2 e1 e2 : Inv c -> hasp c p1 e1 -> hasp c p2 e2 -> on_curve d e1 -> on_curve d e2 ->
  ha (ecc_add F d p1 p2 e1 e2) c (fun o c' => snd o = eadd d e1 e2 /\ hasp c' (fst o) (eadd d e1 e2)).
Proof.
  intros HI P1 P2 C1 C2. unfold ecc_add. cbv zeta. eapply hb; [apply ha_new_point, HI|].
  intros out c1 I1 E1 Po. apply (hasp_mono _ _ _ _ E1) in P1. apply (hasp_mono _ _ _ _ E1) in P2.
  destruct e1 as [x1 y1], e2 as [x2 y2]. destruct (eadd d (x1, y1) (x2, y2)) as [x3 y3] eqn:E3.
  pose proof (complete_x d Hi Hd H2 _ _ _ _ C1 C2) as Dx. pose proof (complete_y d Hi Hd H2 _ _ _ _ C1 C2) as Dy.
  apply eadd_spec in E3 as [X3 Y3]; [|assumption..].
  destruct P1 as [[A1 A2] [A3 A4]], P2 as [[B1 B2] [B3 B4]], Po as [[O1 O2] [O3 O4]]. cbn [fst snd] in *.
  unfold insert_ecc_add_gate.
  eapply hb; [|intros u c3 I3 E4 _; apply hr; [exact I3|]; cbn [fst snd]; split; [reflexivity|]].
  - eapply hb.
    + apply ha_push; [exact I1|split; [cbn; lia|exact I]| |now apply nobool].
      apply ecc_row_eq. rewrite A2, A4, B2, B4, O2.
      replace x3 with (x1 * y2 + y1 * x2 - x3 * (d * x1 * x2 * y1 * y2)) at 2 by (rewrite <- X3; ring). ring.
    + intros u c4 I4 E4 _. destruct E4 as [N4 V4].
      apply ha_push; [exact I4|split; [cbn; lia|exact I]| |now apply nobool].
      apply ecc_row_eq. rewrite !V4 by lia. rewrite A2, A4, B2, B4, O4.
      replace y3 with (y1 * y2 + x1 * x2 + y3 * (d * x1 * x2 * y1 * y2)) at 2 by (rewrite <- Y3; ring). ring.
  - apply (hasp_mono _ _ _ _ E4). split; split; assumption.
Qed.

Lemma feqb_bit (x : bool) : feqb (fofZ (F := F) (Z.b2z x)) 1 = x.
Proof.
  destruct x; cbn [Z.b2z]; rewrite ?fofZ_0, ?fofZ_1; destruct (feqb_spec (F := F) 1 1), (feqb_spec (F := F) 0 1); try congruence.
  exfalso. apply (f1_neq_0 F). congruence.
Qed.

Lemma ha_select c g1 g2 g3 b0 b1 x0 x1 : Inv c -> has c b0 (fofZ (Z.b2z x0)) -> has c b1 (fofZ (Z.b2z x1)) ->
  ha (ecc_select F g1 g2 g3 b0 b1) c
    (fun o c' => snd o = pick g1 g2 g3 x0 x1 /\ hasp c' (fst o) (pick g1 g2 g3 x0 x1)).
Proof.
  intros HI B0 B1. unfold TurboKit.ha, ecc_select. cbv zeta.
  destruct B0 as [L0 V0]. destruct B1 as [L1 V1]. rewrite V0, V1, !feqb_bit.
  change (match x0 with true => if x1 then g3 else g1 | false => if x1 then g2 else einf end)
    with (match x0, x1 with false, false => einf | true, false => g1 | false, true => g2 | true, true => g3 end).
  change (match x0, x1 with false, false => einf | true, false => g1 | false, true => g2 | true, true => g3 end)
    with (pick g1 g2 g3 x0 x1).
  match goal with |- Inv (snd (?m c)) /\ _ => change (ha m c
    (fun o c' => snd o = pick g1 g2 g3 x0 x1 /\ hasp c' (fst o) (pick g1 g2 g3 x0 x1))) end.
  destruct (select_values g1 g2 g3 x0 x1) as [S1 S3]. cbv zeta in S1, S3.
  eapply hb; [apply ha_new_point, HI|]. intros out c1 I1 [N1 E1] [[O1 O2] [O3 O4]].
  pose proof (has_zero F c1 I1) as [Z1 _].
  eapply hb.
  { apply ha_push; [exact I1|split; [cbn; lia|exact I]| |now apply nobool].
    apply select_row_eq. rewrite (E1 b0), (E1 b1) by lia. rewrite V0, V1, O2. now symmetry. }
  intros u c3 I3 [N3 E3] _.
  eapply hb.
  { apply ha_push; [exact I3|split; [cbn; lia|exact I]| |now apply nobool].
    apply select_row_eq. rewrite !E3 by lia. rewrite (E1 b0), (E1 b1) by lia. rewrite V0, V1, O4. now symmetry. }
  intros u' c4 I4 E4 _. apply hr; [exact I4|]. cbn [fst snd]. split; [reflexivity|].
  apply (hasp_mono _ _ _ _ E4). apply (hasp_mono c1); [split; assumption|]. split; split; assumption.
Qed.

Definition slot_has c (t : slot F) (b : bool * bool) : Prop :=
  has c (fst (snd t)) (fofZ (Z.b2z (fst b))) /\ has c (snd (snd t)) (fofZ (Z.b2z (snd b))).
Lemma ha_slot c t b : Inv c -> slot_has c t b ->
  ha (select_slot F t) c (fun o c' => snd o = slot_val t b /\ hasp c' (fst o) (slot_val t b)).
Proof.
  intros HI [B0 B1]. destruct t as [[[g1 g2] g3] [b0 b1]]. now apply ha_select.
Qed.
Lemma slots_mono c c' l bs : extends c c' -> Forall2 (slot_has c) l bs -> Forall2 (slot_has c') l bs.
Proof.
  intros H. apply Forall2_impl. intros t b [B0 B1]. split; eapply has_mono; eassumption.
Qed.
Definition slot_on (t : slot F) : Prop :=
  let '(g1, g2, g3, _) := t in on_curve d g1 /\ on_curve d g2 /\ on_curve d g3.
Lemma slot_val_on t b : slot_on t -> on_curve d (slot_val t b).
Proof.
  destruct t as [[[g1 g2] g3] q]. intros [H1 [H3 H4]]. cbn [slot_val]. destruct b as [[|] [|]]; cbn [pick fst snd]; auto.
  apply einf_on.
Qed.
Lemma ha_loop l : forall c bs acc p, Inv c -> Forall2 (slot_has c) l bs -> Forall slot_on l -> on_curve d p ->
  snd acc = p -> hasp c (fst acc) p ->
  ha (mul_loop F d acc l) c (fun o c' => snd o = slots_sum p l bs /\ hasp c' (fst o) (slots_sum p l bs)).
Proof.
  induction l as [|t l IH]; intros c bs acc p HI HB HC Hp Ea Pa.
  - inversion HB. subst. cbn [mul_loop]. apply hr; [exact HI|]. split; [reflexivity|exact Pa].
  - inversion HB as [|? b ? bs' B0 B1]; subst. inversion HC as [|? ? C0 C1]; subst. cbn [mul_loop].
    eapply hb; [apply (ha_slot c t b HI B0)|]. intros u c1 I1 E1 [U1 U3].
    apply (hasp_mono _ _ _ _ E1) in Pa. apply (slots_mono _ _ _ _ E1) in B1.
    rewrite U1. eapply hb; [apply ha_ecc_add; [exact I1|exact Pa|exact U3|exact Hp|now apply slot_val_on]|].
    intros acc' c3 I3 E3 [V1 V3]. apply (slots_mono _ _ _ _ E3) in B1.
    unfold slots_sum. cbn [combine fold_left fst snd].
    apply (IH c3 bs' acc'); try assumption. apply eadd_on; try assumption. now apply slot_val_on.
Qed.

Lemma slots_on p n ps : on_curve d p -> Forall slot_on (combine (multiples F d p n) ps).
Proof.
  intro H. pose proof (multiples_on p n H) as M. clear H. revert ps.
  induction M as [|[[g1 g2] g3] l H _ IH]; intros [|q ps]; cbn [combine]; constructor; [exact H|apply IH].
Qed.

(** The bits [b] hold [bs]: the gadget returns the multiple. *)
Lemma ha_with_bases base b bs m c : on_curve d base -> Nat.even (length b) = true -> (0 < length b)%nat ->
  scalar_mul_with_bases F d (compute_base_multiples F d base (length b / 2)) b = Ok m ->
  Inv c -> Forall2 (fun i x => has c i (fofZ (Z.b2z x))) b bs ->
  ha m c (fun o c' => hasp c' o (emul d (num (bpairs bs)) base)).
Proof.
  intros HB E L Hm HI X. destruct (with_bases_eq base b HB E L) as [q [ps [n [Ep [En [Lp Eq]]]]]].
  rewrite Eq in Hm. apply Ok_inj in Hm. subst m. clear Eq.
  assert (XP : Forall2 (fun i x => has c (fst i) (fofZ (Z.b2z (fst x))) /\ has c (snd i) (fofZ (Z.b2z (snd x))))
                 (pairs b) (bpairs bs)).
  { revert bs X. pattern b. apply even_ind; [|clear|exact E].
    - intros bs X. inversion X. constructor.
    - intros i j l _ IH bs X. inversion X as [|? x ? ? Hx X']; subst. inversion X' as [|? y ? ? Hy X'']; subst.
      cbn [pairs bpairs]. constructor; [cbn [fst snd]; auto|]. now apply IH. }
  rewrite Ep in XP. inversion XP as [|? x0 ? xs X0 X1 E0 Ex]; subst.
  assert (Lx : length xs = length ps) by (symmetry; eapply Forall2_len; exact X1).
  set (t := (base, eadd d base base, eadd d (eadd d base base) base, q)).
  assert (Vt : slot_val t x0 = emul d (Nat.b2n (fst x0) + 2 * Nat.b2n (snd x0)) base).
  { unfold t. cbn [slot_val]. now apply pick_multiple. }
  eapply hb; [apply (ha_slot c t x0 HI X0)|]. rewrite Vt. intros u c1 I1 E1 [U1 U3].
  assert (H4 : on_curve d (emul d 4 base)) by now apply emul_on.
  eapply hb.
  { apply (ha_loop _ c1 xs u (emul d (Nat.b2n (fst x0) + 2 * Nat.b2n (snd x0)) base)); try assumption.
    - apply (slots_mono _ _ _ _ E1). clear - X1. revert X1. generalize (emul d 4 base). intros p X.
      revert p. induction X as [|i x ps xs H _ IH]; intros p; [constructor|].
      cbn [length multiples combine]. constructor; [exact H|]. now apply IH.
    - now apply slots_on.
    - now apply emul_on. }
  intros r c3 I3 E3 [R1 R3]. apply hr; [exact I3|].
  rewrite sum_multiples in R3; [|assumption|now apply emul_on|exact Lx|reflexivity].
  rewrite <- emul_mul, <- emul_add in R3 by assumption.
  replace (num (x0 :: xs)) with (Nat.b2n (fst x0) + 2 * Nat.b2n (snd x0) + num xs * 4)%nat; [exact R3|].
  destruct x0. cbn [num fst snd]. lia.
Qed.

(** ** The system does not depend on the values *)
Definition blind {A} (m m' : CS F A) (R : A -> A -> Prop) : Prop :=
  forall c c', grev c = grev c' -> nvars c = nvars c' ->
  grev (snd (m c)) = grev (snd (m' c')) /\ nvars (snd (m c)) = nvars (snd (m' c')) /\ R (fst (m c)) (fst (m' c')).
Lemma bl_bind {A B} (m m' : CS F A) (f f' : A -> CS F B) R R' :
  blind m m' R -> (forall a a', R a a' -> blind (f a) (f' a') R') -> blind (bnd m f) (bnd m' f') R'.
Proof.
  intros Hm Hf c c' E1 E3. rewrite !bnd_eq. destruct (Hm c c' E1 E3) as [G [N H]]. now apply Hf.
Qed.
Lemma bl_ret {A} (a a' : A) (R : A -> A -> Prop) : R a a' -> blind (ret a) (ret a') R.
Proof. intros H c c' E1 E3. now cbn. Qed.
Lemma bl_new v v' : blind (new_variable F v) (new_variable F v') eq.
Proof. intros c c' E1 E3. unfold new_variable. cbn. now rewrite E1, E3. Qed.
Lemma bl_push g : blind (push_gate F g) (push_gate F g) eq.
Proof. intros c c' E1 E3. unfold push_gate. cbn. now rewrite E1, E3. Qed.
Lemma bl_attach : blind (attach_boolean F) (attach_boolean F) eq.
Proof. intros c c' E1 E3. unfold attach_boolean. cbn [fst snd]. rewrite E1. destruct (grev c') eqn:E4; cbn [grev nvars snd]; rewrite ?E1, ?E3, ?E4; auto. Qed.
Lemma bl_news vs : forall vs', length vs = length vs' -> blind (new_variables F vs) (new_variables F vs') eq.
Proof.
  induction vs as [|v vs IH]; intros [|v' vs'] L; try discriminate; [now apply bl_ret|].
  cbn [new_variables]. eapply bl_bind; [apply bl_new|]. intros i ? <-.
  eapply bl_bind; [apply IH; now injection L|]. intros l ? <-. now apply bl_ret.
Qed.
Lemma bl_lc a b e f k1 k2 k3 k4 : blind (linear_combine F a b e f k1 k2 k3 k4) (linear_combine F a b e f k1 k2 k3 k4) eq.
Proof.
  intros c c' E1 E3. unfold linear_combine. cbv zeta.
  unfold bnd, new_variable, insert_lc_gate, push_gate, ret, peek. cbn. now rewrite E1, E3.
Qed.
Lemma bl_range_loop m : forall acc top, blind (range_loop F m acc top) (range_loop F m acc top) eq.
Proof.
  induction m as [|m IH]; intros acc top; [now apply bl_ret|].
  cbn [range_loop]. destruct top as [|a [|b [|e top]]]; try now apply bl_ret.
  eapply bl_bind; [apply bl_lc|]. intros i ? <-. eapply bl_bind; [apply bl_attach|]. intros u ? <-. apply IH.
Qed.
Lemma bl_range_body v n b : blind (range_body F v n b) (range_body F v n b) eq.
Proof.
  unfold range_body. destruct (rev b) as [|top rest]; [now apply bl_ret|].
  eapply bl_bind; [apply bl_push|]. intros u ? _. eapply bl_bind; [apply bl_range_loop|]. intros r ? <-.
  eapply bl_bind. { destruct (snd r) as [|? [|? [|]]]; apply bl_push. }
  intros u' ? _. eapply bl_bind; [apply bl_attach|]. intros ? ? _. now apply bl_ret.
Qed.
Definition same_var (a b : evar F) : Prop := fst a = fst b.
Lemma bl_new_point p p' : blind (new_point_variable F p) (new_point_variable F p') eq.
Proof.
  eapply bl_bind; [apply bl_new|]. intros x ? <-. eapply bl_bind; [apply bl_new|]. intros y ? <-. now apply bl_ret.
Qed.
Lemma bl_select g1 g2 g3 b0 b1 : blind (ecc_select F g1 g2 g3 b0 b1) (ecc_select F g1 g2 g3 b0 b1) same_var.
Proof.
  intros c c' E1 E3. unfold ecc_select. cbv zeta.
  match goal with |- grev (snd (bnd (new_point_variable F ?e) _ c)) = grev (snd (bnd (new_point_variable F ?e') _ c')) /\ _ =>
    generalize e, e' end. intros e e'. revert c c' E1 E3.
  match goal with |- forall c c', _ -> _ -> grev (snd (?m c)) = grev (snd (?m' c')) /\ _ => change (blind m m' same_var) end.
  eapply bl_bind; [apply bl_new_point|]. intros o ? <-. eapply bl_bind; [apply bl_push|]. intros ? ? _.
  eapply bl_bind; [apply bl_push|]. intros ? ? _. now apply bl_ret.
Qed.
Lemma bl_add p1 p2 e1 e2 e1' e2' : blind (ecc_add F d p1 p2 e1 e2) (ecc_add F d p1 p2 e1' e2') same_var.
Proof.
  unfold ecc_add. cbv zeta. eapply bl_bind; [apply bl_new_point|]. intros o ? <-.
  unfold insert_ecc_add_gate. eapply bl_bind.
  { eapply bl_bind; [apply bl_push|]. intros ? ? _. apply bl_push. }
  intros ? ? _. now apply bl_ret.
Qed.
Lemma bl_slot t : blind (select_slot F t) (select_slot F t) same_var.
Proof. destruct t as [[[g1 g2] g3] [b0 b1]]. apply bl_select. Qed.
Lemma bl_loop l : forall acc acc', same_var acc acc' -> blind (mul_loop F d acc l) (mul_loop F d acc' l) same_var.
Proof.
  induction l as [|t l IH]; intros acc acc' E; [now apply bl_ret|]. cbn [mul_loop].
  eapply bl_bind; [apply bl_slot|]. intros u u' U. rewrite E, U. eapply bl_bind; [apply bl_add|]. intros a a' HA. now apply IH.
Qed.
Lemma bl_with_bases bases b m : scalar_mul_with_bases F d bases b = Ok m -> blind m m eq.
Proof.
  unfold scalar_mul_with_bases. destruct bases as [[bs1 bs2] bs3]. cbv zeta.
  match goal with |- (if ?x then _ else _) = _ -> _ => destruct x; [discriminate|] end.
  destruct (combine _ _) as [|t l]; [discriminate|]. intro E. apply Ok_inj in E. subst m.
  eapply bl_bind; [apply bl_slot|]. intros u u' U. eapply bl_bind; [apply bl_loop, U|]. intros r r' R.
  apply bl_ret. exact R.
Qed.

(** ** Every representative of the scalar can be used *)
Lemma scalar_mul_any base v n m c w z : on_curve d base -> scalar_mul F d base v n = Ok m ->
  Forall (wire_lt (nvars c)) (grev c) -> (2 <= nvars c)%nat -> conv w -> sat c w -> (v < nvars c)%nat ->
  (0 <= z < 2 ^ Z.of_nat n)%Z -> w v = fofZ z ->
  exists w', (forall i, (i < nvars c)%nat -> w' i = w i) /\ sat (snd (m c)) w' /\
    wires w' (fst (m c)) = emul d (Z.to_nat z) base.
Proof.
  intros HB Hm HW N2 [W0 W1] HS Lv Rz Hz. unfold scalar_mul in Hm. destruct (Nat.odd n) eqn:Eo; [discriminate|].
  destruct (Nat.eqb_spec n 0) as [|Hn]; [discriminate|]. cbn [orb] in Hm. apply Ok_inj in Hm. subst m.
  assert (Ev : Nat.even n = true) by (rewrite <- Nat.negb_odd, Eo; reflexivity).
  assert (Hn2 : (2 <= n)%nat) by (destruct n as [|[|]]; try lia; discriminate).
  (* the same system holding the adversary's values *)
  set (c' := mkCs (grev c) (nvars c) (map w (seq 0 (nvars c))) : tcs F).
  assert (V : forall i, (i < nvars c)%nat -> val c' i = w i).
  { intros i Li. unfold val, c'. cbn [wit]. rewrite (nth_indep _ 0 (w 0%nat)) by (rewrite map_length, seq_length; lia).
    rewrite map_nth, seq_nth by lia. reflexivity. }
  assert (I' : Inv c').
  { unfold Inv. cbn [wit nvars grev c']. rewrite map_length, seq_length. split; [reflexivity|]. split; [exact N2|].
    split; [split; rewrite V by lia; assumption|]. split; [exact HW|].
    change (sat c (val c')). eapply sat_ext; [exact HW| |exact HS]. intros i Li. symmetry. now apply V. }
  set (bs := map (fun i => Z.testbit z (Z.of_nat i)) (seq 0 n)).
  assert (Lbs : length bs = n) by (unfold bs; now rewrite map_length, seq_length).
  assert (Mb : map (bit F z) (seq 0 n) = map (fun x => fofZ (Z.b2z x)) bs).
  { unfold bs. rewrite map_map. apply map_ext. intros i. unfold bit. now destruct (Z.testbit z (Z.of_nat i)). }
  set (vs := map (bit F z) (seq 0 n)).
  pose (m' := bnd (bnd (new_variables F vs) (range_body F v n)) (fun b =>
       match scalar_mul_with_bases F d (compute_base_multiples F d base (n / 2)) b with
       | Ok m => m | _ => ret (0%nat, 0%nat) end)).
  assert (Hz' : bitsZ (map Z.b2z bs) = z).
  { apply Z.bits_inj'. intros k Hk. rewrite <- (Z2Nat.id k) by lia. rewrite bitsZ_testbit.
    destruct (Nat.lt_ge_cases (Z.to_nat k) n) as [Lk|Lk].
    - rewrite (nth_indep _ false (Z.testbit z (Z.of_nat 0))) by lia. unfold bs.
      rewrite (map_nth (fun i => Z.testbit z (Z.of_nat i))), seq_nth by lia. reflexivity.
    - rewrite nth_overflow by lia. symmetry. destruct (Z.eq_dec z 0) as [->|]; [apply Z.bits_0|].
      apply Z.bits_above_log2; [lia|]. apply Z.log2_lt_pow2; [lia|].
      eapply Z.lt_le_trans; [apply Rz|]. apply Z.pow_le_mono_r; lia. }
  assert (HA : ha m' c' (fun o c3 => hasp c3 o (emul d (Z.to_nat z) base))).
  { unfold m'. eapply hb.
    { apply (ha_of F _ _ (fun c => has c v (fofZ z))); [|exact I'|].
      - apply (h_range_body F _ v n vs (fofZ z)); [apply has_stable|exact Hn2|unfold vs; now rewrite map_length, seq_length| | |auto].
        + apply Forall_forall. intros y Hy. apply in_map_iff in Hy. destruct Hy as [i [<- _]]. apply bit_boolean.
        + unfold vs. rewrite fbitsF_bits, Z.shiftr_0_r, Z.mod_small by lia. reflexivity.
      - split; [exact Lv|]. now rewrite V. }
    intros b c1 I1 E1 HBv.
    assert (Lb : length b = n). { apply Forall2_len in HBv. rewrite HBv. unfold vs. now rewrite map_length, seq_length. }
    destruct (with_bases_eq base b HB) as [q [ps [k [_ [_ [_ Eq]]]]]]; [now rewrite Lb|lia|].
    pose proof Eq as Eq'. rewrite Lb in Eq'. rewrite Eq'.
    replace (Z.to_nat z) with (num (bpairs bs)).
    2: { rewrite <- Hz', <- num_bits, Nat2Z.id by now rewrite Lbs. reflexivity. }
    apply (ha_with_bases base b bs _ c1 HB); [now rewrite Lb|lia|exact Eq|exact I1|].
    clear - HBv Mb. unfold vs in HBv. rewrite Mb in HBv. clear Mb. revert HBv. generalize bs. clear bs.
    induction b as [|i b IH]; intros [|x bs] H; inversion H; constructor; auto. }
  destruct HA as [J1 [[J2 J3] J4]]. apply hasp_wires in J4.
  assert (BL : blind (bnd (range_check F v n) (fun b =>
       match scalar_mul_with_bases F d (compute_base_multiples F d base (n / 2)) b with
       | Ok m => m | _ => ret (0%nat, 0%nat) end)) m' eq).
  { unfold m'. eapply bl_bind.
    - rewrite range_check_body. intros s s' E1 E3. cbv beta.
      refine (bl_bind _ _ _ _ eq eq _ _ s s' E1 E3).
      + apply bl_news. unfold vs. now rewrite !map_length.
      + intros b ? <-. apply bl_range_body.
    - intros b ? <-. destruct (scalar_mul_with_bases F d _ b) as [k| |] eqn:Es; [|now apply bl_ret..].
      eapply bl_with_bases. exact Es. }
  destruct (BL c c' eq_refl eq_refl) as [G [Nn Eo']].
  exists (val (snd (m' c'))). split; [|split].
  - intros i Li. rewrite J3 by exact Li. now apply V.
  - unfold sat. rewrite G. apply J1.
  - rewrite Eo'. exact J4.
Qed.

(** The prover's own values. *)
Lemma scalar_mul_honest base v n m c x : on_curve d base -> scalar_mul F d base v n = Ok m -> Inv c ->
  has c v x -> (toZ x < 2 ^ Z.of_nat n)%Z ->
  ha m c (fun o c' => hasp c' o (emul d (Z.to_nat (toZ x)) base)).
Proof.
  intros HB Hm HI Hx Lx. unfold scalar_mul in Hm. destruct (Nat.odd n) eqn:Eo; [discriminate|].
  destruct (Nat.eqb_spec n 0) as [|Hn]; [discriminate|]. cbn [orb] in Hm. apply Ok_inj in Hm. subst m.
  assert (Ev : Nat.even n = true) by (rewrite <- Nat.negb_odd, Eo; reflexivity).
  assert (Hn2 : (2 <= n)%nat) by (destruct n as [|[|]]; try lia; discriminate).
  eapply hb; [apply (ha_range_check F c v n x HI Hn2 Hx Lx)|]. intros b c1 I1 E1 HBv.
  set (z := toZ x) in *. set (bs := map (fun i => Z.testbit z (Z.of_nat i)) (seq 0 n)).
  assert (Lbs : length bs = n) by (unfold bs; now rewrite map_length, seq_length).
  assert (Mb : map (bit F z) (seq 0 n) = map (fun x => fofZ (Z.b2z x)) bs).
  { unfold bs. rewrite map_map. apply map_ext. intros i. unfold bit. now destruct (Z.testbit z (Z.of_nat i)). }
  pose proof (toZ_range F x) as Rz. fold z in Rz.
  assert (Hz' : bitsZ (map Z.b2z bs) = z).
  { apply Z.bits_inj'. intros k Hk. rewrite <- (Z2Nat.id k) by lia. rewrite bitsZ_testbit.
    destruct (Nat.lt_ge_cases (Z.to_nat k) n) as [Lk|Lk].
    - rewrite (nth_indep _ false (Z.testbit z (Z.of_nat 0))) by lia. unfold bs.
      rewrite (map_nth (fun i => Z.testbit z (Z.of_nat i))), seq_nth by lia. reflexivity.
    - rewrite nth_overflow by lia. symmetry. destruct (Z.eq_dec z 0) as [->|]; [apply Z.bits_0|].
      apply Z.bits_above_log2; [lia|]. apply Z.log2_lt_pow2; [lia|].
      eapply Z.lt_le_trans; [apply Lx|]. apply Z.pow_le_mono_r; lia. }
  assert (Lb : length b = n). { apply Forall2_len in HBv. rewrite HBv. now rewrite map_length, seq_length. }
  destruct (with_bases_eq base b HB) as [q [ps [k [_ [_ [_ Eq]]]]]]; [now rewrite Lb|lia|].
  pose proof Eq as Eq'. rewrite Lb in Eq'. rewrite Eq'.
  replace (Z.to_nat z) with (num (bpairs bs)).
  2: { rewrite <- Hz', <- num_bits, Nat2Z.id by now rewrite Lbs. reflexivity. }
  apply (ha_with_bases base b bs _ c1 HB); [now rewrite Lb|lia|exact Eq|exact I1|].
  clear - HBv Mb. rewrite Mb in HBv. clear Mb. revert HBv. generalize bs. clear bs.
  induction b as [|i b IH]; intros [|y bs] H; inversion H; constructor; auto.
Qed.
End EccP.
