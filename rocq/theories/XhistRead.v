(** The openings of the records that an accepted transfer creates can be read off its proofs. *)
From Coq Require Import List NArith ZArith Bool Permutation Lia.
From Verif Require Import Base Field UtilsModel XfrModel XfrSpec XfrProofs XhistSpec XhistCore XhistFind XhistProofs.
Import ListNotations.
Local Open Scope Z_scope.

Section Read.
Context (E : pgroup) (O : oracles E) (sc : N -> PF E).
Context (ext : RP E O -> list (CP E) -> list (Z * PF E)) (aext : AP E O -> list (PG E) -> PF E * list (PF E)) (mext : mix_ext E O).
Context (q : Z) (Hq : 2 ^ 64 <= q) (Hx : range_extractor E O ext) (Ha : asset_extractor E O aext) (Hmx : mix_extractor E O q mext).
Context (batch : list (xbody E O)) (b : xbody E O) (Hv : verify_bodies E O sc batch = Ok tt) (Hb : In b batch).
Context (HL : Z.of_nat (length (x_in E O b) + length (x_out E O b)) < 2 ^ 62).
Context (HT : forall r, In r (x_in E O b ++ x_out E O b) -> is_typed E r).

Lemma out_typed : Forall (is_typed E) (x_out E O b).
Proof. apply Forall_forall. intros r Hr. apply HT, in_or_app. now right. Qed.

Lemma limbs_nth outs ex i r : nth_error outs i = Some r -> nth_error (all_limbs E ex outs) i = Some (read_limbs E ex i r).
Proof.
  unfold all_limbs. intros H.
  assert (G : forall s l i r, nth_error l i = Some r -> nth_error (map (fun ir => read_limbs E ex (fst ir) (snd ir)) (combine (seq s (length l)) l)) i = Some (read_limbs E ex (s + i) r)).
  { clear. intros s l. revert s. induction l as [|a l IH]; intros s [|i] r H; try discriminate.
    - injection H as ->. cbn. now rewrite Nat.add_0_r.
    - cbn. rewrite (IH (S s) i r H). do 2 f_equal. lia. }
  exact (G 0%nat outs i r H).
Qed.

Lemma read_amount_ok i r : nth_error (x_out E O b) i = Some r ->
  opens_whole E (b_amount r) (read_amount E O sc ext mext b i r) /\ 0 <= fst (read_amount E O sc ext mext b i r) < q.
Proof.
  intros Hi. assert (Hin : In r (x_out E O b)) by (eapply nth_error_In; eauto).
  unfold read_amount. destruct (b_amount r) as [lo hi|x] eqn:Ea.
  - assert (K : forall p, (x_proof E O b = ConfAmount E O p \/ exists ap, x_proof E O b = ConfAll E O p ap) ->
      opens_whole E (AConf lo hi) (whole E (read_limbs E (range_openings E O ext b p) i r)) /\
      0 <= fst (whole E (read_limbs E (range_openings E O ext b p) i r)) < q).
    { intros p Hp. destruct (ranges_of E O sc ext batch b p Hx Hv Hb Hp) as [cs [Hc Hf]].
      pose proof (limbs_read E O sc _ _ _ _ _ Hc Hf out_typed) as F.
      destruct (F2_nth' _ _ _ _ _ F Hi) as [o [Ho1 [Ho2 Ho3]]]. rewrite (limbs_nth _ _ _ _ Hi) in Ho1. injection Ho1 as <-.
      assert (Ex : range_openings E O ext b p = ext (xrp E O p) cs) by (unfold range_openings; now rewrite Hc). rewrite Ex.
      rewrite Ea in Ho2. split; [now apply whole_opens|]. destruct Ho3. unfold whole, op_value. cbn [fst]. lia. }
    destruct (x_proof E O b) as [p|p|ap|p ap|] eqn:Ep.
    + destruct (mixes_of E O sc mext q batch b p Hmx Hv Hb Ep) as [ci [co [Hci [Hco [_ [Wo _]]]]]].
      assert (Ex : mix_openings E O sc mext b p = mext p ci co) by (unfold mix_openings; now rewrite Hci, Hco). rewrite Ex.
      apply mapM_ok in Hco. destruct (F2_nth' _ _ _ _ _ Hco Hi) as [c [Hc1 Hc2]].
      pose proof (F2_nth _ _ _ _ _ (mkWit E (0, f0) (f0, f0)) Wo Hc1) as [G1 [_ G3]]. split; [|exact G3].
      unfold process_bar in Hc2. rewrite Ea in Hc2. cbn [limb_commitments] in Hc2. unfold opt in Hc2. cbn [opens_whole].
      destruct (decompress E lo) as [l|]; cbn [bind] in Hc2; [|discriminate].
      destruct (decompress E hi) as [h|]; cbn [bind] in Hc2; [|discriminate].
      exists l, h. split; [reflexivity|]. split; [reflexivity|]. injection Hc2 as <-. cbn [fst snd] in G1. rewrite decompress_compress in G1.
      injection G1 as G1. exact G1.
    + apply K. now left.
    + exfalso. destruct (plain_amounts_lemma E O sc batch b ap Hv Hb Ep) as [ai [ao [_ [P _]]]].
      destruct (F2_nth' _ _ _ _ _ P Hi) as [a [_ H]]. congruence.
    + apply K. right. now exists ap.
    + exfalso. destruct (plain_in_batch_lemma E O sc batch b Hv Hb Ep HL) as [pi [po [_ [P _]]]].
      * intros r' a Hr' Ha'. exact (HT r' Hr' a Ha').
      * destruct (F2_nth' _ _ _ _ _ P Hi) as [a [_ [H _]]]. congruence.
  - assert (X : is_u64 x) by (apply (HT r); [apply in_or_app; now right|exact Ea]). unfold is_u64 in X. split; [reflexivity|].
    cbn [fst]. apply N2Z.inj_lt in X. rewrite N2Z.inj_pow in X. change (Z.of_N 2) with 2 in X. change (Z.of_N 64) with 64 in X. lia.
Qed.

Lemma read_type_ok i r : nth_error (x_out E O b) i = Some r ->
  opens_type sc (b_type r) (read_type E O sc aext mext b i r).
Proof.
  intros Hi. assert (Hin : In r (x_out E O b)) by (eapply nth_error_In; eauto).
  unfold read_type. destruct (b_type r) as [c|t] eqn:Et; [|split; reflexivity].
  assert (Hj : nth_error (x_in E O b ++ x_out E O b) (length (x_in E O b) + i) = Some r).
  { rewrite nth_error_app2 by lia. replace (length (x_in E O b) + i - length (x_in E O b))%nat with i by lia. exact Hi. }
  assert (K : forall ap, (x_proof E O b = ConfAsset E O ap \/ exists p, x_proof E O b = ConfAll E O p ap) ->
    opens_type sc (TConf c) (fst (type_openings E O sc aext b ap), nth (length (x_in E O b) + i) (snd (type_openings E O sc aext b ap)) f0)).
  { intros ap Hp. destruct (types_of E O sc aext batch b ap Ha Hv Hb Hp) as [cs [Hc Hf]].
    assert (Ex : type_openings E O sc aext b ap = aext ap cs) by (unfold type_openings; now rewrite Hc). rewrite Ex.
    apply mapM_ok in Hc. destruct (F2_nth' _ _ _ _ _ Hc Hj) as [g [H1 H2]].
    pose proof (F2_nth _ _ _ _ _ f0 Hf H1) as G. rewrite Et in H2. cbn in H2. unfold opt in H2.
    cbn [opens_type fst snd]. destruct (decompress E c) as [g'|]; [|discriminate]. injection H2 as ->. f_equal. exact G. }
  destruct (x_proof E O b) as [p|p|ap|p ap|] eqn:Ep.
  - destruct (mixes_of E O sc mext q batch b p Hmx Hv Hb Ep) as [ci [co [Hci [Hco [_ [Wo _]]]]]].
    assert (Ex : mix_openings E O sc mext b p = mext p ci co) by (unfold mix_openings; now rewrite Hci, Hco). rewrite Ex.
    apply mapM_ok in Hco. destruct (F2_nth' _ _ _ _ _ Hco Hi) as [c' [Hc1 Hc2]].
    pose proof (F2_nth _ _ _ _ _ (mkWit E (0, f0) (f0, f0)) Wo Hc1) as [_ [G2 _]].
    unfold process_bar in Hc2. apply bind_ok in Hc2. destruct Hc2 as [lh [_ Hc2]]. injection Hc2 as <-. cbn [snd] in G2. rewrite Et in G2. exact G2.
  - exfalso. destruct (plain_types_lemma E O sc batch b p Hv Hb Ep) as [t Ht]. rewrite Forall_forall in Ht.
    rewrite (Ht r) in Et; [discriminate|]. apply in_or_app. now right.
  - apply K. now left.
  - apply K. right. now exists p.
  - exfalso. destruct (plain_in_batch_lemma E O sc batch b Hv Hb Ep HL) as [pi [po [_ [P _]]]].
    + intros r' a Hr' Ha'. exact (HT r' Hr' a Ha').
    + destruct (F2_nth' _ _ _ _ _ P Hi) as [a [_ [_ H]]]. congruence.
Qed.

Notation created := (read_created E O sc ext aext mext b).
Lemma read_bars : map (k_bar E) created = x_out E O b.
Proof.
  unfold read_created. rewrite map_map. cbn [k_bar]. generalize 0%nat as s. generalize (x_out E O b) as l.
  induction l as [|r l IH]; intros s; [reflexivity|]. cbn. f_equal. apply IH.
Qed.
Lemma read_created_ok : Forall (fun k => is_opened E sc k /\ below E q k) created.
Proof.
  apply Forall_forall. intros k Hk. unfold read_created in Hk. apply in_map_iff in Hk. destruct Hk as [[i r] [<- Hk]].
  apply in_numbered in Hk. destruct Hk as [_ Hk]. rewrite Nat.sub_0_r in Hk. cbn [fst snd].
  destruct (read_amount_ok i r Hk) as [P Q]. split; [|exact Q]. split; [exact P|]. now apply read_type_ok.
Qed.
End Read.

Lemma continues E O sc ext aext mext counts q issued ts un rest batch b kin :
  2 ^ 64 <= q -> range_extractor E O ext -> asset_extractor E O aext -> mix_extractor E O q mext ->
  history E O sc counts q issued ts un -> Permutation un (kin ++ rest) ->
  verify_bodies E O sc batch = Ok tt -> In b batch ->
  (forall p, x_proof E O b = AssetMix E O p -> counts (length (x_in E O b)) (length (x_out E O b))) ->
  x_in E O b = map (k_bar E) kin ->
  Z.of_nat (length (x_in E O b)) < 2 ^ 60 -> Z.of_nat (length (x_out E O b)) < 2 ^ 60 ->
  (forall r, In r (x_in E O b ++ x_out E O b) -> is_typed E r) ->
  history E O sc counts q issued (mkApplied E O b kin (read_created E O sc ext aext mext b) :: ts)
    (read_created E O sc ext aext mext b ++ rest).
Proof.
  intros Hq Hx Ha Hmx H Hp Hv Hb Hm Hi Li Lo HT.
  assert (HL : Z.of_nat (length (x_in E O b) + length (x_out E O b)) < 2 ^ 62) by lia.
  pose proof (read_created_ok E O sc ext aext mext q Hq Hx Ha Hmx batch b Hv Hb HL HT) as R.
  pose proof (read_bars E O sc ext aext mext b) as B.
  assert (LB : length (x_out E O b) = length (read_created E O sc ext aext mext b)) by (rewrite <- B; now rewrite map_length).
  assert (LI : length (x_in E O b) = length kin) by (rewrite Hi; apply map_length).
  apply (h_transfer E O sc counts q issued ts un rest batch); auto.
  - intros p Hpp. rewrite <- LB, <- LI. now apply (Hm p).
  - now rewrite <- LI.
  - now rewrite <- LB.
  - revert R. apply Forall_impl. tauto.
  - apply Forall_forall. intros k Hk. apply HT, in_or_app. right. rewrite <- B. now apply in_map.
  - revert R. apply Forall_impl. tauto.
Qed.
