(** Honest transfers verify: a body produced by the generator from consistent
    records is accepted by the verifier. *)
From Coq Require Import List NArith ZArith Bool Lia ZifyBool ZifyNat ZifyN.
From Verif Require Import Base Field UtilsModel XfrModel XfrSpec XfrProofs.
Import ListNotations.
Local Open Scope Z_scope.
Ltac Zify.zify_post_hook ::= Z.div_mod_to_equations.

(** ** Honest transfers verify *)
Section Honest.
Context (E : pgroup) (O : oracles E) (sc : N -> PF E).
Add Field PFf3 : (f_th (PF E)).
Local Open Scope M_scope.

Definition lo_com (r : oar E) := pedersen E (Z.of_N (o_amount E r) mod 2 ^ 32) (o_blind_lo E r).
Definition hi_com (r : oar E) := pedersen E (Z.of_N (o_amount E r) / 2 ^ 32) (o_blind_hi E r).

Lemma fofN_pedersen v r : commit E (fofN v) r = pedersen E (Z.of_N v) r.
Proof. reflexivity. Qed.

Lemma consistent_limbs r : consistent E sc r ->
  limb_commitments E (b_amount (o_bar E r)) = Ok (lo_com r, hi_com r).
Proof.
  intros [_ [[[H1 [H2 H3]]|H] _]]; unfold limb_commitments, lo_com, hi_com.
  - rewrite H1, H2, H3, u64_pair_spec, !fofN_pedersen, N2Z.inj_mod, N2Z.inj_div. reflexivity.
  - rewrite H, !decompress_compress. reflexivity.
Qed.

Lemma consistent_type r : consistent E sc r ->
  type_commitment E sc (b_type (o_bar E r)) =
  Ok (sc (o_type E r) *: gB E + o_type_blind E r *: gBb E).
Proof.
  intros [_ [_ [[H1 H2]|H]]]; unfold type_commitment.
  - rewrite H1, H2. reflexivity.
  - rewrite H, !decompress_compress. reflexivity.
Qed.

Lemma mapM_map {A B C} (f : A -> res B) (g : C -> A) (h : C -> B) l :
  (forall x, In x l -> f (g x) = Ok (h x)) -> mapM f (map g l) = Ok (map h l).
Proof.
  induction l as [|x l IH]; intros H; cbn; [reflexivity|].
  rewrite (H x (or_introl eq_refl)). cbn. rewrite IH; [reflexivity|]. intros y Hy. apply H. now right.
Qed.

Lemma u64_sum_from_ok l : forall acc s,
  u64_sum_from acc l = Ok s -> Z.of_N s = (Z.of_N acc + zsum (map Z.of_N l))%Z /\ (acc < 2 ^ 64 -> s < 2 ^ 64)%N.
Proof.
  induction l as [|x l IH]; intros acc s H; cbn [u64_sum_from] in H.
  - injection H as <-. cbn. split; [lia|auto].
  - apply bind_ok in H. destruct H as [a [Ha H]]. apply IH in H.
    unfold u64_add in Ha. destruct (N.ltb_spec (acc + x) 18446744073709551616); [|discriminate].
    injection Ha as <-. cbn [map]. rewrite zsum_cons. split; [lia|]. intros _. apply H. exact H0.
Qed.

Lemma zsum_split (l : list (oar E)) :
  zsum (map Z.of_N (map (o_amount E) l)) =
  (zsum (map (fun r => Z.of_N (o_amount E r) mod 2 ^ 32) l) +
   2 ^ 32 * zsum (map (fun r => Z.of_N (o_amount E r) / 2 ^ 32) l))%Z.
Proof.
  induction l as [|r l IH]; [reflexivity|]. cbn [map]. rewrite !zsum_cons, IH.
  pose proof (Z.div_mod (Z.of_N (o_amount E r)) (2 ^ 32)). lia.
Qed.

Lemma upper_cases n :
  (min_greater_equal_power_of_two (2 * (N.of_nat n + 1)) <= 128)%N ->
  In (N.to_nat (min_greater_equal_power_of_two (2 * (N.of_nat n + 1)))) [2; 4; 8; 16; 32; 64; 128]%nat /\
  (2 * n + 2 <= N.to_nat (min_greater_equal_power_of_two (2 * (N.of_nat n + 1))))%nat.
Proof.
  unfold min_greater_equal_power_of_two.
  destruct (N.eqb_spec (2 * (N.of_nat n + 1)) 0) as [e|_]; [lia|].
  set (m := (2 * (N.of_nat n + 1))%N). intros H.
  pose proof (N.log2_log2_up_spec m ltac:(lia)) as [_ Hup].
  assert (Hk : (N.log2_up m <= 7)%N).
  { destruct (N.le_gt_cases (N.log2_up m) 7) as [|Hgt]; [assumption|exfalso].
    assert (2 ^ 8 <= 2 ^ N.log2_up m)%N by (apply N.pow_le_mono_r; lia).
    change (2 ^ 8)%N with 256%N in *. lia. }
  assert (Hk1 : (1 <= N.log2_up m)%N).
  { destruct (N.eq_dec (N.log2_up m) 0) as [e|]; [|lia]. rewrite e in Hup. change (2^0)%N with 1%N in Hup. unfold m in Hup. lia. }
  assert (C : (N.log2_up m = 1 \/ N.log2_up m = 2 \/ N.log2_up m = 3 \/ N.log2_up m = 4 \/
              N.log2_up m = 5 \/ N.log2_up m = 6 \/ N.log2_up m = 7)%N) by lia.
  destruct C as [e|[e|[e|[e|[e|[e|e]]]]]]; rewrite e in Hup |- *;
    match goal with |- context [N.to_nat ?x] =>
      let y := eval vm_compute in (N.to_nat x) in change (N.to_nat x) with y end;
    match type of Hup with (_ <= ?p)%N => let y := eval vm_compute in p in change p with y in Hup end;
    unfold m in Hup; (split; [cbn; tauto|lia]).
Qed.

Lemma flat_map_app_pairs {A} (f g : A -> N * PF E) l :
  combine (flat_map (fun r => [fst (f r); fst (g r)]) l) (flat_map (fun r => [snd (f r); snd (g r)]) l)
  = flat_map (fun r => [f r; g r]) l.
Proof.
  induction l as [|r l IH]; cbn; [reflexivity|]. rewrite IH, <- !surjective_pairing. reflexivity.
Qed.

Lemma combine_app {A B} (a : list A) (b : list B) a' b' :
  length a = length b -> combine (a ++ a') (b ++ b') = combine a b ++ combine a' b'.
Proof. revert b. induction a as [|x a IH]; intros [|y b] H; cbn in *; try lia; [reflexivity|]. rewrite IH by lia. reflexivity. Qed.

Lemma combine_repeat {A B} (a : A) (b : B) n : combine (repeat a n) (repeat b n) = repeat (a, b) n.
Proof. induction n; cbn; congruence. Qed.

Lemma map_rep {A B} (f : A -> B) a n : map f (repeat a n) = repeat (f a) n.
Proof. induction n; cbn; congruence. Qed.

Lemma flat_pair_len {A B} (f g : A -> B) l : length (flat_map (fun r => [f r; g r]) l) = (2 * length l)%nat.
Proof. induction l; cbn; [reflexivity|]. rewrite IHl. lia. Qed.

Definition lo_val (r : oar E) : N * PF E := ((o_amount E r mod 2 ^ 32)%N, o_blind_lo E r).
Definition hi_val (r : oar E) : N * PF E := ((o_amount E r / 2 ^ 32)%N, o_blind_hi E r).

(** The shape of the value vector of a successful generation. *)
Lemma gen_values ins outs vs : gen_range_values E ins outs = Ok vs ->
  Forall (fun r => is_u64 (o_amount E r)) (ins ++ outs) ->
  exists tin tout : N,
    Z.of_N tin = zsum (map Z.of_N (map (o_amount E) ins)) /\
    Z.of_N tout = zsum (map Z.of_N (map (o_amount E) outs)) /\
    (tout <= tin)%N /\ (tin < 2 ^ 64)%N /\
    In (length vs) [2; 4; 8; 16; 32; 64; 128]%nat /\
    length vs = N.to_nat (min_greater_equal_power_of_two (2 * N.of_nat (length outs) + 2)) /\
    (2 * length outs + 2 <= length vs)%nat /\
    vs = flat_map (fun r => [lo_val r; hi_val r]) outs ++
         [(((tin - tout) mod 2 ^ 32)%N, fsub (fsum (map (o_blind_lo E) ins)) (fsum (map (o_blind_lo E) outs)));
          (((tin - tout) / 2 ^ 32)%N, fsub (fsum (map (o_blind_hi E) ins)) (fsum (map (o_blind_hi E) outs)))] ++
         repeat (0%N, f0) (length vs - (2 * length outs + 2)).
Proof.
  unfold gen_range_values. intros H Hu.
  destruct (N.ltb_spec 128 (min_greater_equal_power_of_two (2 * (N.of_nat (length outs) + 1)))) as [|Hup]; [discriminate|].
  apply bind_ok in H. destruct H as [tin [Hi H]].
  apply bind_ok in H. destruct H as [tout [Ho H]].
  destruct (N.leb_spec tout tin) as [Hle|]; [|discriminate].
  apply Ok_inj in H.
  apply u64_sum_from_ok in Hi, Ho.
  destruct (upper_cases _ Hup) as [Hc Hge].
  set (U := min_greater_equal_power_of_two (2 * (N.of_nat (length outs) + 1))) in *.
  assert (HU : min_greater_equal_power_of_two (2 * N.of_nat (length outs) + 2) = U) by (unfold U; f_equal; lia).
  rewrite HU.
  assert (Hv : flat_map (fun r => halves (o_amount E r)) outs = flat_map (fun r => [fst (lo_val r); fst (hi_val r)]) outs).
  { clear. induction outs as [|r l IH]; [reflexivity|]. cbn [flat_map].
    unfold halves at 1. rewrite u64_pair_spec, IH. reflexivity. }
  assert (Hd : halves (tin - tout) = [((tin - tout) mod 2 ^ 32)%N; ((tin - tout) / 2 ^ 32)%N]).
  { unfold halves. now rewrite u64_pair_spec. }
  assert (Hlen : length (flat_map (fun r => halves (o_amount E r)) outs ++ halves (tin - tout)) = (2 * length outs + 2)%nat).
  { rewrite app_length, Hv, Hd, flat_pair_len. reflexivity. }
  rewrite Hlen in H. rewrite Hv, Hd in H.
  change (flat_map (fun r => [o_blind_lo E r; o_blind_hi E r]) outs)
    with (flat_map (fun r => [snd (lo_val r); snd (hi_val r)]) outs) in H.
  rewrite <- !app_assoc in H.
  rewrite combine_app in H by now rewrite !flat_pair_len.
  rewrite flat_map_app_pairs in H.
  rewrite combine_app in H by reflexivity. rewrite combine_repeat in H. cbn [combine] in H.
  assert (Hl : length vs = N.to_nat U).
  { rewrite <- H, !app_length, flat_pair_len, repeat_length. cbn [length]. lia. }
  exists tin, tout. rewrite Hl. repeat split; try tauto; try lia.
  symmetry. exact H.
Qed.

Lemma nth_flat {A B} (f g : A -> B) l x y rest :
  nth_error (flat_map (fun r => [f r; g r]) l ++ x :: y :: rest) (2 * length l) = Some x /\
  nth_error (flat_map (fun r => [f r; g r]) l ++ x :: y :: rest) (2 * length l + 1) = Some y.
Proof.
  split.
  - rewrite nth_error_app2; rewrite flat_pair_len; [|lia]. now rewrite Nat.sub_diag.
  - rewrite nth_error_app2; rewrite flat_pair_len; [|lia].
    replace (2 * length l + 1 - 2 * length l)%nat with 1%nat by lia. reflexivity.
Qed.

Lemma honest_range pr ins outs p :
  range_complete E O pr ->
  Forall (consistent E sc) (ins ++ outs) ->
  gen_range_proof E O pr ins outs = Ok p ->
  batch_verify_confidential_amount E O [(map (o_bar E) ins, map (o_bar E) outs, p)] = Ok tt.
Proof.
  intros Hc Hcons Hg.
  assert (Hu : Forall (fun r => is_u64 (o_amount E r)) (ins ++ outs)).
  { eapply Forall_impl; [|exact Hcons]. intros r [H _]. exact H. }
  unfold gen_range_proof in Hg. apply bind_ok in Hg. destruct Hg as [vs [Hvs Hg]].
  destruct (gen_values _ _ _ Hvs Hu) as [tin [tout [Ht1 [Ht2 [Hle [Htin [Hin [Hlen [Hge Heq]]]]]]]]].
  set (dlo := (((tin - tout) mod 2 ^ 32)%N, fsub (fsum (map (o_blind_lo E) ins)) (fsum (map (o_blind_lo E) outs)))) in *.
  set (dhi := (((tin - tout) / 2 ^ 32)%N, fsub (fsum (map (o_blind_hi E) ins)) (fsum (map (o_blind_hi E) outs)))) in *.
  set (cm := fun vr : N * PF E => compress E (pedersen E (Z.of_N (fst vr)) (snd vr))) in *.
  assert (Hcs : value_commitments E vs =
     flat_map (fun r => [cm (lo_val r); cm (hi_val r)]) outs ++
     [cm dlo; cm dhi] ++ repeat (compress E m0) (length vs - (2 * length outs + 2))).
  { rewrite Heq at 1. unfold value_commitments. rewrite !map_app.
    f_equal; [|f_equal].
    - clear. induction outs as [|r l IH]; [reflexivity|]. cbn [flat_map map app]. rewrite <- IH. reflexivity.
    - rewrite map_rep. f_equal. cbn [fst snd]. f_equal. f_equal. rewrite fofN_pedersen. apply pedersen_0. }
  rewrite Hcs in Hg.
  destruct (nth_flat (fun r => cm (lo_val r)) (fun r => cm (hi_val r)) outs (cm dlo) (cm dhi)
     (repeat (compress E m0) (length vs - (2 * length outs + 2)))) as [Hn1 Hn2].
  cbn [app] in Hg. rewrite Hn1, Hn2 in Hg. injection Hg as <-.
  unfold batch_verify_confidential_amount. cbn [mapM].
  apply Forall_app in Hcons. destruct Hcons as [Hci Hco].
  rewrite Forall_forall in Hci, Hco.
  assert (Hx : extract_value_commitments E O (map (o_bar E) ins) (map (o_bar E) outs)
                 (mkXrp E O (pr vs) (cm dlo) (cm dhi)) = Ok (value_commitments E vs)).
  { unfold extract_value_commitments. rewrite !map_length.
    rewrite (mapM_map _ (o_bar E) (fun r => (lo_com r, hi_com r)) ins)
      by (intros r Hr; apply consistent_limbs; auto). cbn [bind].
    rewrite (mapM_map _ (o_bar E) (fun r => (lo_com r, hi_com r)) outs)
      by (intros r Hr; apply consistent_limbs; auto). cbn [bind].
    cbn [xrp_low xrp_high]. unfold cm at 1 2. rewrite !decompress_compress. cbn [opt bind].
    rewrite !map_map. cbn [fst snd]. unfold lo_com, hi_com.
    rewrite !msum_pedersen. unfold pow2_32, fofN. change (Z.of_N 4294967296) with (2 ^ 32)%Z.
    rewrite !pedersen_sub, !pedersen_scale, !pedersen_add.
    match goal with |- (if cp_eqb E (compress E ?a) (compress E ?b) then _ else _) = _ =>
      assert (Hab : a = b) end.
    { pose proof (zsum_split ins) as Z1. pose proof (zsum_split outs) as Z2.
      rewrite <- Ht1 in Z1. rewrite <- Ht2 in Z2.
      f_equal. cbn [dlo dhi fst]. rewrite N2Z.inj_mod, N2Z.inj_div, N2Z.inj_sub by assumption.
      change (Z.of_N (2 ^ 32)) with (2 ^ 32)%Z.
      pose proof (Z.div_mod (Z.of_N tin - Z.of_N tout) (2 ^ 32)). lia. }
    rewrite Hab. destruct (cp_eqb_spec E (compress E (pedersen E (Z.of_N (fst dlo) + 2 ^ 32 * Z.of_N (fst dhi)) (fadd (snd dlo) (fmul (fofZ (2 ^ 32)) (snd dhi))))) (compress E (pedersen E (Z.of_N (fst dlo) + 2 ^ 32 * Z.of_N (fst dhi)) (fadd (snd dlo) (fmul (fofZ (2 ^ 32)) (snd dhi)))))) as [_|n]; [|congruence].
    f_equal. rewrite Hcs. unfold pad_to. rewrite <- app_assoc.
    rewrite flat_map_pairs. f_equal; [|f_equal].
    - clear. induction outs as [|r l IH]; [reflexivity|]. cbn [flat_map map app]. rewrite IH.
      unfold cm, lo_val, hi_val. cbn [fst snd]. rewrite N2Z.inj_mod, N2Z.inj_div. reflexivity.
    - f_equal. rewrite <- Hlen. f_equal.
      rewrite app_length, map_length, flat_pair_len. reflexivity. }
  rewrite Hx. cbn [bind rmap map combine].
  assert (Hok : v_ranges E O [(pr vs, value_commitments E vs)] = true).
  2:{ cbn [xrp]. rewrite Hok. reflexivity. }
  apply Hc; [|assumption].
  rewrite Heq. clear Heq Hcs Hx. apply Forall_app. split; [|apply Forall_app; split].
  - apply Forall_forall. intros vr Hv. apply in_flat_map in Hv. destruct Hv as [r [Hr Hv]].
    assert (Ha : is_u64 (o_amount E r)) by (apply (Hco r Hr)). unfold is_u64 in Ha.
    assert (o_amount E r / 2 ^ 32 < 2 ^ 32)%N by (apply N.div_lt_upper_bound; [lia|]; exact Ha).
    assert (o_amount E r mod 2 ^ 32 < 2 ^ 32)%N by (apply N.mod_lt; lia).
    destruct Hv as [<-|[<-|[]]]; assumption.
  - assert ((tin - tout) / 2 ^ 32 < 2 ^ 32)%N by (apply N.div_lt_upper_bound; [lia|]; cbn; lia).
    assert ((tin - tout) mod 2 ^ 32 < 2 ^ 32)%N by (apply N.mod_lt; lia).
    repeat constructor; assumption.
  - apply Forall_forall. intros vr Hv. apply repeat_spec in Hv. subst vr. cbn. lia.
Qed.

Lemma honest_asset pa ins outs p :
  asset_complete E O pa -> outs <> [] ->
  Forall (consistent E sc) (ins ++ outs) ->
  ~ several_types E (ins ++ outs) ->
  asset_proof E O sc pa ins outs = Ok p ->
  batch_verify_confidential_asset E O sc [(map (o_bar E) ins, map (o_bar E) outs, p)] = Ok tt.
Proof.
  intros Hc Hne Hcons Hty Hg. unfold asset_proof in Hg.
  destruct ins as [|i0 ins]; [apply bind_ok in Hg; destruct Hg as [? [_ Hg]]; discriminate|].
  set (l := (i0 :: ins) ++ outs) in *.
  assert (Ht : forall r, In r l -> o_type E r = o_type E i0).
  { intros r Hr. destruct (N.eq_dec (o_type E r) (o_type E i0)) as [|n]; [assumption|].
    exfalso. apply Hty. exists r, i0. split; [assumption|]. split; [now left|assumption]. }
  rewrite Forall_forall in Hcons.
  set (v := sc (o_type E i0)) in *.
  assert (Hm : mapM (fun r => type_commitment E sc (b_type r)) (map (o_bar E) l) =
               Ok (map (fun r => v *: gB E + o_type_blind E r *: gBb E) l)).
  { apply mapM_map. intros r Hr. rewrite (consistent_type r (Hcons r Hr)). rewrite (Ht r Hr). reflexivity. }
  assert (Hm2 : mapM (fun r => match b_type (o_bar E r) with
                          | TConf c => opt (decompress E c)
                          | TPlain t => Ok (commit E (sc t) (o_type_blind E r))
                          end) l = Ok (map (fun r => v *: gB E + o_type_blind E r *: gBb E) l)).
  { rewrite <- (map_id l) at 1. apply mapM_map. intros r Hr.
    destruct (Hcons r Hr) as [_ [_ [[H1 H2]|H]]].
    - rewrite H1. rewrite (Ht r Hr). reflexivity.
    - rewrite H, decompress_compress. cbn. rewrite (Ht r Hr). reflexivity. }
  rewrite Hm2 in Hg. cbn [bind] in Hg. injection Hg as <-.
  unfold batch_verify_confidential_asset. cbn [mapM]. rewrite <- map_app. fold l.
  rewrite Hm. cbn [rmap bind].
  specialize (Hc v (map (o_type_blind E) l)). cbv zeta in Hc. rewrite map_map in Hc.
  assert (Hok : (2 <= length (map (o_type_blind E) l))%nat).
  2:{ specialize (Hc Hok). cbn [mapM bind]. 
    match goal with |- (if ?q then _ else _) = _ => change q with
      (v_assets E O [(map (fun x => v *: gB E + o_type_blind E x *: gBb E) l,
         pa v (map (fun x => v *: gB E + o_type_blind E x *: gBb E) l) (map (o_type_blind E) l))]) end.
    rewrite Hc. reflexivity. }
  rewrite map_length. unfold l. rewrite app_length. cbn.
  destruct outs; [contradiction|cbn; lia].
Qed.

Lemma total_single l t : Forall (fun r : oar E => o_type E r = t) l ->
  total t (map open_view l) = zsum (map Z.of_N (map (o_amount E) l)).
Proof.
  induction 1 as [|r l Hr H IH]; cbn [map]; [reflexivity|].
  rewrite zsum_cons, <- IH. cbn [total open_view]. rewrite Hr, N.eqb_refl. reflexivity.
Qed.

Lemma Forall_one {A} (P : A -> Prop) a : Forall P [a] <-> P a.
Proof. split; [intros H; now inversion H|intros H; now repeat constructor]. Qed.

Ltac unp Hp := first
  [ discriminate
  | apply rmap_ok in Hp; let p' := fresh "p'" in let He := fresh "He" in
    destruct Hp as [p' [Hp He]]; (discriminate || (injection He as ->))
  | apply bind_ok in Hp; destruct Hp as [? [_ Hp]]; apply bind_ok in Hp; destruct Hp as [? [_ Hp]]; discriminate ].

Lemma honest_lemma pr pa pm ins outs b :
  range_complete E O pr -> asset_complete E O pa -> mix_complete E O pm ->
  outs <> [] -> Z.of_nat (length ins + length outs) < 2 ^ 62 ->
  Forall (consistent E sc) (ins ++ outs) ->
  gen_xfr_body E O sc pr pa pm ins outs = Ok b ->
  verify_bodies E O sc [b] = Ok tt.
Proof.
  intros Hr Ha Hm Hne Hl Hcons Hg.
  assert (Hu : Forall (fun r => is_u64 (o_amount E r)) (ins ++ outs)).
  { eapply Forall_impl; [|exact Hcons]. intros r [H _]. exact H. }
  pose proof (gen_lemma E O sc pr pa pm ins outs b Hu Hl Hg) as [Hi [Ho [Hc Hk]]].
  assert (Pt : forall r, In r (ins ++ outs) -> ~ some_hides_type E (ins ++ outs) -> b_type (o_bar E r) = TPlain (o_type E r)).
  { intros r Hr' Hn. rewrite Forall_forall in Hcons. destruct (Hcons r Hr') as [_ [_ [[H _]|H]]]; [assumption|].
    exfalso. apply Hn. exists r. split; [assumption|]. unfold hides_type. eauto. }
  assert (Pa : forall r, In r (ins ++ outs) -> ~ some_hides_amount E (ins ++ outs) -> b_amount (o_bar E r) = APlain (o_amount E r)).
  { intros r Hr' Hn. rewrite Forall_forall in Hcons. destruct (Hcons r Hr') as [_ [[[H _]|H] _]]; [assumption|].
    exfalso. apply Hn. exists r. split; [assumption|]. unfold hides_amount. eauto. }
  destruct ins as [|i0 ins0] eqn:Eins; [discriminate|]. rewrite <- Eins in *.
  assert (St : ~ several_types E (ins ++ outs) -> forall r, In r (ins ++ outs) -> o_type E r = o_type E i0).
  { intros Hn r Hr'. destruct (N.eq_dec (o_type E r) (o_type E i0)) as [|n]; [assumption|].
    exfalso. apply Hn. exists r, i0. split; [assumption|]. split; [|assumption]. rewrite Eins. now left. }
  apply verify_bodies_ok. cbn [flat_map]. rewrite !app_nil_r, Forall_one.
  unfold local_check, amount_work, asset_work, mix_work. rewrite Hi, Ho in *.
  unfold gen_xfr_body in Hg. rewrite Eins in Hg. rewrite <- Eins in Hg.
  apply bind_ok in Hg. destruct Hg as [k [_ Hg]].
  apply bind_ok in Hg. destruct Hg as [[] [_ Hg]].
  apply bind_ok in Hg. destruct Hg as [p [Hp Hg]]. apply Ok_inj in Hg.
  assert (Ep : p = x_proof E O b) by now rewrite <- Hg. rewrite <- Ep in *. clear Ep Hg Hi Ho.
  cbv zeta in Hk.
  assert (Vpa : ~ several_types E (ins ++ outs) -> ~ some_hides_type E (ins ++ outs) ->
                verify_plain_asset E (map (o_bar E) ins) (map (o_bar E) outs) = Ok tt).
  { intros H1 H2. unfold verify_plain_asset. rewrite <- map_app.
    rewrite (mapM_map _ (o_bar E) (fun _ => o_type E i0) (ins ++ outs)).
    - cbn [bind]. replace (all_equal (map (fun _ => o_type E i0) (ins ++ outs))) with true; [reflexivity|].
      symmetry. clear. destruct (ins ++ outs) as [|x l]; [reflexivity|]. cbn.
      apply forallb_forall. intros y Hy. apply in_map_iff in Hy. destruct Hy as [_ [<- _]]. apply N.eqb_refl.
    - intros r Hr'. rewrite (Pt r Hr' H2). cbn. rewrite (St H1 r Hr'). reflexivity. }
  destruct p as [mp|rp|ap|rp ap|].
  - (* AssetMix *)
    repeat split; auto using amount_nil, asset_nil.
    destruct k; unp Hp.
    unfold batch_verify_asset_mix. cbn [mapM].
    assert (Hb : forall l, incl l (ins ++ outs) ->
       mapM (process_bar E sc) (map (o_bar E) l) = Ok (mix_commitments (map (oar_mix_view E sc) l))).
    { intros l Hin. unfold mix_commitments. rewrite map_map. apply mapM_map. intros r Hr'.
      apply Hin in Hr'. rewrite Forall_forall in Hcons. specialize (Hcons r Hr').
      unfold process_bar. rewrite (consistent_limbs r Hcons). cbn [bind fst snd oar_mix_view].
      do 2 f_equal.
      - unfold lo_com, hi_com, pow2_32, fofN. change (Z.of_N 4294967296) with (2 ^ 32)%Z.
        rewrite pedersen_scale, pedersen_add. f_equal. f_equal.
        pose proof (Z.div_mod (Z.of_N (o_amount E r)) (2 ^ 32)). lia.
      - destruct Hcons as [_ [_ [[H1 H2]|H]]].
        + rewrite H1, H2. reflexivity.
        + rewrite H. reflexivity. }
    rewrite (Hb ins), (Hb outs) by (intros x Hx; apply in_or_app; auto).
    cbn [bind rmap]. rewrite (Hm _ _ _ Hp). reflexivity.
  - (* ConfAmount *)
    repeat split; auto using asset_nil, mix_nil; [apply Vpa; tauto|].
    destruct k; unp Hp. eapply honest_range; eauto.
  - (* ConfAsset *)
    repeat split; auto using amount_nil, mix_nil.
    + unfold verify_plain_amounts.
      rewrite (mapM_map _ (o_bar E) (o_amount E) ins).
      2:{ intros r Hr'. rewrite (Pa r); [reflexivity|apply in_or_app; auto|tauto]. }
      rewrite (mapM_map _ (o_bar E) (o_amount E) outs).
      2:{ intros r Hr'. rewrite (Pa r); [reflexivity|apply in_or_app; auto|tauto]. }
      cbn [bind].
      assert (Hs : safe_sum_u64 (map (o_amount E) ins) = safe_sum_u64 (map (o_amount E) outs)).
      { apply N2Z.inj. rewrite !safe_sum_zsum. specialize (Hc (o_type E i0)).
        rewrite !total_single in Hc; [assumption| |]; apply Forall_forall; intros r Hr'; apply St;
          try tauto; apply in_or_app; auto. }
      rewrite Hs, N.eqb_refl. reflexivity.
    + destruct k; unp Hp. eapply honest_asset; eauto; tauto.
  - (* ConfAll *)
    destruct k; try (unp Hp; fail).
    apply bind_ok in Hp. destruct Hp as [rp' [Hp1 Hp]]. apply bind_ok in Hp. destruct Hp as [ap' [Hp2 Hp]].
    injection Hp as -> ->.
    repeat split; auto using mix_nil.
    + eapply honest_range; eauto.
    + eapply honest_asset; eauto; tauto.
  - (* NoProof *)
    repeat split; auto using amount_nil, asset_nil, mix_nil.
    apply verify_plain_asset_mix_iff.
    + rewrite !map_length. exact Hl.
    + rewrite <- map_app. intros r a Hr' He. apply in_map_iff in Hr'. destruct Hr' as [o [<- Hr']].
      rewrite (Pa o Hr') in He by tauto. injection He as <-. rewrite Forall_forall in Hu. now apply Hu.
    + exists (map open_view ins), (map open_view outs).
      assert (F : forall l, incl l (ins ++ outs) -> Forall2 transparent (map (o_bar E) l) (map open_view l)).
      { induction l as [|r l IH]; intros Hin; cbn; constructor.
        - split; cbn; [apply Pa|apply Pt]; try tauto; apply Hin; now left.
        - apply IH. intros x Hx. apply Hin. now right. }
      split; [apply F; intros x Hx; apply in_or_app; auto|].
      split; [apply F; intros x Hx; apply in_or_app; auto|]. exact Hc.
Qed.
End Honest.
