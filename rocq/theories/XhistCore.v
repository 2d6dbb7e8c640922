(** Histories of transfers, the step of a single transfer. *)
From Coq Require Import List NArith ZArith Bool Permutation Lia Field Ring.
From Verif Require Import Base Field UtilsModel XfrModel XfrSpec XfrProofs.
Import ListNotations.
Local Open Scope Z_scope.

Section Core.
Context (E : pgroup) (O : oracles E) (sc : N -> PF E).
Add Field PFc : (f_th (PF E)).
Local Open Scope M_scope.

Lemma whole_bound (l : list (opening E)) :
  Forall (fun o => 0 <= op_value o < 2 ^ 64) l -> 0 <= zsum (map op_value l) <= Z.of_nat (length l) * 2 ^ 64.
Proof.
  induction 1 as [|o l H1 H IH]; cbn [map zsum fold_right length]; [lia|].
  fold (zsum (map op_value l)) in *. lia.
Qed.

(** The arithmetic core of XfrProofs, for amounts of the consumed records that are given as a whole. *)
Lemma range_core_whole q ins outs p cs ex iops oops :
  char_ge (PF E) q -> 2 ^ 200 <= q ->
  Z.of_nat (length ins) < 2 ^ 60 -> Z.of_nat (length outs) < 2 ^ 60 ->
  extract_value_commitments E O ins outs p = Ok cs ->
  Forall2 (fun c vr => decompress E c = Some (pedersen E (fst vr) (snd vr)) /\ 0 <= fst vr < 2 ^ 32) cs ex ->
  Forall2 (fun r o => opens (b_amount r) o) ins iops -> Forall (fun o => 0 <= op_value o < 2 ^ 64) iops ->
  Forall2 (fun r o => opens (b_amount r) o) outs oops -> Forall (limbs_in q) oops ->
  (Forall (limbs_in (2 ^ 32)) oops /\
   0 <= zsum (map op_value iops) - zsum (map op_value oops) < 2 ^ 64) \/
  exists ab, In ab (relation_candidates iops oops ex) /\ dlog_relation E ab.
Proof.
  intros Hq Hq2 Hli Hlo Hx Hex Hi Hib Ho Hob.
  unfold extract_value_commitments in Hx.
  apply bind_ok in Hx. destruct Hx as [ci [Hci Hx]].
  apply bind_ok in Hx. destruct Hx as [co [Hco Hx]].
  apply bind_ok in Hx. destruct Hx as [pl [Hpl Hx]].
  apply bind_ok in Hx. destruct Hx as [ph [Hph Hx]].
  match type of Hx with (if cp_eqb E (compress E ?a) (compress E ?b) then _ else _) = _ =>
    destruct (cp_eqb_spec E (compress E a) (compress E b)) as [Heq|]; [|discriminate];
    assert (Hd : a = b) by (pose proof (decompress_compress E a) as X; rewrite Heq, decompress_compress in X; congruence)
  end.
  injection Hx as Hcs. clear Heq.
  pose proof (limbs_of_openings E _ _ _ Hi Hci) as Eci.
  pose proof (limbs_of_openings E _ _ _ Ho Hco) as Eco.
  set (n := length oops).
  (* commitments of the outputs *)
  assert (Hfl : flat_map (fun c => [compress E (fst c); compress E (snd c)]) co
                = map (compress E) (map (fun a => pedersen E (fst a) (snd a)) (flat_openings oops))).
  { rewrite Eco, flat_map_pairs. f_equal. clear. induction oops as [|o l IH]; cbn; [reflexivity|].
    f_equal. f_equal. exact IH. }
  destruct (combine_relations E (flat_openings oops) cs ex Hex
             ([xrp_low E O p; xrp_high E O p] ++ repeat (compress E m0)
               (N.to_nat (min_greater_equal_power_of_two (2 * N.of_nat (length outs) + 2)) -
                length (flat_map (fun c => [compress E (fst c); compress E (snd c)]) co ++ [xrp_low E O p; xrp_high E O p]))))
    as [Hrel Hlen].
  { rewrite <- Hcs. unfold pad_to. rewrite <- Hfl, <- app_assoc. reflexivity. }
  (* the difference commitments *)
  assert (Hlenf : length (flat_map (fun c => [compress E (fst c); compress E (snd c)]) co) = (2 * n)%nat).
  { rewrite Hfl, !map_length. apply flat_len. }
  unfold pad_to in Hcs. rewrite <- app_assoc in Hcs.
  set (dlo := nth (2 * n) ex (0, f0 : PF E)). set (dhi := nth (2 * n + 1) ex (0, f0 : PF E)).
  assert (Hdlo : decompress E (xrp_low E O p) = Some (pedersen E (fst dlo) (snd dlo)) /\ 0 <= fst dlo < 2 ^ 32).
  { rewrite <- Hcs in Hex. apply (nth_Forall2_app _ _ _ _ _ (0, f0)) in Hex.
    rewrite Hlenf in Hex. exact Hex. }
  assert (Hdhi : decompress E (xrp_high E O p) = Some (pedersen E (fst dhi) (snd dhi)) /\ 0 <= fst dhi < 2 ^ 32).
  { rewrite <- Hcs in Hex.
    change ([xrp_low E O p; xrp_high E O p] ++ ?l) with ([xrp_low E O p] ++ xrp_high E O p :: l) in Hex.
    rewrite app_assoc in Hex.
    apply (nth_Forall2_app _ _ _ _ _ (0, f0)) in Hex.
    rewrite app_length, Hlenf in Hex. exact Hex. }
  destruct Hdlo as [Hdlo Bdlo]. destruct Hdhi as [Hdhi Bdhi].
  rewrite Hdlo in Hpl. injection Hpl as <-. rewrite Hdhi in Hph. injection Hph as <-.
  (* the balance equation *)
  set (T := (zsum (map op_value iops) - zsum (map op_value oops) - (fst dlo + 2 ^ 32 * fst dhi))%Z).
  set (R := fsub (fsub (fsum (map blind_value iops)) (fsum (map blind_value oops)))
                 (fadd (snd dlo) (fmul (fofZ (2 ^ 32)) (snd dhi)))).
  assert (HT : (fofZ T : PF E) *: gB E + R *: gBb E = m0).
  { rewrite Eci, Eco in Hd. rewrite !map_map in Hd. cbn [fst snd] in Hd.
    rewrite !msum_pedersen in Hd. unfold pow2_32, fofN in Hd.
    change (Z.of_N 4294967296) with (2 ^ 32)%Z in Hd.
    rewrite !pedersen_sub, !pedersen_scale, !pedersen_add in Hd.
    apply relation_from_equal in Hd. rewrite <- Hd. f_equal.
    - f_equal. f_equal. unfold T. rewrite !zsum_op_value. ring.
    - f_equal. unfold R. rewrite !fsum_blind. ring. }
  (* either some candidate is nontrivial, or all values agree *)
  destruct (Exists_dec (fun ab : PF E * PF E => fst ab <> f0) (relation_candidates iops oops ex)) as [Hex2|Hall].
  { intros ab. destruct (f_dec (fst ab) f0) as [e|e]; [right; intros H; contradiction|left; assumption]. }
  - right. apply Exists_exists in Hex2. destruct Hex2 as [ab [Hin Hne]].
    exists ab. split; [assumption|]. split; [assumption|].
    unfold relation_candidates in Hin. destruct Hin as [<-|Hin]; [exact HT|].
    apply in_map_iff in Hin. destruct Hin as [[a b] [<- Hin]]. cbn [fst snd].
    rewrite Forall_forall in Hrel. apply Hrel in Hin. destruct Hin as [Hin _].
    now apply relation_from_equal.
  - left.
    assert (Hz : forall ab, In ab (relation_candidates iops oops ex) -> fst ab = f0).
    { intros ab Hin. destruct (f_dec (fst ab) f0) as [e|e]; [assumption|].
      exfalso. apply Hall, Exists_exists. exists ab. auto. }
    assert (Hflat : Forall (fun vr => 0 <= fst vr < 2 ^ 32) (flat_openings oops)).
    { assert (Hqf : Forall (fun vr => 0 <= fst vr < q) (flat_openings oops)).
      { clear -Hob. induction Hob as [|o l [H1 H2] H IH]; cbn; repeat constructor; cbn; try lia; assumption. }
      apply Forall_forall. intros a Ha.
      destruct (In_nth_error _ _ Ha) as [i Hia].
      assert (Hib2 : exists b, nth_error ex i = Some b).
      { destruct (nth_error ex i) as [b|] eqn:Eb; [eauto|].
        apply nth_error_None in Eb. assert (i < length (flat_openings oops))%nat by (apply nth_error_Some; congruence). lia. }
      destruct Hib2 as [b Hib2].
      assert (Hin : In (a, b) (combine (flat_openings oops) ex)).
      { clear -Hia Hib2. revert i ex Hia Hib2. generalize (flat_openings oops) as l.
        induction l as [|x l IH]; intros [|i] ex Hia Hib2; cbn in *; try discriminate;
          destruct ex as [|y ex]; cbn in *; try discriminate.
        - left. congruence.
        - right. eauto. }
      rewrite Forall_forall in Hrel. pose proof (Hrel _ Hin) as [_ Hb].
      assert (Hc : fofZ (F := PF E) (fst a - fst b) = f0).
      { apply (Hz (fofZ (fst a - fst b), fsub (snd a) (snd b))). right.
        apply in_map_iff. exists (a, b). auto. }
      rewrite Forall_forall in Hqf. pose proof (Hqf _ Ha) as Hqa.
      rewrite fofZ_sub in Hc. apply (proj1 (fsub_0 _ _ _)) in Hc.
      apply (fofZ_inj (PF E) q) in Hc; [lia|assumption|lia]. }
    assert (Hout : Forall (limbs_in (2 ^ 32)) oops).
    { clear -Hflat. induction oops as [|o l IH]; constructor.
      - cbn in Hflat. inversion Hflat as [|? ? H1 H2]; subst. inversion H2; subst. split; assumption.
      - apply IH. cbn in Hflat. inversion Hflat as [|? ? H1 H2]; subst. inversion H2; subst. assumption. }
    split; [assumption|].
    assert (HT0 : T = 0).
    { destruct (Z.eq_dec T 0) as [e|e]; [assumption|exfalso].
      apply (fofZ_nonzero (PF E) q T Hq).
      - pose proof (whole_bound _ Hib). pose proof (value_bound E _ Hout).
        rewrite <- (Forall2_len _ _ _ Hi) in *. rewrite <- (Forall2_len _ _ _ Ho) in *.
        subst T. lia.
      - exact e.
      - apply (Hz (fofZ T, R)). left. reflexivity. }
    subst T. lia.
Qed.

End Core.
