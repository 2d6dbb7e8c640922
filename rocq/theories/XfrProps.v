(** Property theorems for confidential transfers (C09 - C12, C57). *)
From Coq Require Import List NArith ZArith Bool Lia.
From Verif Require Import Base Field Zp Primality UtilsModel XfrModel XfrSpec XfrProofs XfrHonest XfrRefute XfrToy.
Import ListNotations.
Local Set Asymmetric Patterns.
Local Open Scope Z_scope.

(** C09: a body without amount/type proof is accepted exactly when all records
    are transparent and every asset type is conserved over the integers. *)
Theorem C09_plain_transfer_conserves :
  forall (E : pgroup) (O : oracles E) (sc : N -> PF E) (ins outs : list (bar E)),
  Z.of_nat (length ins + length outs) < 2 ^ 62 ->
  (forall r a, In r (ins ++ outs) -> b_amount r = APlain a -> is_u64 a) ->
  (verify_bodies E O sc [mkXbody E O ins outs (NoProof E O)] = Ok tt <->
   exists pi po, Forall2 transparent ins pi /\ Forall2 transparent outs po /\ conserved pi po).
Proof. exact plain_body_lemma. Qed.
Print Assumptions C09_plain_transfer_conserves.

(** C09, in any batch. *)
Theorem C09_plain_transfer_conserves_in_batch :
  forall (E : pgroup) (O : oracles E) (sc : N -> PF E) (bs : list (xbody E O)) (b : xbody E O),
  verify_bodies E O sc bs = Ok tt -> In b bs -> x_proof E O b = NoProof E O ->
  Z.of_nat (length (x_in E O b) + length (x_out E O b)) < 2 ^ 62 ->
  (forall r a, In r (x_in E O b ++ x_out E O b) -> b_amount r = APlain a -> is_u64 a) ->
  exists pi po, Forall2 transparent (x_in E O b) pi /\ Forall2 transparent (x_out E O b) po /\
                conserved pi po.
Proof. exact plain_in_batch_lemma. Qed.
Print Assumptions C09_plain_transfer_conserves_in_batch.

(** A transfer of two types with amounts whose sum exceeds 64 bits. *)
Definition ex_plain : xbody toy toyO :=
  mkXbody toy toyO
    [plain_bar 18446744073709551615 1 0; plain_bar 5 1 0; plain_bar 3 2 1]
    [plain_bar 4 1 2; plain_bar 18446744073709551615 1 1; plain_bar 1 1 0; plain_bar 3 2 0] (NoProof toy toyO).
Example C09_case_accepted : verify_bodies toy toyO toy_sc [ex_plain] = Ok tt.
Proof. vm_compute. reflexivity. Qed.
Example C09_case_rejected :
  verify_bodies toy toyO toy_sc
    [mkXbody toy toyO [plain_bar 18446744073709551615 1 0; plain_bar 1 1 0] [plain_bar 0 1 0] (NoProof toy toyO)] = Err.
Proof. vm_compute. reflexivity. Qed.

(** C10: in an accepted transfer with hidden amounts, every output amount has
    two 32-bit limbs and the input total exceeds the output total by a number in
    [0, 2^64) - or a discrete-log relation between the two Pedersen generators
    is among the pairs computed from the openings and the extracted values. *)
Theorem C10_confidential_transfer_creates_no_value :
  forall (E : pgroup) (O : oracles E) (sc : N -> PF E)
    (ext : RP E O -> list (CP E) -> list (Z * PF E)) (q : Z)
    (bs : list (xbody E O)) (b : xbody E O) (p : xrange_proof E O) (iops oops : list (opening E)),
  char_ge (PF E) q -> 2 ^ 200 <= q -> range_extractor E O ext ->
  verify_bodies E O sc bs = Ok tt -> In b bs ->
  (x_proof E O b = ConfAmount E O p \/ exists ap, x_proof E O b = ConfAll E O p ap) ->
  Z.of_nat (length (x_in E O b)) < 2 ^ 60 -> Z.of_nat (length (x_out E O b)) < 2 ^ 60 ->
  Forall2 (fun r o => opens (b_amount r) o) (x_in E O b) iops -> Forall (limbs_in (2 ^ 32)) iops ->
  Forall2 (fun r o => opens (b_amount r) o) (x_out E O b) oops -> Forall (limbs_in q) oops ->
  (Forall (limbs_in (2 ^ 32)) oops /\
   0 <= zsum (map op_value iops) - zsum (map op_value oops) < 2 ^ 64) \/
  exists cs ab, extract_value_commitments E O (x_in E O b) (x_out E O b) p = Ok cs /\
    In ab (relation_candidates iops oops (ext (xrp E O p) cs)) /\ dlog_relation E ab.
Proof. exact confidential_amount_lemma. Qed.
Print Assumptions C10_confidential_transfer_creates_no_value.

(** C10: with a hidden type, all records commit to one type scalar (or a
    relation is found); with plain types they are literally one type. *)
Theorem C10_confidential_types_agree :
  forall (E : pgroup) (O : oracles E) (sc : N -> PF E)
    (ext : AP E O -> list (PG E) -> PF E * list (PF E))
    (bs : list (xbody E O)) (b : xbody E O) (q : AP E O) (ops : list (PF E * PF E)),
  asset_extractor E O ext ->
  verify_bodies E O sc bs = Ok tt -> In b bs ->
  (x_proof E O b = ConfAsset E O q \/ exists p, x_proof E O b = ConfAll E O p q) ->
  Forall2 (fun r o => opens_type sc (b_type r) o) (x_in E O b ++ x_out E O b) ops ->
  all_same (map fst ops) \/
  exists cs ab, mapM (fun r => type_commitment E sc (b_type r)) (x_in E O b ++ x_out E O b) = Ok cs /\
     In ab (type_candidates ops (ext q cs)) /\ dlog_relation E ab.
Proof. exact confidential_asset_lemma. Qed.
Print Assumptions C10_confidential_types_agree.

Theorem C10_plain_types_agree :
  forall (E : pgroup) (O : oracles E) (sc : N -> PF E) (bs : list (xbody E O)) (b : xbody E O) (p : xrange_proof E O),
  verify_bodies E O sc bs = Ok tt -> In b bs -> x_proof E O b = ConfAmount E O p ->
  exists t, Forall (fun r => b_type r = TPlain t) (x_in E O b ++ x_out E O b).
Proof. exact plain_types_lemma. Qed.
Print Assumptions C10_plain_types_agree.

(** C10: hidden type with plain amounts: the totals are equal. *)
Theorem C10_plain_amounts_balance :
  forall (E : pgroup) (O : oracles E) (sc : N -> PF E) (bs : list (xbody E O)) (b : xbody E O) (q : AP E O),
  verify_bodies E O sc bs = Ok tt -> In b bs -> x_proof E O b = ConfAsset E O q ->
  exists ai ao, Forall2 (fun r a => b_amount r = APlain a) (x_in E O b) ai /\
                Forall2 (fun r a => b_amount r = APlain a) (x_out E O b) ao /\
                zsum (map Z.of_N ai) = zsum (map Z.of_N ao).
Proof. exact plain_amounts_lemma. Qed.
Print Assumptions C10_plain_amounts_balance.

(** A hidden-amount, hidden-type transfer 7 + 2^33 -> 6, 1 + 2^33 in the concrete
    instance, where no relation between the generators exists. *)
Definition ex_rec (a : N) (r : Z) : oar toy :=
  mkOar toy (mkBar (AConf (pedersen toy (Z.of_N a mod 2 ^ 32) (fofZ r) : CP toy) (pedersen toy (Z.of_N a / 2 ^ 32) (fofZ (r + 1))))
                   (TConf (madd (smul (toy_sc 5) (gB toy)) (smul (fofZ (r + 2)) (gBb toy)) : CP toy)) 0)
        a (fofZ r) (fofZ (r + 1)) 5%N (fofZ (r + 2)).
Definition ex_ins := [ex_rec 7 11; ex_rec 8589934592 23].
Definition ex_outs := [ex_rec 6 31; ex_rec 8589934593 (-4)].
Definition ex_body : xbody toy toyO :=
  match gen_xfr_body toy toyO toy_sc toy_pr toy_pa toy_pm ex_ins ex_outs with
  | Ok b => b
  | _ => mkXbody toy toyO [] [] (NoProof toy toyO)
  end.
Example C10_case_accepted : verify_bodies toy toyO toy_sc [ex_body; ex_plain] = Ok tt.
Proof. vm_compute. reflexivity. Qed.
Example C10_case_proof : exists p ap, x_proof toy toyO ex_body = ConfAll toy toyO p ap.
Proof.
  unfold ex_body.
  assert (H : exists b p ap, gen_xfr_body toy toyO toy_sc toy_pr toy_pa toy_pm ex_ins ex_outs = Ok b /\
                       x_proof toy toyO b = ConfAll toy toyO p ap).
  { eexists _, _, _. split; reflexivity. }
  destruct H as [b [p [ap [H1 H2]]]]. rewrite H1. eauto.
Qed.
Example C10_case_hypotheses :
  char_ge (PF toy) ristretto_l /\ 2 ^ 200 <= ristretto_l /\ range_extractor toy toyO toy_ext /\
  asset_extractor toy toyO toy_aext /\ forall ab, ~ dlog_relation toy ab.
Proof.
  split; [apply Zp_char|]. split; [vm_compute; discriminate|].
  split; [apply toy_range_extractor|]. split; [apply toy_asset_extractor|]. apply toy_no_relation.
Qed.

(** C11 is false: with any working range prover there is an accepted transfer of
    one hidden record of amount 10 into one hidden record of amount 9. *)
Theorem C11_burning_transfer_accepted_refuted :
  forall (E : pgroup) (O : oracles E) (sc : N -> PF E) (pr : list (N * PF E) -> RP E O),
  range_complete E O pr ->
  exists b p i o, x_proof E O b = ConfAmount E O p /\ x_in E O b = [i] /\ x_out E O b = [o] /\
    opens (b_amount i) (mkOp 10 0 f1 f1) /\ opens (b_amount o) (mkOp 9 0 f1 f1) /\
    b_type i = TPlain 7%N /\ b_type o = TPlain 7%N /\
    verify_bodies E O sc [b] = Ok tt.
Proof.
  intros E O sc pr H. destruct (burn E O sc pr H) as [b [p [H1 [H2 [H3 H4]]]]].
  exists b, p, (o_bar E (hidden E 10)), (o_bar E (hidden E 9)).
  repeat split; auto; apply decompress_compress.
Qed.
Print Assumptions C11_burning_transfer_accepted_refuted.
Example C11_case : range_complete toy toyO toy_pr.
Proof. exact toy_range_complete. Qed.

(** C11, the true part: what the API's own builder produces conserves every type
    exactly; a verifier only learns C10. *)
Theorem C11_built_transfers_conserve_partial :
  forall (E : pgroup) (O : oracles E) (sc : N -> PF E) pr pa pm (ins outs : list (oar E)) (b : xbody E O),
  Forall (fun r => is_u64 (o_amount E r)) (ins ++ outs) ->
  Z.of_nat (length ins + length outs) < 2 ^ 62 ->
  gen_xfr_body E O sc pr pa pm ins outs = Ok b ->
  conserved (map open_view ins) (map open_view outs).
Proof. intros. eapply gen_lemma; eassumption. Qed.
Print Assumptions C11_built_transfers_conserve_partial.

(** C12: the computed kind says exactly which records hide what and whether
    several types occur. *)
Theorem C12_kind_matches_records :
  forall (E : pgroup) (ins outs : list (oar E)) (k : xfr_type), kind_of E ins outs = Ok k ->
  let l := ins ++ outs in
  match k with
  | NonConfidential_SingleAsset => ~ several_types E l /\ ~ some_hides_amount E l /\ ~ some_hides_type E l
  | ConfAmount_SingleAsset => ~ several_types E l /\ some_hides_amount E l /\ ~ some_hides_type E l
  | ConfAsset_SingleAsset => ~ several_types E l /\ ~ some_hides_amount E l /\ some_hides_type E l
  | Confidential_SingleAsset => ~ several_types E l /\ some_hides_amount E l /\ some_hides_type E l
  | Confidential_MultiAsset => several_types E l /\ (some_hides_amount E l \/ some_hides_type E l)
  | NonConfidential_MultiAsset => several_types E l /\ ~ some_hides_amount E l /\ ~ some_hides_type E l
  end.
Proof. exact kind_lemma. Qed.
Print Assumptions C12_kind_matches_records.

(** C12: a kind is computed whenever there is an input (it panics otherwise). *)
Theorem C12_kind_defined :
  forall (E : pgroup) (ins outs : list (oar E)),
  (ins <> [] -> exists k, kind_of E ins outs = Ok k) /\ (ins = [] -> kind_of E ins outs = Panic).
Proof.
  intros E ins outs. split; intros H; [|subst; reflexivity].
  destruct ins; [contradiction|]. eexists. reflexivity.
Qed.
Print Assumptions C12_kind_defined.

(** C12: the proof carried by a built body is the one of its records. *)
Theorem C12_built_proof_matches_records :
  forall (E : pgroup) (O : oracles E) (sc : N -> PF E) pr pa pm (ins outs : list (oar E)) (b : xbody E O),
  Forall (fun r => is_u64 (o_amount E r)) (ins ++ outs) ->
  Z.of_nat (length ins + length outs) < 2 ^ 62 ->
  gen_xfr_body E O sc pr pa pm ins outs = Ok b ->
  x_in E O b = map (o_bar E) ins /\ x_out E O b = map (o_bar E) outs /\
  conserved (map open_view ins) (map open_view outs) /\
  let l := ins ++ outs in
  match x_proof E O b with
  | NoProof => ~ some_hides_amount E l /\ ~ some_hides_type E l
  | ConfAmount _ => ~ several_types E l /\ some_hides_amount E l /\ ~ some_hides_type E l
  | ConfAsset _ => ~ several_types E l /\ ~ some_hides_amount E l /\ some_hides_type E l
  | ConfAll _ _ => ~ several_types E l /\ some_hides_amount E l /\ some_hides_type E l
  | AssetMix _ => several_types E l /\ (some_hides_amount E l \/ some_hides_type E l)
  end.
Proof. exact gen_lemma. Qed.
Print Assumptions C12_built_proof_matches_records.

(** C12: the flag encoding of record types round-trips and describes the record. *)
Theorem C12_record_flags_roundtrip :
  (forall t, let '(a, b) := get_flags t in from_flags a b = t) /\
  (forall a b, get_flags (from_flags a b) = (a, b)) /\
  (forall (E : pgroup) (r : bar E),
     (fst (get_flags (get_record_type E r)) = true <-> exists lo hi, b_amount r = AConf lo hi) /\
     (snd (get_flags (get_record_type E r)) = true <-> exists c, b_type r = TConf c)).
Proof.
  split; [intros []; reflexivity|]. split; [intros [] []; reflexivity|].
  intros E [am ty pk]. unfold get_record_type, amount_conf, type_conf. cbn.
  destruct am as [l h|a], ty as [c|t]; cbn; split; split; intros H; try discriminate; eauto;
    first [destruct H as [? [? H]]; discriminate | destruct H as [? H]; discriminate].
Qed.
Print Assumptions C12_record_flags_roundtrip.
Example C12_case : kind_of toy ex_ins ex_outs = Ok Confidential_SingleAsset.
Proof. reflexivity. Qed.

(** C57: a body built from honestly opened records is accepted by the verifier,
    for every mix of hidden and plain records, given complete proof systems. *)
Theorem C57_honest_transfer_verifies :
  forall (E : pgroup) (O : oracles E) (sc : N -> PF E) pr pa pm (ins outs : list (oar E)) (b : xbody E O),
  range_complete E O pr -> asset_complete E O pa -> mix_complete E O pm ->
  outs <> [] -> Z.of_nat (length ins + length outs) < 2 ^ 62 ->
  Forall (consistent E sc) (ins ++ outs) ->
  gen_xfr_body E O sc pr pa pm ins outs = Ok b ->
  verify_bodies E O sc [b] = Ok tt.
Proof. exact honest_lemma. Qed.
Print Assumptions C57_honest_transfer_verifies.
Example C57_case_hypotheses :
  range_complete toy toyO toy_pr /\ asset_complete toy toyO toy_pa /\ mix_complete toy toyO toy_pm /\
  Forall (consistent toy toy_sc) (ex_ins ++ ex_outs).
Proof.
  split; [apply toy_range_complete|]. split; [apply toy_asset_complete|]. split; [apply toy_mix_complete|].
  repeat constructor; right; reflexivity.
Qed.
