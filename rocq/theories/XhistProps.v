(** C73: no history of transparent and confidential transfers creates value. *)
From Coq Require Import List NArith ZArith Bool Permutation Lia.
From Verif Require Import Base Field PField Zp Primality UtilsModel XfrModel XfrSpec XfrProofs XfrToy CmixModel CmixSpec CmixProps.
From Verif Require Import XhistSpec XhistCore XhistFind XhistProofs XhistRead XhistMix XhistToy.
Import ListNotations.
Local Open Scope Z_scope.

(** For every history of issued records and accepted transfers of any kind, and every asset type,
    the unspent records are worth at most what was issued, or some transfer of the history gives a
    nontrivial relation between the generators of the commitments, computed from the openings of
    its records and of its proofs.
    Partial: confidential multi-asset mixes are required to have two or more outputs and no more
    outputs than inputs; for other numbers of records a mix creates value (C18_one_input_refuted
    and the theorems beside it). *)
Theorem C73_no_history_creates_value_partial :
  forall (E : pgroup) (O : oracles E) (sc : N -> PF E)
    (ext : RP E O -> list (CP E) -> list (Z * PF E)) (aext : AP E O -> list (PG E) -> PF E * list (PF E)) (mext : mix_ext E O)
    (q : Z) (issued unspent : list (known E)) (ts : list (applied E O)),
  char_ge (PF E) q -> 2 ^ 200 <= q ->
  range_extractor E O ext -> asset_extractor E O aext -> mix_extractor E O q mext ->
  history E O sc no_more_outputs q issued ts unspent ->
  (forall t, worth E t unspent <= worth E t issued) \/
  exists a ab, In a ts /\ In ab (pairs E O sc ext aext mext a) /\ dlog_relation E ab.
Proof.
  intros E O sc ext aext mext q issued un ts Hq Hq2 Hx Ha Hm H.
  destruct (history_core E O sc ext aext mext q issued ts un Hq Hq2 Hx Ha Hm H) as [[_ [_ [_ D]]]|[a [A [ab B]]]]; [now left|].
  right. exists a, ab. tauto.
Qed.
Print Assumptions C73_no_history_creates_value_partial.

(** Moreover every unspent record is then worth a 64-bit amount, whatever its creator claimed. *)
Theorem C73_unspent_amounts_partial :
  forall (E : pgroup) (O : oracles E) (sc : N -> PF E)
    (ext : RP E O -> list (CP E) -> list (Z * PF E)) (aext : AP E O -> list (PG E) -> PF E * list (PF E)) (mext : mix_ext E O)
    (q : Z) (issued unspent : list (known E)) (ts : list (applied E O)),
  char_ge (PF E) q -> 2 ^ 200 <= q ->
  range_extractor E O ext -> asset_extractor E O aext -> mix_extractor E O q mext ->
  history E O sc no_more_outputs q issued ts unspent ->
  (forall k, In k unspent -> 0 <= fst (k_amount E k) < 2 ^ 64) \/
  exists a ab, In a ts /\ In ab (pairs E O sc ext aext mext a) /\ dlog_relation E ab.
Proof.
  intros E O sc ext aext mext q issued un ts Hq Hq2 Hx Ha Hm H.
  destruct (history_core E O sc ext aext mext q issued ts un Hq Hq2 Hx Ha Hm H) as [[_ [_ [D _]]]|[a [A [ab B]]]].
  - left. intros k Hk. rewrite Forall_forall in D. exact (D k Hk).
  - right. exists a, ab. tauto.
Qed.
Print Assumptions C73_unspent_amounts_partial.

(** A ledger with transparent transfers only: the totals are exactly those issued, and nothing is
    assumed about commitments, proofs or the encoding of types. *)
Theorem C73_transparent_ledger_exact :
  forall (E : pgroup) (O : oracles E) (sc : N -> PF E) (counts : nat -> nat -> Prop) (q : Z)
    (issued unspent : list (known E)) (ts : list (applied E O)),
  history E O sc counts q issued ts unspent ->
  (forall a, In a ts -> x_proof E O (t_body E O a) = NoProof E O) ->
  forall t, worth E t unspent = worth E t issued.
Proof. intros E O sc counts q issued un ts H HP. exact (proj2 (proj2 (plain_history E O sc counts q issued ts un H HP))). Qed.
Print Assumptions C73_transparent_ledger_exact.

(** Every accepted transfer of unspent records continues the history: openings of the records it
    creates are found in its proofs, at fixed positions. *)
Theorem C73_accepted_transfers_continue :
  forall (E : pgroup) (O : oracles E) (sc : N -> PF E)
    (ext : RP E O -> list (CP E) -> list (Z * PF E)) (aext : AP E O -> list (PG E) -> PF E * list (PF E)) (mext : mix_ext E O)
    (counts : nat -> nat -> Prop) (q : Z) (issued unspent rest kin : list (known E)) (ts : list (applied E O))
    (batch : list (xbody E O)) (b : xbody E O),
  2 ^ 64 <= q -> range_extractor E O ext -> asset_extractor E O aext -> mix_extractor E O q mext ->
  history E O sc counts q issued ts unspent -> Permutation unspent (kin ++ rest) ->
  verify_bodies E O sc batch = Ok tt -> In b batch ->
  (forall p, x_proof E O b = AssetMix E O p -> counts (length (x_in E O b)) (length (x_out E O b))) ->
  x_in E O b = map (k_bar E) kin ->
  Z.of_nat (length (x_in E O b)) < 2 ^ 60 -> Z.of_nat (length (x_out E O b)) < 2 ^ 60 ->
  (forall r, In r (x_in E O b ++ x_out E O b) -> is_typed E r) ->
  history E O sc counts q issued (mkApplied E O b kin (read_created E O sc ext aext mext b) :: ts)
    (read_created E O sc ext aext mext b ++ rest).
Proof. intros E O sc ext aext mext counts q issued un rest kin ts batch b. exact (continues E O sc ext aext mext counts q issued ts un rest batch b kin). Qed.
Print Assumptions C73_accepted_transfers_continue.

(** What is asked of the extractor of a mix is what C18 shows of the constraint system: records
    that can be mixed against the verifier's system satisfy it. *)
Theorem C73_mix_establishes :
  forall (F : PField) (S : list F) (ins outs : list (Z * F)),
  enough S (length ins) -> Z.of_nat (length ins) * 2 ^ 64 < pchar F ->
  Forall (fun r => 0 <= fst r < pchar F) outs ->
  can_mix (fun ch => forall i, In (ch i) S)
    (map (fun r => mkVal (fofZ (fst r)) (snd r)) ins) (map (fun r => mkVal (fofZ (fst r)) (snd r)) outs) ->
  never_increases ins outs.
Proof. intros F. exact mix_never_increases. Qed.
Print Assumptions C73_mix_establishes.

(** Openings of the limbs, as the owner of a record knows them, are openings of the whole. *)
Theorem C73_limbs_open_the_whole :
  forall (E : pgroup) (a : xfr_amount E) (o : opening E),
  opens a o -> opens_whole E a (op_value o, blind_value o).
Proof. exact whole_opens. Qed.
Print Assumptions C73_limbs_open_the_whole.

(** *** A case: two hidden records of different types are issued, mixed, and one of the results
    is split by a transfer with hidden amounts and types. *)
Definition case_rec (a t : N) (r : Z) : oar toy :=
  mkOar toy (mkBar (AConf (pedersen toy (Z.of_N a mod 2 ^ 32) (fofZ r) : CP toy) (pedersen toy (Z.of_N a / 2 ^ 32) (fofZ (r + 1))))
                   (TConf (madd (smul (toy_sc t) (gB toy)) (smul (fofZ (r + 2)) (gBb toy)) : CP toy)) 0)
        a (fofZ r) (fofZ (r + 1)) t (fofZ (r + 2)).
Definition case_known (a t : N) (r : Z) : known toy :=
  mkKnown toy (o_bar toy (case_rec a t r))
    (op_value (E := toy) (mkOp (Z.of_N a mod 2 ^ 32) (Z.of_N a / 2 ^ 32) (fofZ r) (fofZ (r + 1))),
     blind_value (E := toy) (mkOp (Z.of_N a mod 2 ^ 32) (Z.of_N a / 2 ^ 32) (fofZ r) (fofZ (r + 1))))
    (toy_sc t, fofZ (r + 2)).
Lemma case_opened a t r : is_opened toy toy_sc (case_known a t r).
Proof. split; [|reflexivity]. apply C73_limbs_open_the_whole. split; reflexivity. Qed.
Lemma case_typed a t r : is_typed toy (k_bar toy (case_known a t r)).
Proof. intros x H. discriminate H. Qed.
Lemma case_value a t r : fst (k_amount toy (case_known a t r)) = Z.of_N a.
Proof.
  change (Z.of_N a mod 2 ^ 32 + 2 ^ 32 * (Z.of_N a / 2 ^ 32) = Z.of_N a).
  pose proof (Z.div_mod (Z.of_N a) (2 ^ 32) ltac:(lia)). lia.
Qed.
Lemma case_below a t r : (a < 2 ^ 64)%N -> below toy (2 ^ 64) (case_known a t r).
Proof. intros H. unfold below. rewrite case_value. apply N2Z.inj_lt in H. change (Z.of_N (2 ^ 64)) with (2 ^ 64) in H. lia. Qed.

Definition gen := gen_xfr_body toy toyM toy_sc toy_pr toy_pa toy_pm.
Definition case_get (x : res (xbody toy toyM)) := match x with Ok b => b | _ => mkXbody toy toyM [] [] (NoProof toy toyM) end.
Definition mix_ins := [case_rec 10 5 11; case_rec 3 6 23].
Definition mix_outs := [case_rec 3 6 31; case_rec 10 5 47].
Definition case_mix := case_get (gen mix_ins mix_outs).
Definition split_ins := [case_rec 10 5 47].
Definition split_outs := [case_rec 4 5 51; case_rec 6 5 61].
Definition case_split := case_get (gen split_ins split_outs).
Example C73_case_accepted : verify_bodies toy toyM toy_sc [case_mix; case_split] = Ok tt.
Proof. vm_compute. reflexivity. Qed.
Lemma case_mix_body : exists p, case_mix = mkXbody toy toyM (map (o_bar toy) mix_ins) (map (o_bar toy) mix_outs) (AssetMix toy toyM p).
Proof.
  unfold case_mix. assert (H : exists b p, gen mix_ins mix_outs = Ok b /\ b = mkXbody toy toyM (map (o_bar toy) mix_ins) (map (o_bar toy) mix_outs) (AssetMix toy toyM p)).
  { eexists _, _. split; reflexivity. }
  destruct H as [b [p [H1 H2]]]. rewrite H1. exists p. exact H2.
Qed.
Lemma case_split_body : exists p ap, case_split = mkXbody toy toyM (map (o_bar toy) split_ins) (map (o_bar toy) split_outs) (ConfAll toy toyM p ap).
Proof.
  unfold case_split. assert (H : exists b p ap, gen split_ins split_outs = Ok b /\ b = mkXbody toy toyM (map (o_bar toy) split_ins) (map (o_bar toy) split_outs) (ConfAll toy toyM p ap)).
  { eexists _, _, _. split; reflexivity. }
  destruct H as [b [p [ap [H1 H2]]]]. rewrite H1. exists p, ap. exact H2.
Qed.

Definition case_issued := [case_known 3 6 23; case_known 10 5 11].
Notation created b := (read_created toy toyM toy_sc toyM_ext toyM_aext toy_mext b).
Definition nobody : known toy := mkKnown toy (mkBar (APlain 0%N) (TPlain 0%N) 0%N) (0, f0) (f0, f0).
Definition mixed (i : nat) : known toy := nth i (created case_mix) nobody.
Lemma mixed_all : created case_mix = [mixed 0; mixed 1].
Proof.
  assert (H : length (created case_mix) = 2%nat).
  { destruct case_mix_body as [p Eb]. unfold read_created. rewrite map_length, combine_length, seq_length, Eb. reflexivity. }
  unfold mixed. destruct (created case_mix) as [|x [|y [|]]]; try discriminate H. reflexivity.
Qed.
Lemma mixed_bars : map (k_bar toy) (created case_mix) = map (o_bar toy) mix_outs.
Proof. rewrite read_bars. destruct case_mix_body as [p Eb]. rewrite Eb. reflexivity. Qed.

Example C73_case_history :
  history toy toyM toy_sc no_more_outputs ristretto_l case_issued
    [mkApplied toy toyM case_split [mixed 1] (created case_split);
     mkApplied toy toyM case_mix [case_known 10 5 11; case_known 3 6 23] (created case_mix)]
    (created case_split ++ [mixed 0]).
Proof.
  assert (L : 2 ^ 64 <= ristretto_l) by (vm_compute; discriminate).
  destruct case_split_body as [p1 [ap1 E1]]. destruct case_mix_body as [p2 E2].
  apply (C73_accepted_transfers_continue toy toyM toy_sc toyM_ext toyM_aext toy_mext no_more_outputs ristretto_l case_issued (created case_mix ++ []) [mixed 0]
           [mixed 1] [mkApplied toy toyM case_mix [case_known 10 5 11; case_known 3 6 23] (created case_mix)] [case_mix; case_split] case_split).
  - exact L.
  - apply toyM_range.
  - apply toyM_asset.
  - apply toyM_mix. exact L.
  - apply (C73_accepted_transfers_continue toy toyM toy_sc toyM_ext toyM_aext toy_mext no_more_outputs ristretto_l case_issued case_issued []
           [case_known 10 5 11; case_known 3 6 23] [] [case_mix; case_split] case_mix).
    + exact L.
    + apply toyM_range.
    + apply toyM_asset.
    + apply toyM_mix. exact L.
    + unfold case_issued. apply h_issue; [apply h_issue; [apply h_start| | |]| | |];
        try apply case_opened; try apply case_typed; apply case_below; reflexivity.
    + apply perm_swap.
    + apply C73_case_accepted.
    + left; reflexivity.
    + intros p _. rewrite E2. split; cbn; lia.
    + rewrite E2. reflexivity.
    + rewrite E2. reflexivity.
    + rewrite E2. reflexivity.
    + rewrite E2. cbn [x_in x_out]. intros r [<-|[<-|[<-|[<-|[]]]]]; intros a H; discriminate H.
  - rewrite mixed_all. apply perm_swap.
  - apply C73_case_accepted.
  - right; left; reflexivity.
  - intros p Hp. rewrite E1 in Hp. discriminate Hp.
  - rewrite E1. cbn [x_in]. pose proof mixed_bars as B. rewrite mixed_all in B. cbn [map] in B |- *. unfold split_ins, mix_outs in *. cbn [map] in *.
    pose proof (f_equal (fun l => hd (k_bar toy nobody) (tl l)) B) as B1. cbn [hd tl] in B1. rewrite B1. reflexivity.
  - rewrite E1. reflexivity.
  - rewrite E1. reflexivity.
  - rewrite E1. cbn [x_in x_out]. intros r [<-|[<-|[<-|[]]]]; intros a H; discriminate H.
Qed.
(** The unspent records are read as 4 and 6 of one type and 3 of the other, and the second
    alternative of the theorems is impossible here. *)
Example C73_case_read : map (fun k => fst (k_amount toy k)) (created case_split ++ [mixed 0]) = [4; 6; 3].
Proof. vm_compute. reflexivity. Qed.
Example C73_case_hypotheses :
  char_ge (PF toy) ristretto_l /\ 2 ^ 200 <= ristretto_l /\ range_extractor toy toyM toyM_ext /\
  asset_extractor toy toyM toyM_aext /\ mix_extractor toy toyM ristretto_l toy_mext /\ forall ab, ~ dlog_relation toy ab.
Proof.
  split; [apply Zp_char|]. split; [vm_compute; discriminate|]. split; [apply toyM_range|]. split; [apply toyM_asset|].
  split; [apply toyM_mix; vm_compute; discriminate|apply toy_no_relation].
Qed.

(** *** With any numbers of records in a mix the claim is false *)
(** A prover of mixes that works whenever its constraint system can be satisfied for all
    challenges. *)
Definition toyF : PField := ZpP ristretto_l ristretto_l_prime.
Definition w_commit (w : wit toy) : CP toy * CP toy :=
  (compress toy (pedersen toy (fst (w_amount toy w)) (snd (w_amount toy w))),
   compress toy (madd (smul (fst (w_type toy w)) (gB toy)) (smul (snd (w_type toy w)) (gBb toy)))).
Definition mix_prover (O : oracles toy) (pm : list (wit toy) -> list (wit toy) -> MP toy O) : Prop :=
  forall ins outs : list (wit toy),
  can_mix (F := toyF) (fun _ => True) (mvals (F := toyF) (map (w_view toy) ins)) (mvals (F := toyF) (map (w_view toy) outs)) ->
  v_mixes toy O [(map w_commit ins, map w_commit outs, pm ins outs)] = true.

Definition as_wit_of (k : known toy) : wit toy := mkWit toy (k_amount toy k) (k_type toy k).
Lemma known_commit a t r : process_bar toy toy_sc (k_bar toy (case_known a t r)) = Ok (w_commit (as_wit_of (case_known a t r))).
Proof.
  set (k := case_known a t r). unfold process_bar.
  change (b_type (k_bar toy k)) with (TConf (E := toy) (madd (smul (toy_sc t) (gB toy)) (smul (fofZ (r + 2)) (gBb toy)))).
  assert (L : limb_commitments toy (b_amount (k_bar toy k)) = Ok (pedersen toy (Z.of_N a mod 2 ^ 32) (fofZ r), pedersen toy (Z.of_N a / 2 ^ 32) (fofZ (r + 1)))) by reflexivity.
  rewrite L. cbn [bind]. rewrite (whole_limbs toy _ _ _ (proj1 (case_opened a t r)) L). reflexivity.
Qed.

(** Whatever the proof systems are, as long as the mix proof can be made for every satisfiable
    system: one unit is issued, one mix of one record into one record is accepted, and a thousand
    units are unspent. *)
Theorem C73_mix_of_one_record_creates_value_refuted :
  forall (O : oracles toy) (pm : list (wit toy) -> list (wit toy) -> MP toy O),
  mix_prover O pm ->
  exists issued ts unspent t,
    history toy O toy_sc any_numbers ristretto_l issued ts unspent /\
    worth toy t issued = 1 /\ worth toy t unspent = 1000 /\ forall ab, ~ dlog_relation toy ab.
Proof.
  intros O pm HP. set (i := case_known 1 5 11). set (o := case_known 1000 5 23).
  set (b := mkXbody toy O [k_bar toy i] [k_bar toy o] (AssetMix toy O (pm [as_wit_of i] [as_wit_of o]))).
  exists [i], [mkApplied toy O b [i] [o]], ([o] ++ []), (toy_sc 5).
  assert (M : v_mixes toy O [([w_commit (as_wit_of i)], [w_commit (as_wit_of o)], pm [as_wit_of i] [as_wit_of o])] = true).
  { apply (HP [as_wit_of i] [as_wit_of o]). apply C18_one_input_refuted; [cbn; lia|]. constructor; [|constructor].
    unfold is64, w_view, as_wit_of. cbn [amount fst snd w_amount]. subst o. rewrite case_value.
    rewrite (toZ_small toyF); [reflexivity|]. split; [discriminate|reflexivity]. }
  split; [|split; [|split; [|apply toy_no_relation]]].
  - apply (h_transfer toy O toy_sc any_numbers ristretto_l [i] [] [i] [] [b] b [i] [o]).
    + apply h_issue; [apply h_start|apply case_opened|apply case_typed|apply case_below; reflexivity].
    + apply Permutation_refl.
    + apply verify_bodies_ok. split; [constructor; [reflexivity|constructor]|].
      split; [change (batch_verify_confidential_amount toy O [] = Ok tt); unfold batch_verify_confidential_amount; cbn [mapM bind map combine]; rewrite v_ranges_nil; reflexivity|].
      split; [change (batch_verify_confidential_asset toy O toy_sc [] = Ok tt); unfold batch_verify_confidential_asset; cbn [mapM bind]; rewrite v_assets_nil; reflexivity|].
      change (flat_map (mix_work toy O) [b]) with [([k_bar toy i], [k_bar toy o], pm [as_wit_of i] [as_wit_of o])].
      unfold batch_verify_asset_mix. cbn [mapM]. subst i o. rewrite !known_commit. cbn [bind rmap mapM]. rewrite M. reflexivity.
    + left; reflexivity.
    + intros p _. exact I.
    + reflexivity.
    + reflexivity.
    + reflexivity.
    + reflexivity.
    + constructor; [apply case_opened|constructor].
    + constructor; [apply case_typed|constructor].
    + constructor; [|constructor]. pose proof (case_below 1000 5 23 ltac:(reflexivity)) as B. unfold below in *. fold o in B.
      assert (L : 2 ^ 64 <= ristretto_l) by (vm_compute; discriminate). lia.
  - rewrite (worth_same toy (toy_sc 5)) by (intros k [<-|[]]; reflexivity).
    destruct (f_dec (toy_sc 5) (toy_sc 5)) as [_|n]; [|exfalso; now apply n]. cbn [map]. unfold i. rewrite case_value. reflexivity.
  - rewrite (worth_same toy (toy_sc 5)) by (intros k [<-|[]]; reflexivity).
    destruct (f_dec (toy_sc 5) (toy_sc 5)) as [_|n]; [|exfalso; now apply n]. cbn [app map]. unfold o. rewrite case_value. reflexivity.
Qed.
Print Assumptions C73_mix_of_one_record_creates_value_refuted.
