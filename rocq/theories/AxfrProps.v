(** Property theorems for the whole anonymous-transfer circuit (C14, C16, C58),
    for the Rescue instance of the code over the BLS12-381 scalar field.  The
    address-folding gadget is any gadget [folding] over the key variables. *)
From Coq Require Import List NArith ZArith Bool Lia ZifyBool ZifyNat ZifyN.
From Verif Require Import Base Field PField Power TurboModel TurboSpec TurboProofs TurboHonest TurboKit TurboEmit
  RescueModel RescueSpec RescueProofs RescueLemmas XfrModel XfrSpec MixModel MixSpec MixProofs MixLemmas
  AxfrModel AxfrSpec AxfrProofs AxfrHonest AxfrLemmas.
Import ListNotations.
Local Open Scope F_scope.

Notation circuit folding payers payees k fee ft :=
  (snd (xfr_cs BLS bls_rescue gadget_alpha_inv folding payers payees k fee ft (cs_new BLS))).
Notation Hash := (AxfrModel.hash BLS bls_rescue).

(** [folding] only adds gates. *)
Definition adds_gates (folding : pk_v -> sk_v -> CS BLS unit) : Prop :=
  forall pk sk, emits BLS (fun _ => True) (folding pk sk) (fun _ => True).
(** [folding], given variables holding the key pair [k], is satisfied by the
    assignment its builder computes. *)
Definition folding_complete (folding : pk_v -> sk_v -> CS BLS unit) (k : keypair BLS) : Prop :=
  forall pk sk c, Inv c -> has_pk BLS c pk (kp_pk BLS k) -> has_sk BLS c sk (kp_sk BLS k) ->
  Inv (snd (folding pk sk c)) /\ extends c (snd (folding pk sk c)).
Lemma folding_complete_ha folding k : folding_complete folding k ->
  forall pk sk c, Inv c -> has_pk BLS c pk (kp_pk BLS k) -> has_sk BLS c sk (kp_sk BLS k) ->
  ha BLS (folding pk sk) c (fun _ _ => True).
Proof. intros H pk sk c I1 I2 I3. destruct (H pk sk c I1 I2 I3) as [X Y]. repeat split; auto; apply X || apply Y. Qed.
Lemma bls_big : (2 ^ 64 < pchar BLS)%Z.
Proof. rewrite bls_pchar. reflexivity. Qed.

(** C58 (partial: for the assignments in which variables 0 and 1 hold zero and
    one; without that restriction it is false, see C14_full_circuit_forgery_refuted):
    every assignment satisfying the circuit of a transfer of at most 2^100 inputs
    and outputs describes a real transfer.  There are spent records, created
    records and one key pair such that the public inputs are exactly their
    nullifiers, the tree root, the created commitments and the fee (followed by
    those of the folding gadget); every spent record is authenticated under that
    root and belongs to the one public key; all amounts are 64-bit; and if the fee
    is 64-bit each asset type is conserved over the integers.  Whatever relation
    [Rf] the folding gadget enforces holds between the keys. *)
Theorem C58_accepted_assignment_is_a_transfer_partial :
  forall (folding : pk_v -> sk_v -> CS BLS unit) Rf,
  (forall pk sk, soundp BLS (folding pk sk) (fun _ => True) (fun w _ vs => Rf w pk sk vs)) ->
  forall payers payees k fee ft (w : nat -> BLS),
  payers <> [] -> (Z.of_nat (length payers) <= 2 ^ 100)%Z -> (Z.of_nat (length payees) <= 2 ^ 100)%Z ->
  sat (circuit folding payers payees k fee ft) w -> w 0%nat = 0 -> w 1%nat = 1 ->
  exists ins outs pk sk root fee' fv pkv skv,
    map (fun s => length (sp_path s)) ins = map (fun p => length (p_path BLS p)) payers /\
    length outs = length payees /\
    pub_values w (circuit folding payers payees k fee ft) = public BLS Hash pk sk root ins outs fee' ++ fv /\
    well_formed BLS Hash pk root ins outs /\
    (u64f fee' -> conserves BLS ft ins outs fee') /\
    Rf w pkv skv fv /\ vpk BLS w pkv = pk /\ vsk BLS w skv = sk.
Proof.
  intros folding Rf Hf payers payees k fee ft w Hne L1 L2 Hs C0 C1.
  destruct (circuit_sound BLS bls_rescue bls_rescue_ok gadget_alpha_inv gadget_exp_inv bls_big folding Rf Hf payers payees k fee ft w Hne)
    as [ins [outs [pk [sk [root [fee' [fv [H1 [H2 [H3 [H4 [H5 [H6 [H7 H8]]]]]]]]]]]]]]; try assumption.
  - rewrite bls_pchar. apply Z.le_lt_trans with (2 ^ 100 * 2 ^ 64)%Z; [nia|reflexivity].
  - rewrite bls_pchar. apply Z.le_lt_trans with ((2 ^ 100 + 1) * 2 ^ 64)%Z; [nia|reflexivity].
  - split; assumption.
  - exists ins, outs, pk, sk, root, fee', fv. do 2 eexists. repeat split; try eassumption; try apply H7; apply H8.
Qed.
Print Assumptions C58_accepted_assignment_is_a_transfer_partial.

(** C58, completeness: if the note builder accepts inputs that really are in the
    tree, 64-bit outputs, and the asset types match (the conditions of C15), the
    assignment computed while building the circuit satisfies it, and its public
    inputs are those the verifier computes from the note. *)
Theorem C58_honest_transfer_is_provable :
  forall (as_scalar : N -> BLS) folding k ins outs fee pre,
  adds_gates folding -> folding_complete folding k ->
  init_anon_xfr_note BLS bls_rescue as_scalar ins outs fee k = Ok pre ->
  Forall (genuine BLS bls_rescue as_scalar) ins -> Forall (fun r => (o_amount BLS r < 2 ^ 64)%N) outs ->
  In FEE_TYPE (map (o_type BLS) ins) -> incl (map (o_type BLS) outs) (map (o_type BLS) ins) ->
  (forall t, In t (map (o_type BLS) ins) -> t <> FEE_TYPE -> In t (map (o_type BLS) outs)) ->
  let c := circuit folding (pre_payers BLS pre) (pre_payees BLS pre) k fee (as_scalar FEE_TYPE) in
  sat c (val c) /\ conv (val c) /\
  exists fv, pub_values (val c) c = pub_inputs BLS (pre_body BLS pre) (b_root BLS (pre_body BLS pre)) fv.
Proof.
  intros as_scalar folding k ins outs fee pre Sf Hf H1 H2 H3 H4 H5 H6.
  destruct (circuit_complete BLS bls_rescue bls_rescue_ok gadget_alpha_inv gadget_exp_inv bls_big as_scalar folding k
           (folding_complete_ha folding k Hf) Sf ins outs fee pre H1 H2 H3 H4 H5 H6) as [A [B [fv [C _]]]].
  split; [exact A|]. split; [exact B|]. exists fv. exact C.
Qed.
Print Assumptions C58_honest_transfer_is_provable.

(** C14, for the whole transfer circuit: any records of one owner in one tree can
    be turned into any 64-bit outputs whatsoever, with any fee.  Some assignment
    satisfies the circuit and has exactly those public inputs; it differs from an
    honest one in variable 1, which nothing constrains. *)
Theorem C14_full_circuit_forgery_refuted :
  forall folding k, adds_gates folding -> folding_complete folding k ->
  (forall pk sk, ok_pk not1 pk -> ok_sk not1 sk -> emits BLS (avoids_one BLS) (folding pk sk) (fun _ => True)) ->
  forall payers payees fee root ft, payers <> [] ->
  Forall (payer_ok BLS) payers -> Forall (fun q => (q_amount BLS q < 2 ^ 64)%N) payees ->
  Forall (fun p => in_tree BLS Hash (kp_pk BLS k) root (spend_val BLS p)) payers ->
  exists w fv, let c := circuit folding payers payees k fee ft in
    sat c w /\ w 0%nat = 0 /\
    pub_values w c =
      public BLS Hash (kp_pk BLS k) (kp_sk BLS k) root (map (spend_val BLS) payers) (map (output_val BLS) payees) (fofN fee) ++ fv.
Proof.
  intros folding k Sf Hf Af payers payees fee root ft H1 H2 H3 H4.
  assert (S : forall pk sk, soundp BLS (folding pk sk) (fun _ => True) (fun _ _ _ => True)).
  { intros pk sk. eapply emits_soundp. apply Sf. }
  destruct (circuit_forgeable BLS bls_rescue bls_rescue_ok gadget_alpha_inv gadget_exp_inv bls_big folding k
           (folding_complete_ha folding k Hf) (fun _ _ _ _ => True) S Af payers payees fee root ft H1 H2 H3 H4) as [w [fv [A [B [C _]]]]].
  exists w, fv. split; [exact A|]. split; [exact B|exact C].
Qed.
Print Assumptions C14_full_circuit_forgery_refuted.

(** C16 is false as stated: every record of the fee asset can be spent twice in
    one note.  The builder accepts the list [r; r] with an output worth twice the
    record less the fee, the circuit is satisfied, and the verifier accepts the
    note for every proof system that accepts true statements, although both its
    nullifiers are the same. *)
Theorem C16_duplicate_inputs_accepted_refuted :
  forall (as_scalar : N -> BLS) folding k r o fee m,
  adds_gates folding -> folding_complete folding k ->
  genuine BLS bls_rescue as_scalar r -> o_pk BLS r = kp_pk BLS k -> o_type BLS r = FEE_TYPE ->
  o_type BLS o = FEE_TYPE -> o_memo BLS o = Some m ->
  (o_amount BLS o + fee = 2 * o_amount BLS r)%N -> (o_amount BLS o < 2 ^ 64)%N ->
  exists pre n,
    init_anon_xfr_note BLS bls_rescue as_scalar [r; r] [o] fee k = Ok pre /\
    b_inputs BLS (pre_body BLS pre) = [n; n] /\
    let c := circuit folding (pre_payers BLS pre) (pre_payees BLS pre) k fee (as_scalar FEE_TYPE) in
    forall (Pf Fi : Type) (fold_verify : Fi -> res (list BLS)) (plonk_verify : list BLS -> Pf -> res unit),
    (forall w b root fv, sat c w -> pub_values w c = pub_inputs BLS b root fv ->
       exists fi pf, fold_verify fi = Ok fv /\ plonk_verify (pub_values w c) pf = Ok tt) ->
    exists pf fi, verify_anon_xfr_note BLS fold_verify plonk_verify (pre_body BLS pre) pf fi
                    (b_root BLS (pre_body BLS pre)) = Ok tt.
Proof.
  intros as_scalar folding k r o fee m Sf Hf HG Hpk Ht Hot Hm Ha Hu.
  pose proof HG as [Hr [i [Hi _]]].
  assert (E : exists pre n, init_anon_xfr_note BLS bls_rescue as_scalar [r; r] [o] fee k = Ok pre /\
    b_inputs BLS (pre_body BLS pre) = [n; n]).
  { unfold init_anon_xfr_note. cbn [check_inputs]. rewrite Hi, Hpk.
    assert (Ek : pk_eqb BLS (kp_pk BLS k) (kp_pk BLS k) = true).
    { destruct (kp_pk BLS k) as [[a b] x]. unfold pk_eqb.
      destruct (feqb_spec a a), (feqb_spec b b), (feqb_spec x x); reflexivity || contradiction. }
    rewrite Ek. cbn [negb orb bind]. cbn [map]. rewrite Ht, Hot.
    rewrite check_complete.
    - cbn [bind check_roots]. rewrite Hi. cbn [same_roots]. rewrite Hi. destruct (feqb_spec (l_root BLS i) (l_root BLS i)) as [_|n]; [|contradiction].
      unfold nullifier_of, payer_of. cbn [bind Base.mapM]. rewrite Hi, Hm. cbn [bind]. eexists. eexists. split; reflexivity.
    - repeat constructor; cbn; unfold is_u64; lia.
    - repeat constructor; cbn; unfold is_u64; lia.
    - cbn. lia.
    - intros t. cbn [total fst snd fold_right]. unfold total. cbn [fold_right fst snd]. destruct (N.eqb_spec FEE_TYPE t), (N.eqb_spec t FEE_TYPE); try congruence; lia. }
  destruct E as [pre [n [E1 E2]]]. exists pre, n. split; [exact E1|]. split; [exact E2|]. intros c Pf Fi fold_verify plonk_verify HV.
  destruct (C58_honest_transfer_is_provable as_scalar folding k [r; r] [o] fee pre Sf Hf E1) as [S [_ [fv V]]].
  - apply Forall_cons; [exact HG|]. apply Forall_cons; [exact HG|constructor].
  - apply Forall_cons; [exact Hu|constructor].
  - now left.
  - cbn. rewrite Ht, Hot. intros x [->|[]]. now left.
  - intros t [<-|[<-|[]]] Hn; congruence.
  - fold c in S, V. destruct (HV _ _ _ _ S V) as [fi [pf [V1 V2]]]. exists pf, fi. unfold verify_anon_xfr_note.
    destruct (feqb_spec (b_root BLS (pre_body BLS pre)) (b_root BLS (pre_body BLS pre))) as [_|X]; [|contradiction].
    rewrite V1. cbn [bind]. now rewrite <- V.
Qed.
Print Assumptions C16_duplicate_inputs_accepted_refuted.

(** C16 (what holds; the ledger must compare nullifiers): two spends proved at the
    same position of trees with the same root, under the same secret key, publish
    the same nullifier, unless the two proofs exhibit an explicit collision of the
    hash. *)
Theorem C16_double_spend_exposed_partial :
  forall pk pk' sk root (s s' : spend BLS),
  in_tree BLS Hash pk root s -> in_tree BLS Hash pk' root s' ->
  map (fun x => fst (fst x)) (sp_path s) = map (fun x => fst (fst x)) (sp_path s') ->
  (pk = pk' /\ nullifier BLS Hash pk sk s = nullifier BLS Hash pk' sk s') \/
  Exists (collide BLS Hash) (combine (spend_inputs BLS Hash pk s) (spend_inputs BLS Hash pk' s')).
Proof. intros pk pk' sk root s s'. exact (same_position_same_nullifier BLS Hash pk pk' sk root s s'). Qed.
Print Assumptions C16_double_spend_exposed_partial.

(** ** Cases: a one-level tree, an owner with key (1,2,3)/(4,5), and the gadget
    that adds nothing. *)
Section Case.
Let n (z : Z) : BLS := fofZ z.
Let as0 : N -> BLS := fun t => fofN t.
Let key : keypair BLS := mkKp BLS (n 1, n 2, n 3) (n 4, n 5).
Let path : list (node BLS) := [mkNode BLS (n 7) (n 8) 0 1].
Let com (a : N) := commit BLS bls_rescue as0 (n 1, n 2, n 3) (n 6) a FEE_TYPE.
Let rt (a : N) := root_of BLS Hash (fofN 9) (com a) (map (step_val BLS) path).
Let rec_ (a : N) : oabar BLS := mkOabar BLS a FEE_TYPE (n 6) (n 1, n 2, n 3) None (Some (mkLeaf BLS path (rt a) 0 9)).
Let out (a : N) : oabar BLS := mkOabar BLS a FEE_TYPE (n 6) (n 1, n 2, n 3) (Some [1%N]) None.
Let none : pk_v -> sk_v -> CS BLS unit := fun _ _ => ret tt.
Lemma none_adds : adds_gates none.
Proof. intros pk sk. now apply er. Qed.
Lemma none_complete : folding_complete none key.
Proof. intros pk sk c I1 _ _. cbn. split; [exact I1|]. split; [lia|reflexivity]. Qed.
Lemma rec_genuine a : (a < 2 ^ 64)%N -> genuine BLS bls_rescue as0 (rec_ a).
Proof.
  intros H. split; [exact H|]. eexists. split; [reflexivity|]. split.
  - unfold rec_, path. cbn [l_path]. apply Forall_cons; [|constructor]. right. right. split; reflexivity.
  - unfold rec_, rt, com. cbn [l_path l_root l_uid o_pk o_blind o_amount o_type]. exact eq_refl.
Qed.
(** One record of 10, spent twice, becomes a record of 18 (fee 2). *)
Example C16_case : exists pre m,
  init_anon_xfr_note BLS bls_rescue as0 [rec_ 10; rec_ 10] [out 18] 2 key = Ok pre /\ b_inputs BLS (pre_body BLS pre) = [m; m].
Proof.
  destruct (C16_duplicate_inputs_accepted_refuted as0 none key (rec_ 10) (out 18) 2 [1%N] none_adds none_complete) as [pre [m [H1 [H2 _]]]];
    [apply rec_genuine; reflexivity|reflexivity|reflexivity|reflexivity|reflexivity|reflexivity|reflexivity|].
  exact (ex_intro _ pre (ex_intro _ m (conj H1 H2))).
Qed.
(** The same record spent once into 8, provable. *)
Example C58_case : exists pre,
  init_anon_xfr_note BLS bls_rescue as0 [rec_ 10] [out 8] 2 key = Ok pre /\
  let c := circuit none (pre_payers BLS pre) (pre_payees BLS pre) key 2 (as0 FEE_TYPE) in
  sat c (val c) /\ conv (val c).
Proof.
  assert (E : exists pre, init_anon_xfr_note BLS bls_rescue as0 [rec_ 10] [out 8] 2 key = Ok pre).
  { unfold init_anon_xfr_note. cbn [check_inputs rec_ o_leaf o_pk key kp_pk].
    assert (Ek : pk_eqb BLS (n 1, n 2, n 3) (n 1, n 2, n 3) = true).
    { unfold pk_eqb. destruct (feqb_spec (n 1) (n 1)), (feqb_spec (n 2) (n 2)), (feqb_spec (n 3) (n 3)); reflexivity || contradiction. }
    rewrite Ek. cbn [negb orb bind map o_amount o_type rec_ out check_roots o_leaf same_roots Base.mapM nullifier_of payer_of o_memo].
    change (check_asset_amount [(10%N, FEE_TYPE)] [(8%N, FEE_TYPE)] 2) with (Ok tt). cbn [bind]. eexists. reflexivity. }
  destruct E as [pre E]. exists pre. split; [exact E|].
  destruct (C58_honest_transfer_is_provable as0 none key [rec_ 10] [out 8] 2 pre none_adds none_complete E) as [S [C _]].
  - apply Forall_cons; [apply rec_genuine; reflexivity|constructor].
  - apply Forall_cons; [reflexivity|constructor].
  - now left.
  - intros t [<-|[]]. now left.
  - intros t [<-|[]] X. now contradict X.
  - exact (conj S C).
Qed.
(** And forged into a record of 2^63. *)
Example C14_full_case : exists w fv,
  let c := circuit none [mkPayer BLS 10 (as0 FEE_TYPE) 9 path (n 6)]
     [mkPayee BLS (2 ^ 63) (n 6) (as0 FEE_TYPE) (n 1, n 2, n 3)] key 2 (as0 FEE_TYPE) in
  sat c w /\ w 0%nat = 0 /\
  pub_values w c =
    public BLS Hash (n 1, n 2, n 3) (n 4, n 5) (rt 10)
      [spend_val BLS (mkPayer BLS 10 (as0 FEE_TYPE) 9 path (n 6))]
      [output_val BLS (mkPayee BLS (2 ^ 63) (n 6) (as0 FEE_TYPE) (n 1, n 2, n 3))] (fofN 2) ++ fv.
Proof.
  apply (C14_full_circuit_forgery_refuted none key none_adds none_complete).
  - intros pk sk _ _. now apply er.
  - discriminate.
  - apply Forall_cons; [|constructor]. split; [|reflexivity]. apply Forall_cons; [|constructor]. right. right. split; reflexivity.
  - apply Forall_cons; [reflexivity|constructor].
  - apply Forall_cons; [|constructor]. unfold in_tree, rt, com, spend_com, spend_val, key.
    cbn [sp_uid sp_amount sp_type sp_blind sp_path p_uid p_amount p_type p_blind p_path kp_pk].
    unfold commit, commitment. exact eq_refl.
Qed.
End Case.
