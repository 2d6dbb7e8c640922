(** Property theorems for the circuits of the parameters (C63): the gates, wires and
    public positions of a circuit depend on its shape only, so that the parameters
    made from placeholder witnesses fit every prover, and what the verifier accepts
    with them is a real transfer. *)
From Coq Require Import List ZArith NArith Bool Lia ZifyBool ZifyNat ZifyN Field.
From Verif Require Import Base Field PField UtilsModel UtilsProps Power TurboModel TurboSpec TurboProofs TurboLemmas TurboHonest TurboKit TurboEmit
  RescueModel RescueSpec RescueProofs RescueLemmas XfrModel XfrSpec MixModel MixSpec MixProofs MixLemmas
  AxfrModel AxfrSpec AxfrProofs AxfrHonest AxfrLemmas AxfrProps FoldModel FoldLemmas SimModel SecpPrime NoteModel
  NoteProofs AfoldModel AfoldSpec AfoldHonest AfoldRun AfoldWhole AfoldBind AfoldProps NoteProps SetupModel ShapeProofs ShapeFold.
Import ListNotations.
Local Open Scope F_scope.

(** Same gates in the same order (selectors, wires, boolean flags and public
    positions) and same number of variables: everything the indexer reads. *)
Definition same_circuit (c c' : tcs BLS) : Prop := gates c = gates c' /\ nvars c = nvars c'.
(** Payers whose Merkle paths have pairwise the same lengths. *)
Definition same_depths (ps ps' : list (payer_w BLS)) : Prop :=
  map (fun p => length (p_path BLS p)) ps = map (fun p => length (p_path BLS p)) ps'.
Notation default_fw := (default_folding BLS SecpQ).

Lemma same_alike c c' : alike BLS c c' <-> same_circuit c c'.
Proof.
  unfold alike, same_circuit, gates. split; intros [H1 H2]; split; try assumption; [now rewrite H1|].
  rewrite <- (rev_involutive (grev c)), <- (rev_involutive (grev c')). now rewrite H1.
Qed.
Lemma depths_like ps ps' : same_depths ps ps' -> Forall2 (payer_like BLS) ps ps'.
Proof.
  unfold same_depths. revert ps'. induction ps as [|p ps IH]; intros [|p' ps'] E; try discriminate; constructor.
  - exact (f_equal (hd O) E).
  - apply IH. exact (f_equal (@tl nat) E).
Qed.
Lemma gadget_shape fw fw' : witness_builds BLS SecpQ fw -> witness_builds BLS SecpQ fw' ->
  forall pk sk, sh BLS (fold_gadget fw pk sk) (fold_gadget fw' pk sk) eq.
Proof.
  intros H H' pk sk c c' E. pose proof (C62_gadget_is_the_code fw pk sk c H) as E1. pose proof (C62_gadget_is_the_code fw' pk sk c' H') as E2.
  destruct (fold_gadget fw pk sk c) as [a d], (fold_gadget fw' pk sk c') as [a' d'].
  exact (rsh_folding BLS SecpQ bls_rescue gadget_alpha_inv pk sk fw fw' _ _ _ _ _ _ E E1 E2).
Qed.
Lemma pad_same c c' : same_circuit c c' -> same_circuit (TurboModel.pad BLS c) (TurboModel.pad BLS c').
Proof.
  rewrite <- !same_alike. intros [E1 E2]. split; [|exact E2]. unfold TurboModel.pad, size. cbn [grev]. now rewrite E1.
Qed.

(** ** Shape *)
(** C63: two runs of the folding gadget that do not panic add the same gates and
    variables, whatever the witnesses. *)
Theorem C63_folding_shape : forall (w w' : fold_wit) pk sk c c' d d', same_circuit c c' ->
  in_cs pk sk w c = Ok (tt, d) -> in_cs pk sk w' c' = Ok (tt, d') -> same_circuit d d'.
Proof.
  intros w w' pk sk c c' d d' E H H'. apply same_alike. apply same_alike in E.
  exact (proj1 (rsh_folding BLS SecpQ bls_rescue gadget_alpha_inv pk sk w w' _ _ _ _ _ _ E H H')).
Qed.
Print Assumptions C63_folding_shape.
(** C63: the transfer circuit depends on the number of payers with the lengths of
    their paths, the number of payees and the fee type only. *)
Theorem C63_transfer_shape :
  forall fw fw' payers payers' payees payees' k k' fee fee' ft,
  witness_builds BLS SecpQ fw -> witness_builds BLS SecpQ fw' ->
  same_depths payers payers' -> length payees = length payees' ->
  same_circuit (circuit (fold_gadget fw) payers payees k fee ft) (circuit (fold_gadget fw') payers' payees' k' fee' ft).
Proof.
  intros fw fw' ps ps' qs qs' k k' fee fee' ft H H' HP HQ. apply same_alike.
  apply (sh_xfr BLS bls_rescue gadget_alpha_inv _ _ _ _ _ _ k k' fee fee' ft (depths_like _ _ HP) HQ (gadget_shape fw fw' H H')).
  now split.
Qed.
Print Assumptions C63_transfer_shape.
Theorem C63_shield_shape : forall q q',
  same_circuit (snd (shield_cs BLS bls_rescue gadget_alpha_inv q (cs_new BLS))) (snd (shield_cs BLS bls_rescue gadget_alpha_inv q' (cs_new BLS))).
Proof. intros q q'. apply same_alike, (sh_shield BLS bls_rescue gadget_alpha_inv q q'). now split. Qed.
Print Assumptions C63_shield_shape.
Theorem C63_unshield_shape : forall fw fw' p p' k k',
  witness_builds BLS SecpQ fw -> witness_builds BLS SecpQ fw' -> length (p_path BLS p) = length (p_path BLS p') ->
  same_circuit (snd (unshield_cs BLS bls_rescue gadget_alpha_inv (fold_gadget fw) p k (cs_new BLS)))
               (snd (unshield_cs BLS bls_rescue gadget_alpha_inv (fold_gadget fw') p' k' (cs_new BLS))).
Proof.
  intros fw fw' p p' k k' H H' L. apply same_alike.
  apply (sh_unshield BLS bls_rescue gadget_alpha_inv _ _ p p' k k' L (gadget_shape fw fw' H H')). now split.
Qed.
Print Assumptions C63_unshield_shape.

(** ** The parameters *)
Section Zero.
Context (K : PField).
Add Field Kshape : (f_th K).
Lemma zero_response (x : K) : 0 * x + 0 = 0. Proof. ring. Qed.
End Zero.
Lemma default_honest x y : default_fw x y = honest_fold x y (repeat 0%N 32) 0 0 0 0 0 0 0.
Proof. unfold default_folding, honest_fold. cbv zeta. now rewrite !(zero_response SecpQ). Qed.
Lemma zero_key : key_bytes (repeat 0%N 32).
Proof. repeat split; try reflexivity. repeat constructor. Qed.
Lemma default_builds x y : witness_builds BLS SecpQ (default_fw x y).
Proof. rewrite default_honest. apply honest_builds, zero_key. Qed.
(** C63: the placeholder folding witness builds without a panic, whatever the
    coordinates given for the default public key. *)
Theorem C63_setup_folding_never_panics : forall x y pk sk c, exists c', in_cs pk sk (default_fw x y) c = Ok (tt, c').
Proof. intros x y pk sk c. rewrite default_honest. apply C62_honest_never_panics, zero_key. Qed.
Print Assumptions C63_setup_folding_never_panics.

Notation build folding := (build_multi_xfr_cs BLS bls_rescue gadget_alpha_inv folding).
Notation setup_xfr x y := (xfr_params_cs BLS bls_rescue gadget_alpha_inv (fold_gadget (default_fw x y))).
Notation setup_shield := (shield_params_cs BLS bls_rescue gadget_alpha_inv).
Notation setup_unshield x y := (unshield_params_cs BLS bls_rescue gadget_alpha_inv (fold_gadget (default_fw x y))).
Lemma fake_depths payers depth : Forall (fun p => length (p_path BLS p) = depth) payers ->
  same_depths (repeat (fake_payer BLS depth) (length payers)) payers.
Proof.
  unfold same_depths. induction 1 as [|p l H _ IH]; [reflexivity|]. cbn [length repeat map]. rewrite IH, H. f_equal.
  apply repeat_length.
Qed.
Lemma setup_circuit x y payers payees depth kd ft : payers <> [] -> payees <> [] ->
  Forall (fun p => length (p_path BLS p) = depth) payers ->
  exists c, setup_xfr x y (length payers) (length payees) depth kd ft = Ok (TurboModel.pad BLS c) /\
    forall fw k fee, witness_builds BLS SecpQ fw -> same_circuit c (circuit (fold_gadget fw) payers payees k fee ft).
Proof.
  intros Hp Hq HD. exists (circuit (fold_gadget (default_fw x y)) (repeat (fake_payer BLS depth) (length payers))
    (repeat (fake_payee BLS (kp_pk BLS kd)) (length payees)) kd 0 ft). split.
  - unfold xfr_params_cs, build_multi_xfr_cs. destruct payers, payees; try contradiction. reflexivity.
  - intros fw k fee HB. apply C63_transfer_shape; [apply default_builds|exact HB|now apply fake_depths|apply repeat_length].
Qed.
(** C63: for every number of payers and payees and every tree depth, the parameters of
    setup are made for exactly the circuit any prover of that shape builds. *)
Theorem C63_setup_fits_transfer :
  forall x y payers payees depth kd ft, payers <> [] -> payees <> [] ->
  Forall (fun p => length (p_path BLS p) = depth) payers ->
  exists cp, setup_xfr x y (length payers) (length payees) depth kd ft = Ok cp /\
  forall fw k fee, witness_builds BLS SecpQ fw ->
  exists c, build (fold_gadget fw) payers payees k fee ft = Ok c /\ same_circuit cp c.
Proof.
  intros x y payers payees depth kd ft Hp Hq HD. destruct (setup_circuit x y payers payees depth kd ft Hp Hq HD) as [c [E1 E2]].
  exists (TurboModel.pad BLS c). split; [exact E1|]. intros fw k fee HB. eexists. split.
  - unfold build_multi_xfr_cs. destruct payers, payees; try contradiction. reflexivity.
  - apply pad_same. now apply E2.
Qed.
Print Assumptions C63_setup_fits_transfer.
Theorem C63_setup_fits_shield_unshield :
  (forall pk q, same_circuit (setup_shield pk) (TurboModel.pad BLS (snd (shield_cs BLS bls_rescue gadget_alpha_inv q (cs_new BLS))))) /\
  (forall x y depth kd fw p k, witness_builds BLS SecpQ fw -> length (p_path BLS p) = depth ->
   same_circuit (setup_unshield x y depth kd)
     (TurboModel.pad BLS (snd (unshield_cs BLS bls_rescue gadget_alpha_inv (fold_gadget fw) p k (cs_new BLS))))).
Proof.
  split.
  - intros pk q. apply pad_same, C63_shield_shape.
  - intros x y depth kd fw p k HB L. apply pad_same, C63_unshield_shape; [apply default_builds|exact HB|].
    rewrite L. apply repeat_length.
Qed.
Print Assumptions C63_setup_fits_shield_unshield.

(** ** Using the parameters *)
Lemma same_sat c c' w : same_circuit c c' -> (sat c w <-> sat c' w).
Proof. rewrite <- same_alike. intros [E _]. unfold sat. now rewrite E. Qed.
Lemma same_pub c c' w : same_circuit c c' -> pub_values w c = pub_values w c'.
Proof. intros [E _]. unfold pub_values. now rewrite E. Qed.
Lemma pad_pub c w : pub_values w (TurboModel.pad BLS c) = pub_values w c.
Proof.
  unfold pub_values, gates, TurboModel.pad. cbn [grev]. rewrite rev_app_distr, flat_map_app.
  replace (flat_map _ (rev (repeat _ _))) with (@nil BLS); [apply app_nil_r|].
  generalize (next_power_of_two (size c) - size c)%nat. intro n.
  assert (H : forall g, In g (rev (repeat (pad_row BLS) n)) -> g = pad_row BLS).
  { intros g Hg. apply in_rev in Hg. now apply repeat_spec in Hg. }
  induction (rev (repeat (pad_row BLS) n)) as [|g l IH]; [reflexivity|]. cbn [flat_map]. rewrite (H g (or_introl eq_refl)), <- IH; [reflexivity|].
  intros g' Hg'. apply H. now right.
Qed.
(** C63: the values computed by an honest prover of any transfer (see
    C62_transfer_complete) satisfy the circuit of the parameters and show the
    verifier's public inputs. *)
Theorem C63_setup_transfer_complete :
  forall (as_scalar : N -> BLS) k x y skb rx ry rs r comm beta lambda ins outs fee pre x0 y0 k0 depth,
  honest_keys k x y skb rx ry rs r comm ->
  init_anon_xfr_note BLS bls_rescue as_scalar ins outs fee k = Ok pre ->
  Forall (genuine BLS bls_rescue as_scalar) ins -> Forall (fun r => (o_amount BLS r < 2 ^ 64)%N) outs ->
  In FEE_TYPE (map (o_type BLS) ins) -> incl (map (o_type BLS) outs) (map (o_type BLS) ins) ->
  (forall t, In t (map (o_type BLS) ins) -> t <> FEE_TYPE -> In t (map (o_type BLS) outs)) ->
  Forall (fun p => length (p_path BLS p) = depth) (pre_payers BLS pre) ->
  let fw := honest_fold x y skb rx ry rs r comm beta lambda in
  exists cp c fv,
    setup_xfr x0 y0 (length (pre_payers BLS pre)) (length (pre_payees BLS pre)) depth k0 (as_scalar FEE_TYPE) = Ok cp /\
    build (fold_gadget fw) (pre_payers BLS pre) (pre_payees BLS pre) k fee (as_scalar FEE_TYPE) = Ok c /\
    sat cp (val c) /\ conv (val c) /\
    verifier_input comm (fw_resp fw) beta lambda = Ok fv /\
    pub_values (val c) cp = pub_inputs BLS (pre_body BLS pre) (b_root BLS (pre_body BLS pre)) fv.
Proof.
  intros as_scalar k x y skb rx ry rs r comm beta lambda ins outs fee pre x0 y0 k0 depth Hk H1 H2 H3 H4 H5 H6 HD fw.
  destruct (C62_transfer_complete as_scalar k x y skb rx ry rs r comm beta lambda ins outs fee pre Hk H1 H2 H3 H4 H5 H6) as [S [Cv [fv [V PV]]]].
  fold fw in S, Cv, V, PV.
  assert (NP : pre_payers BLS pre <> [] /\ pre_payees BLS pre <> []).
  { destruct (builder_ok BLS bls_rescue as_scalar ins outs fee k pre H1) as (i0 & ins' & Ei & No & _ & _ & _ & Ep & Eq & _).
    rewrite Ep, Eq, Ei. split; [discriminate|]. destruct outs; [contradiction|discriminate]. }
  destruct NP as [NP NQ]. destruct (setup_circuit x0 y0 _ _ depth k0 (as_scalar FEE_TYPE) NP NQ HD) as [cp [E1 E2]].
  assert (HB : witness_builds BLS SecpQ fw) by (apply honest_builds, (proj1 Hk)). specialize (E2 fw k fee HB).
  set (c := circuit (fold_gadget fw) (pre_payers BLS pre) (pre_payees BLS pre) k fee (as_scalar FEE_TYPE)) in *.
  exists (TurboModel.pad BLS cp), (TurboModel.pad BLS c), fv. split; [exact E1|]. split.
  { unfold build_multi_xfr_cs. destruct (pre_payers BLS pre), (pre_payees BLS pre); try contradiction. reflexivity. }
  assert (EV : val (TurboModel.pad BLS c) = val c) by reflexivity. rewrite EV.
  split; [apply pad_sat, (same_sat _ _ _ E2), S|]. split; [exact Cv|]. split; [exact V|].
  rewrite pad_pub, (same_pub _ _ _ E2). exact PV.
Qed.
Print Assumptions C63_setup_transfer_complete.
(** C63 (partial: variables 0 and 1 must hold zero and one, see C14): every assignment
    satisfying the circuit of the parameters for [n] payers, [m] payees and a tree of
    depth [depth] describes a transfer with that many records and paths of that
    length. *)
Theorem C63_setup_transfer_sound_partial :
  forall x y n m depth k ft cp (w : nat -> BLS), setup_xfr x y n m depth k ft = Ok cp ->
  (Z.of_nat n <= 2 ^ 100)%Z -> (Z.of_nat m <= 2 ^ 100)%Z ->
  sat cp w -> w 0%nat = 0 -> w 1%nat = 1 ->
  exists ins outs pk sk root fee' fv,
    map (fun s => length (sp_path s)) ins = repeat depth n /\ length outs = m /\
    pub_values w cp = public BLS Hash pk sk root ins outs fee' ++ fv /\
    well_formed BLS Hash pk root ins outs /\
    (u64f fee' -> conserves BLS ft ins outs fee') /\
    forall comm resp beta lambda, verifier_input comm resp beta lambda = Ok fv -> fold_stmt pk sk comm resp beta lambda.
Proof.
  intros x y n m depth k ft cp w HC L1 L2 Hs W0 W1.
  unfold xfr_params_cs, build_multi_xfr_cs in HC. destruct n as [|n]; [discriminate|]. destruct m as [|m]; [discriminate|].
  cbn [repeat] in HC. apply Ok_inj in HC. subst cp. rewrite pad_sat in Hs. rewrite pad_pub.
  destruct (fun A B C => C62_transfer_sound_partial (default_fw x y) _ _ k 0 ft w (default_builds x y) A B C Hs W0 W1) as (ins & outs & pk & sk & root & fee' & fv & A1 & A2 & A3 & A4);
    [discriminate|cbn [length]; rewrite repeat_length; assumption..|].
  exists ins, outs, pk, sk, root, fee', fv. split; [|split; [|split; [exact A3|exact A4]]].
  - rewrite A1. cbn [map repeat p_path fake_payer]. rewrite repeat_length. f_equal.
    clear. induction n as [|n IH]; [reflexivity|]. cbn [repeat map p_path fake_payer]. now rewrite repeat_length, IH.
  - rewrite A2. cbn [length]. now rewrite repeat_length.
Qed.
Print Assumptions C63_setup_transfer_sound_partial.
(** C63: a proof system that is knowledge sound for the circuit of the parameters is
    so for the circuit of every prover, which is what C56 asks of it. *)
Theorem C63_setup_extractable :
  (forall {Pf} pk q (v : list BLS -> Pf -> res unit), extractable (setup_shield pk) v ->
     extractable (snd (shield_cs BLS bls_rescue gadget_alpha_inv q (cs_new BLS))) v) /\
  (forall {Pf} x y depth kd fw p k (v : list BLS -> Pf -> res unit), witness_builds BLS SecpQ fw -> length (p_path BLS p) = depth ->
     extractable (setup_unshield x y depth kd) v ->
     extractable (snd (unshield_cs BLS bls_rescue gadget_alpha_inv (fold_gadget fw) p k (cs_new BLS))) v).
Proof.
  assert (T : forall Pf cp c (v : list BLS -> Pf -> res unit), same_circuit cp (TurboModel.pad BLS c) -> extractable cp v -> extractable c v).
  { intros Pf cp c v E H pi pf Hv. destruct (H pi pf Hv) as [w [S [Z V]]]. exists w.
    split; [apply pad_sat, (same_sat _ _ _ E), S|]. split; [exact Z|]. rewrite <- pad_pub, <- (same_pub _ _ _ E). exact V. }
  split.
  - intros Pf pk q v. apply T, C63_setup_fits_shield_unshield.
  - intros Pf x y depth kd fw p k v HB L. apply T. now apply C63_setup_fits_shield_unshield.
Qed.
Print Assumptions C63_setup_extractable.

(** Concrete shapes: one payer and one payee in a tree of depth one, real values
    against placeholders; a longer path is another shape. *)
Example C63_case :
  same_depths [mkPayer BLS 7 1 3 [mkNode BLS (fofZ 5) (fofZ 6) 1 0] (fofZ 9)] [fake_payer BLS 1] /\
  ~ same_depths [mkPayer BLS 7 1 3 [mkNode BLS (fofZ 5) (fofZ 6) 1 0] (fofZ 9)] [fake_payer BLS 2] /\
  (forall x y, witness_builds BLS SecpQ (default_fw x y)).
Proof. split; [reflexivity|]. split; [intro H; discriminate H|]. apply default_builds. Qed.
