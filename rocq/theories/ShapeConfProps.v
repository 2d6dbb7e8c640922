(** C63 for the circuits between confidential and anonymous records. *)
From Coq Require Import List ZArith NArith Bool Lia ZifyBool ZifyNat ZifyN Ring Field.
From Verif Require Import Base Field PField UtilsModel UtilsProps Power TurboModel TurboSpec TurboProofs TurboLemmas TurboHonest TurboKit TurboEmit
  RescueModel RescueSpec RescueProofs RescueLemmas AxfrModel AxfrSpec AxfrProofs AxfrHonest AxfrLemmas AxfrProps FoldModel SimModel SimCircuit Primality SecpPrime
  NoteModel NoteProps AfoldModel AfoldSpec AfoldHonest AfoldRun AfoldWhole AfoldBind AfoldProps
  SetupModel SetupConf ShapeProofs ShapeFold ShapeProps ShapeInsp XfrModel SigmaModel SigmaSpec InspModel InspSpec InspProofs InspRun InspWhole InspNotes InspProps.
Import ListNotations.
Local Open Scope F_scope.

Notation setup_from := (from_params_cs BLS RFr bls_rescue gadget_alpha_inv).
Notation setup_to x y := (to_params_cs BLS RFr bls_rescue gadget_alpha_inv (fun pk sk => in_cs pk sk (default_fw x y))).

(** C63: two circuits between confidential and anonymous records that are built without
    panic have the same gates and variables, whatever their witnesses; for anonymous
    inputs, when the paths have the same length. *)
Theorem C63_from_shape : forall amount ty blind pk w c amount' ty' blind' pk' w' c',
  from_cs amount ty blind pk w (cs_new BLS) = Ok (tt, c) -> from_cs amount' ty' blind' pk' w' (cs_new BLS) = Ok (tt, c') -> same_circuit c c'.
Proof.
  intros amount ty blind pk w c amount' ty' blind' pk' w' c' E E'. apply same_alike.
  exact (proj1 (rsh_from BLS RFr bls_rescue gadget_alpha_inv _ _ _ _ _ _ _ _ _ _ _ _ _ _ _ _ (conj eq_refl eq_refl) E E')).
Qed.
Print Assumptions C63_from_shape.
Theorem C63_to_shape : forall (fw fw' : fold_wit) p p' k k' w w' c c', length (p_path BLS p) = length (p_path BLS p') ->
  to_cs fw p k w (cs_new BLS) = Ok (tt, c) -> to_cs fw' p' k' w' (cs_new BLS) = Ok (tt, c') -> same_circuit c c'.
Proof.
  intros fw fw' p p' k k' w w' c c' L E E'. apply same_alike.
  exact (proj1 (rsh_to BLS RFr bls_rescue gadget_alpha_inv _ _ p p' k k' w w' L
    (fun pk sk => rsh_folding BLS SecpQ bls_rescue gadget_alpha_inv pk sk fw fw') _ _ _ _ _ _ (conj eq_refl eq_refl) E E')).
Qed.
Print Assumptions C63_to_shape.

Section ZeroI.
Context (K : PField).
Add Field Kzi : (f_th K).
Lemma zero_insp (F : PField) : insp_builds F K (default_insp F K).
Proof.
  exists 0, 0, 0, 0, [(0, 0)], (0 + 0 * 0). split; [reflexivity|]. split; [reflexivity|]. unfold two_equations. cbn [iw_beta iw_lambda default_insp]. ring.
Qed.
End ZeroI.
(** C63: the placeholder circuits are built without panic. *)
Theorem C63_setup_conf_never_panics :
  (forall pk, exists cp, setup_from pk = Ok cp) /\ (forall x y depth k, exists cp, setup_to x y depth k = Ok cp).
Proof.
  split.
  - intros pk. unfold from_params_cs.
    destruct (from_total BLS RFr bls_254s bls_rescue gadget_alpha_inv rfr_pchar 0 0 0 pk (default_insp BLS RFr) (zero_insp RFr BLS) (cs_new BLS)) as (u & c & E & _).
    rewrite E. eexists. reflexivity.
  - intros x y depth k. unfold to_params_cs.
    destruct (to_total BLS RFr bls_254s bls_rescue gadget_alpha_inv rfr_pchar (fun pk sk => in_cs pk sk (default_fw x y)) (fake_payer BLS depth) k (default_insp BLS RFr) (zero_insp RFr BLS)) with (c := cs_new BLS) as (u & c & E & _).
    + intros pk sk c. destruct (C63_setup_folding_never_panics x y pk sk c) as [c' E]. exists tt, c'. split; [exact E|exact I].
    + rewrite E. eexists. reflexivity.
Qed.
Print Assumptions C63_setup_conf_never_panics.

(** C63: the parameters of setup are made for exactly the circuit any prover builds. *)
Theorem C63_setup_fits_conf :
  (forall pk0 amount ty blind pk w c, from_cs amount ty blind pk w (cs_new BLS) = Ok (tt, c) ->
   exists cp, setup_from pk0 = Ok cp /\ same_circuit cp (TurboModel.pad BLS c)) /\
  (forall x y depth k0 (fw : fold_wit) p k w c, length (p_path BLS p) = depth -> to_cs fw p k w (cs_new BLS) = Ok (tt, c) ->
   exists cp, setup_to x y depth k0 = Ok cp /\ same_circuit cp (TurboModel.pad BLS c)).
Proof.
  split.
  - intros pk0 amount ty blind pk w c E. destruct (proj1 C63_setup_conf_never_panics pk0) as [cp Ecp]. exists cp. split; [exact Ecp|].
    unfold from_params_cs in Ecp. destruct (from_cs 0 0 0 pk0 (default_insp BLS RFr) (cs_new BLS)) as [[[] c0]| |] eqn:E0; [|discriminate..].
    cbn [rmap snd] in Ecp. apply Ok_inj in Ecp. subst cp. apply pad_same. exact (C63_from_shape _ _ _ _ _ _ _ _ _ _ _ _ E0 E).
  - intros x y depth k0 fw p k w c L E. destruct (proj2 C63_setup_conf_never_panics x y depth k0) as [cp Ecp]. exists cp. split; [exact Ecp|].
    unfold to_params_cs in Ecp. destruct (to_cs (default_fw x y) (fake_payer BLS depth) k0 (default_insp BLS RFr) (cs_new BLS)) as [[[] c0]| |] eqn:E0; [|discriminate..].
    cbn [rmap snd] in Ecp. apply Ok_inj in Ecp. subst cp. apply pad_same. refine (C63_to_shape _ _ _ _ _ _ _ _ _ _ _ E0 E).
    cbn [p_path fake_payer]. rewrite L. apply repeat_length.
Qed.
Print Assumptions C63_setup_fits_conf.

(** C63: a proof system that is knowledge sound for the circuit of the parameters is so
    for the circuit of every prover, which is what C64 asks of it. *)
Theorem C63_setup_conf_extractable :
  (forall {Pf} pk0 cp amount ty blind pk w c (v : list BLS -> Pf -> res unit), setup_from pk0 = Ok cp ->
   from_cs amount ty blind pk w (cs_new BLS) = Ok (tt, c) -> extractable cp v -> extractable c v) /\
  (forall {Pf} x y depth k0 cp (fw : fold_wit) p k w c (v : list BLS -> Pf -> res unit), setup_to x y depth k0 = Ok cp ->
   length (p_path BLS p) = depth -> to_cs fw p k w (cs_new BLS) = Ok (tt, c) -> extractable cp v -> extractable c v).
Proof.
  assert (T : forall Pf cp c (v : list BLS -> Pf -> res unit), same_circuit cp (TurboModel.pad BLS c) -> extractable cp v -> extractable c v).
  { intros Pf cp c v E H pi pf Hv. destruct (H pi pf Hv) as [w [S [Z V]]]. exists w.
    split; [apply pad_sat, (same_sat _ _ _ E), S|]. split; [exact Z|]. rewrite <- pad_pub, <- (same_pub _ _ _ E). exact V. }
  split.
  - intros Pf pk0 cp amount ty blind pk w c v Ecp Ec. destruct (proj1 C63_setup_fits_conf pk0 _ _ _ _ _ _ Ec) as [cp' [E1 E2]].
    rewrite Ecp in E1. apply Ok_inj in E1. subst cp'. exact (T Pf cp c v E2).
  - intros Pf x y depth k0 cp fw p k w c v Ecp L Ec. destruct (proj2 C63_setup_fits_conf x y depth k0 _ _ _ _ _ L Ec) as [cp' [E1 E2]].
    rewrite Ecp in E1. apply Ok_inj in E1. subst cp'. exact (T Pf cp c v E2).
Qed.
Print Assumptions C63_setup_conf_extractable.

(** C63: an honest conversion (C64) satisfies the circuit of the parameters with the
    public inputs the verifier uses. *)
Theorem C63_setup_conf_complete :
  forall pk0 cp, setup_from pk0 = Ok cp ->
  (forall amount ty blind pk w c, from_cs amount ty blind pk w (cs_new BLS) = Ok (tt, c) -> sat c (val c) ->
   sat cp (val c) /\ pub_values (val c) cp = pub_values (val c) c) /\
  (forall x y depth k0 cq (fw : fold_wit) p k w c, setup_to x y depth k0 = Ok cq -> length (p_path BLS p) = depth ->
   to_cs fw p k w (cs_new BLS) = Ok (tt, c) -> sat c (val c) -> sat cq (val c) /\ pub_values (val c) cq = pub_values (val c) c).
Proof.
  assert (T : forall cp c, same_circuit cp (TurboModel.pad BLS c) -> sat c (val c) -> sat cp (val c) /\ pub_values (val c) cp = pub_values (val c) c).
  { intros cp c E S. split; [apply (same_sat _ _ _ E), pad_sat, S|]. rewrite (same_pub _ _ _ E). apply pad_pub. }
  intros pk0 cp Ecp. split.
  - intros amount ty blind pk w c Ec. destruct (proj1 C63_setup_fits_conf pk0 _ _ _ _ _ _ Ec) as [cp' [E1 E2]].
    rewrite Ecp in E1. apply Ok_inj in E1. subst cp'. exact (T cp c E2).
  - intros x y depth k0 cq fw p k w c Ecq L Ec. destruct (proj2 C63_setup_fits_conf x y depth k0 _ _ _ _ _ L Ec) as [cp' [E1 E2]].
    rewrite Ecq in E1. apply Ok_inj in E1. subst cp'. exact (T cq c E2).
Qed.
Print Assumptions C63_setup_conf_complete.
(** An honest conversion of a record of value 2^40 + 7 fits and satisfies the circuit
    whose parameters were made from zeros. *)
Example C63_case_conf : forall chal (g : rng (F := RFr)) (r : N) owner blinding pk0,
  exists cp p i beta lambda w c, conf_prove BLS RFr bls_rescue case_g case_b case_h (C := RFr) (fun g => g) Some (fun g => eq_refl) feqb case_ceqb case_num chal
      (from_start BLS RFr case_g (commitment BLS Hash owner blinding (fofN (2 ^ 40 + 7)) (fofN 3))) g r case_o = Ok (p, i, beta, lambda) /\
    w = witness_of BLS RFr case_g p i beta lambda /\ setup_from pk0 = Ok cp /\ from_cs (fofN (2 ^ 40 + 7)) (fofN 3) blinding owner w (cs_new BLS) = Ok (tt, c) /\
    sat cp (val c) /\ fofN (F := BLS) (2 ^ 40 + 7) <> 0.
Proof.
  intros chal g r owner blinding pk0. destruct (C64_case_from chal g r owner blinding) as (p & i & beta & lambda & c & E0 & E & S).
  destruct (proj1 C63_setup_conf_never_panics pk0) as [cp Ecp]. exists cp, p, i, beta, lambda, (witness_of BLS RFr case_g p i beta lambda), c. split; [exact E0|]. split; [reflexivity|].
  split; [exact Ecp|]. split; [exact E|]. split; [exact (proj1 (proj1 (C63_setup_conf_complete pk0 cp Ecp) _ _ _ _ _ _ E S))|].
  intros H. apply (f_equal toZ) in H. revert H. vm_compute. discriminate.
Qed.
