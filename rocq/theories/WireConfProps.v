(** Property theorems for the records behind the circuits of the conversions between
    confidential and anonymous records (C72): as in WireProps.v. *)
From Coq Require Import List ZArith NArith Bool Lia ZifyBool ZifyNat ZifyN.
From Verif Require Import Base Field PField UtilsModel UtilsProps Power TurboModel TurboSpec TurboProofs TurboLemmas TurboHonest TurboKit TurboEmit
  RescueModel RescueSpec RescueProofs RescueLemmas XfrModel XfrSpec
  AxfrModel AxfrSpec AxfrProofs AxfrHonest AxfrLemmas AxfrProps FoldModel SimModel SecpPrime SigmaModel SigmaSpec NoteModel
  NoteProofs AfoldModel AfoldSpec AfoldHonest AfoldRun AfoldWhole AfoldBind AfoldProps NoteProps SetupModel SetupConf ShapeProofs ShapeFold ShapeProps
  InspModel InspSpec InspProofs InspBind InspRun InspWhole InspNotes InspProps ShapeConfProps WireSpec WireProofs.
Import ListNotations.
Local Open Scope F_scope.

(** C72 (partial: constant zero in variable 0): an assignment satisfying the circuit of the
    parameters for conversions of confidential records has the anonymous record in
    variables 2 to 7; it publishes the commitment of this record, and the inspection is
    about its amount and type. *)
Theorem C72_from_partial : forall pk cp (w : nat -> BLS), setup_from pk = Ok cp -> sat cp w -> w 0%nat = 0 ->
  exists l, pub_values w cp = commitment BLS Hash (key_at w 5) (w 4%nat) (w 2%nat) (w 3%nat) :: l /\
    forall comm resp beta lambda, insp_inputs BLS RFr comm resp beta lambda = Ok l ->
    inspected BLS RFr bls_rescue (w 2%nat) (w 3%nat) comm resp beta lambda.
Proof.
  intros pk cp w Ecp S W0. unfold from_params_cs in Ecp. destruct (from_cs 0 0 0 pk (default_insp BLS RFr) (cs_new BLS)) as [[[] c]| |] eqn:Ec; try discriminate Ecp.
  cbn [rmap bind] in Ecp. apply Ok_inj in Ecp. subst cp. rewrite pad_sat in S. rewrite pad_pub.
  exact (from_wires BLS RFr bls_254s bls_rescue bls_rescue_ok gadget_alpha_inv gadget_exp_inv rfr_pchar _ _ _ _ _ c w Ec S W0).
Qed.
Print Assumptions C72_from_partial.
(** C72 (same restriction): an assignment satisfying the circuit of the parameters for
    conversions of anonymous records, for trees of depth [d], has the spent record and the
    keys of its owner in fixed variables; it publishes their nullifier and the root of a
    tree that has the record; the inspection is about its amount and type, and what the
    folding shows is about these keys. *)
Theorem C72_to_partial : forall x y d k cp (w : nat -> BLS), setup_to x y d k = Ok cp -> sat cp w -> w 0%nat = 0 ->
  let s := spend_at w 2 d in let pk := key_at w (outputs_base [d]) in let sk := secret_at w (outputs_base [d] + 3) in
  exists root l fv, length l = 25%nat /\
    pub_values w cp = nullifier BLS Hash pk sk s :: root :: l ++ fv /\
    in_tree BLS Hash pk root s /\
    (forall comm resp beta lambda, insp_inputs BLS RFr comm resp beta lambda = Ok l ->
     inspected BLS RFr bls_rescue (sp_amount s) (sp_type s) comm resp beta lambda) /\
    (forall comm resp beta lambda, verifier_input comm resp beta lambda = Ok fv -> fold_stmt pk sk comm resp beta lambda).
Proof.
  intros x y d k cp w Ecp S W0. unfold to_params_cs in Ecp. destruct (to_cs (default_fw x y) (fake_payer BLS d) k (default_insp BLS RFr) (cs_new BLS)) as [[[] c]| |] eqn:Ec; try discriminate Ecp.
  cbn [rmap bind] in Ecp. apply Ok_inj in Ecp. subst cp. rewrite pad_sat in S. rewrite pad_pub.
  assert (Hf : forall pk sk, rsoundp BLS (in_cs pk sk (default_fw x y)) (fun _ => True) (fun a _ vs => a 0%nat = 0 ->
    forall comm resp beta lambda, verifier_input comm resp beta lambda = Ok vs -> fold_stmt (vpk BLS a pk) (vsk BLS a sk) comm resp beta lambda)).
  { intros pk sk c0 u c1 H2 E0.
    destruct (fold_sound_pub BLS SecpQ bls_254s bls_rescue bls_rescue_ok gadget_alpha_inv gadget_exp_inv secp_pchar (default_fw x y) pk sk c0 _ E0 H2) as [N Q].
    split; [exact N|]. split; [exact I|]. exact Q. }
  pose proof (to_wires BLS RFr bls_254s bls_rescue bls_rescue_ok gadget_alpha_inv gadget_exp_inv rfr_pchar bls_big _ _ Hf (fake_payer BLS d) k _ c w Ec S W0) as R.
  assert (L : length (p_path BLS (fake_payer BLS d)) = d) by apply repeat_length. rewrite L in R.
  destruct R as (root & l & fv & R1 & R2 & R3 & R4 & R5). exists root, l, fv.
  split; [exact R1|]. split; [exact R2|]. split; [exact R3|]. split; [exact R5|exact (R4 W0)].
Qed.
Print Assumptions C72_to_partial.
(** The hypotheses can be met: the assignment of an honest conversion of a record of value
    2^40 + 7 satisfies the circuit of the parameters (in the other direction
    [C64_to_honest_accepted] and [C63_setup_conf_complete] give one). *)
Example C72_case_from : forall (chal : oracle (F := RFr) (G := case_g)) (g : rng (F := RFr)) (r : N) owner (blinding : BLS) pk0,
  exists cp w, setup_from pk0 = Ok cp /\ sat cp w /\ w 0%nat = 0 /\
    exists l, pub_values w cp = commitment BLS Hash owner blinding (fofN (2 ^ 40 + 7)) (fofN 3) :: l.
Proof.
  intros chal g r owner blinding pk0. destruct C64_case_consistent as [H1 [H2 H3]].
  destruct (C64_from_honest_accepted case_g case_b case_h (fun g => g) Some (fun g => eq_refl) feqb case_ceqb case_num (Pf := unit) (Vp := unit) (Memo := unit) chal g r case_o owner blinding H1 H2 H3)
    as (p & i & beta & lambda & c & _ & E2 & E3 & [C0 _] & K).
  destruct (proj1 C63_setup_conf_never_panics pk0) as [cp Ecp]. exists cp, (val c). split; [exact Ecp|].
  destruct (proj1 (C63_setup_conf_complete pk0 cp Ecp) _ _ _ _ _ _ E2 E3) as [S V]. split; [exact S|]. split; [exact C0|]. rewrite V.
  assert (Q0 : (if list_eq_dec f_dec (pub_values (val c) c) (pub_values (val c) c) then Ok tt else Err) = Ok tt).
  { match goal with |- (if ?d then _ else _) = _ => destruct d as [_|X] end; [reflexivity|now elim X]. }
  pose proof (K (fun _ l _ => if list_eq_dec f_dec l (pub_values (val c) c) then Ok tt else Err) tt tt tt Q0) as Q.
  apply (from_ok case_g case_b case_h (fun g => g) Some (fun g => eq_refl) feqb case_ceqb case_num) in Q.
  destruct Q as (_ & ca & ct & b' & l' & vs & _ & _ & _ & _ & Q). cbn [fb_out] in Q.
  match type of Q with (if ?d then _ else _) = _ => destruct d as [e|] end; [|discriminate Q]. exists vs. rewrite <- e. reflexivity.
Qed.
