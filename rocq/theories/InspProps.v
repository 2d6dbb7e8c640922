(** Property theorems for the notes between confidential and anonymous records (C64):
    what their circuits establish about the delegated Schnorr proof, what an accepted
    note says, what runs of a prover reveal, and that honest notes are accepted.  The
    circuit field is BLS12-381's scalar field; [RFr] is Ristretto's scalar field. *)
From Coq Require Import List ZArith NArith Bool Lia ZifyBool ZifyNat ZifyN Ring Field.
From Verif Require Import Base Field PField UtilsModel UtilsProps Power TurboModel TurboSpec TurboProofs TurboHonest TurboKit TurboEmit
  RescueModel RescueSpec RescueProofs RescueLemmas XfrModel XfrSpec XfrProofs AxfrModel AxfrSpec AxfrProofs AxfrHonest AxfrLemmas AxfrProps SimModel Primality SecpPrime
  SigmaModel SigmaSpec SigmaProps NoteModel NoteProofs NoteProps AfoldModel AfoldSpec AfoldHonest AfoldRun AfoldWhole AfoldBind AfoldProps
  InspModel InspSpec InspProofs InspBind InspRun InspWhole InspNotes.
Import ListNotations.
Local Open Scope F_scope.

Definition RFr : PField := ZpP ristretto_l ristretto_l_prime.
Lemma rfr_pchar : pchar RFr = modulus ristretto. Proof. reflexivity. Qed.
Notation from_cs := (bar_to_abar_cs BLS RFr bls_rescue gadget_alpha_inv).
Notation to_cs fw := (abar_to_bar_cs BLS RFr bls_rescue gadget_alpha_inv (fun pk sk => in_cs pk sk fw)).
Notation answered := (answers BLS RFr bls_rescue).
Notation state_of := (state_comm BLS bls_rescue).
Notation opening_inputs o := (let '(X, Y, A, B, r) := o in state_inputs BLS bls_rescue [X; Y] [A; B] r).

(** ** The circuits *)
(** C64 (partial: only for assignments with zero in variable 0, see C14).  Take the
    circuit of [verify_bar_to_abar] built with whatever witness.  In every satisfying
    assignment the first public value is the commitment of an anonymous record; if the
    others are those the verifier computes from an inspection commitment, responses and
    challenges, then some state answers them whose data are the amount and type of that
    record. *)
Theorem C64_from_circuit_sound_partial :
  forall amount ty blind pk w c, from_cs amount ty blind pk w (cs_new BLS) = Ok (tt, c) ->
  forall a, sat c a -> a 0%nat = 0 ->
  exists am t b p l, pub_values a c = commitment BLS Hash p b am t :: l /\
    forall comm resp beta lambda, insp_inputs BLS RFr comm resp beta lambda = Ok l ->
    inspected BLS RFr bls_rescue am t comm resp beta lambda.
Proof.
  intros amount ty blind pk w c E a Hs A0.
  destruct (from_sound BLS RFr bls_254s bls_rescue bls_rescue_ok gadget_alpha_inv gadget_exp_inv rfr_pchar amount ty blind pk w (cs_new BLS) tt c (le_n 2) E) as [_ [_ S]].
  destruct (S a Hs) as [_ [vs [V H]]]. cbn beta in H. destruct (H A0) as (am & t & b & p & l & -> & HI).
  exists am, t, b, p, l. split; [exact V|exact HI].
Qed.
Print Assumptions C64_from_circuit_sound_partial.

(** C64 (partial in the same way): the circuit of [verify_abar_to_bar_note].  The first
    public values are the nullifier of an anonymous record and a root of a tree that
    contains it, the next 25 are about the inspection and the last ones about the
    folding of its owner's keys. *)
Theorem C64_to_circuit_sound_partial :
  forall (fw : fold_wit) p k w c, to_cs fw p k w (cs_new BLS) = Ok (tt, c) ->
  forall a, sat c a -> a 0%nat = 0 ->
  exists s root pk sk l fv, length (sp_path s) = length (p_path BLS p) /\ length l = 25%nat /\
    pub_values a c = nullifier BLS Hash pk sk s :: root :: l ++ fv /\
    in_tree BLS Hash pk root s /\
    (forall comm resp beta lambda, insp_inputs BLS RFr comm resp beta lambda = Ok l ->
     inspected BLS RFr bls_rescue (sp_amount s) (sp_type s) comm resp beta lambda) /\
    (forall comm resp beta lambda, verifier_input comm resp beta lambda = Ok fv -> fold_stmt pk sk comm resp beta lambda).
Proof.
  intros fw p k w c E a Hs A0.
  assert (Hf : forall pk sk, rsoundp BLS (in_cs pk sk fw) (fun _ => True) (fun a _ vs => a 0%nat = 0 ->
    forall comm resp beta lambda, verifier_input comm resp beta lambda = Ok vs -> fold_stmt (vpk BLS a pk) (vsk BLS a sk) comm resp beta lambda)).
  { intros pk sk c0 u c1 H2 E0.
    destruct (fold_sound_pub BLS SecpQ bls_254s bls_rescue bls_rescue_ok gadget_alpha_inv gadget_exp_inv secp_pchar fw pk sk c0 _ E0 H2) as [N S].
    split; [exact N|]. split; [exact I|]. exact S. }
  destruct (to_sound BLS RFr bls_254s bls_rescue bls_rescue_ok gadget_alpha_inv gadget_exp_inv rfr_pchar (fun pk sk => in_cs pk sk fw) _ Hf bls_big p k w (cs_new BLS) tt c (le_n 2) E) as [_ [_ S]].
  destruct (S a Hs) as [_ [vs [V H]]]. cbn beta in H. destruct (H A0) as (s & root & pkv & skv & l & fv & L1 & L2 & -> & HT & HF & HI).
  exists s, root, (vpk BLS a pkv), (vsk BLS a skv), l, fv. repeat (split; [first [assumption|exact V]|]). exact (HF A0).
Qed.
Print Assumptions C64_to_circuit_sound_partial.

(** C64: the inspector's state commitment binds: the same value for two lists of data
    and randomizers below 2^253 means the same data and randomizers, or an explicit
    collision of the hash. *)
Theorem C64_state_binding :
  forall data rhos data' rhos' r r' comm, length data = length data' -> length rhos = length rhos' ->
  Forall (fun z => 0 <= z < 2 ^ 253)%Z (data ++ rhos) -> Forall (fun z => 0 <= z < 2 ^ 253)%Z (data' ++ rhos') ->
  state_of data rhos r = Ok comm -> state_of data' rhos' r' = Ok comm ->
  (data = data' /\ rhos = rhos' /\ r = r') \/
  Exists (collide BLS Hash) (combine (state_inputs BLS bls_rescue data rhos r) (state_inputs BLS bls_rescue data' rhos' r')).
Proof. exact (state_binding BLS bls_254s bls_rescue). Qed.
Print Assumptions C64_state_binding.

(** ** Accepted notes *)
Section Accepted.
Context (G : Mod RFr) (B H : G) {C : Type} (comp : G -> C) (decomp : C -> option G) (Hdc : forall g, decomp (comp g) = Some g)
  (ceqb : C -> C -> bool) (Hceqb : forall a b, reflect (a = b) (ceqb a b)) (as_num : N -> N) {D Fi Pf Vp Sig Memo : Type}.
Notation E := (rgroup RFr G B H comp decomp Hdc ceqb Hceqb).
Notation amount_com := (com_amount RFr G B H comp decomp Hdc ceqb Hceqb).
Notation type_com := (com_type RFr G B H comp decomp Hdc ceqb Hceqb as_num).
Notation proof := (ds_proof (F := RFr) (G := G)).
Notation from_accepts chal plonk := (from_conf_core BLS RFr G B H comp decomp Hdc ceqb Hceqb as_num (Pf := Pf) (Vp := Vp) (Memo := Memo) chal plonk).
Notation to_core chal fv plonk := (to_conf_core BLS RFr G B H comp decomp Hdc ceqb Hceqb as_num (D := D) (Fi := Fi) (Pf := Pf) (Vp := Vp) (Memo := Memo) chal fv plonk).
Notation to_accepts chal fv plonk := (verify_to_conf BLS E (to_core chal fv plonk)).
Notation note_from := (from_body BLS E (Pf := Pf) (Memo := Memo) (Cproof := proof)).
Notation note_to := (conf_note BLS E (Fi := Fi) (Pf := Pf) (Memo := Memo) (Cproof := proof)).

(** ** What is committed *)
(** A record whose halves decode to [l] and [h] stands for the commitment [l + 2^32 h];
    a plain amount for the commitment to it without blinding.  Likewise for types. *)
Theorem C64_committed_values : forall r : bar E,
  match b_amount r with
  | AConf lo hi => forall l h, decomp lo = Some l -> decomp hi = Some h -> amount_com r = Ok (l + fofZ (2 ^ 32) *: h)%M
  | APlain a => amount_com r = Ok (fofN a *: B + 0 *: H)%M
  end /\
  match b_type r with
  | TConf c => forall g, decomp c = Some g -> type_com r = Ok g
  | TPlain t => type_com r = Ok (fofN (as_num t) *: B + 0 *: H)%M
  end.
Proof.
  exact (committed_values RFr G B H comp decomp Hdc ceqb Hceqb as_num).
Qed.

(** An undecodable commitment is an error, not a panic. *)
Theorem C64_undecodable_is_error : forall r : bar E,
  match b_amount r with AConf lo hi => decomp lo = None \/ decomp hi = None -> amount_com r = Err | APlain _ => True end /\
  match b_type r with TConf c => decomp c = None -> type_com r = Err | TPlain _ => True end.
Proof.
  intros [[lo hi|a] [c|t] owner]; cbn [b_amount b_type]; unfold com_amount, com_type; cbn [b_amount b_type]; split; trivial.
  all: try (intros ->; reflexivity). all: intros [->| ->]; [reflexivity|]; destruct (decomp lo); reflexivity.
Qed.

(** ** Accepted notes *)
Lemma app_same_len {T} (a a' b b' : list T) : length a = length a' -> a ++ b = a' ++ b' -> a = a' /\ b = b'.
Proof.
  revert a'. induction a as [|x a IH]; intros [|y a'] L X; try discriminate; [auto|]. cbn in X. injection X as -> X.
  destruct (IH a') as [-> ->]; auto.
Qed.
Lemma from_ok chal plonk vp (b : note_from) : from_accepts chal plonk vp b = Ok tt <->
  is_transparent E (fb_in BLS E b) = false /\
  exists ca ct beta lambda vs, amount_com (fb_in BLS E b) = Ok ca /\ type_com (fb_in BLS E b) = Ok ct /\
    ds_verify B H chal (from_start BLS RFr G (fb_out BLS E b)) [ca; ct] (fst (fb_proof BLS E b)) = Ok (beta, lambda) /\
    proof_inputs BLS RFr G (fst (fb_proof BLS E b)) beta lambda = Ok vs /\
    plonk vp (fb_out BLS E b :: vs) (snd (fb_proof BLS E b)) = Ok tt.
Proof.
  unfold from_conf_core. split.
  - destruct (is_transparent E _); [discriminate|]. intros X. split; [reflexivity|].
    apply bind_ok_iff in X. destruct X as [ca [E1 X]]. apply bind_ok_iff in X. destruct X as [ct [E2 X]].
    apply bind_ok_iff in X. destruct X as [[beta lambda] [E3 X]]. apply bind_ok_iff in X. destruct X as [vs [E4 X]].
    exists ca, ct, beta, lambda, vs. auto.
  - intros (-> & ca & ct & beta & lambda & vs & -> & -> & E3 & E4 & E5). cbn [bind]. rewrite E3. cbn [bind fst snd]. rewrite E4. exact E5.
Qed.
Lemma to_ok chal fv plonk vp (n : note_to) root h : to_accepts chal fv plonk vp n root h = Ok tt <->
  let b := cn_body BLS E n in
  root = cb_root BLS E b /\ is_transparent E (cb_out BLS E b) = false /\
  exists ca ct beta lambda vs fi, amount_com (cb_out BLS E b) = Ok ca /\ type_com (cb_out BLS E b) = Ok ct /\
    ds_verify B H chal (to_start BLS RFr G (cb_in BLS E b)) [ca; ct] (cb_cp BLS E b) = Ok (beta, lambda) /\
    fv h (cn_fold BLS E n) = Ok fi /\ proof_inputs BLS RFr G (cb_cp BLS E b) beta lambda = Ok vs /\
    plonk vp (cb_in BLS E b :: root :: vs ++ fi) (cn_proof BLS E n) = Ok tt.
Proof.
  unfold verify_to_conf, to_conf_core. split.
  - destruct (feqb_spec root (cb_root BLS E (cn_body BLS E n))) as [Er|]; [|discriminate]. destruct (is_transparent E _); [discriminate|]. intros X. split; [exact Er|]. split; [reflexivity|].
    apply bind_ok_iff in X. destruct X as [ca [E1 X]]. apply bind_ok_iff in X. destruct X as [ct [E2 X]].
    apply bind_ok_iff in X. destruct X as [[beta lambda] [E3 X]]. apply bind_ok_iff in X. destruct X as [fi [E5 X]]. apply bind_ok_iff in X. destruct X as [vs [E4 X]].
    exists ca, ct, beta, lambda, vs, fi. auto 8.
  - intros (Er & -> & ca & ct & beta & lambda & vs & fi & E1 & E2 & E3 & E5 & E4 & E6).
    destruct (feqb_spec root (cb_root BLS E (cn_body BLS E n))) as [_|N]; [|contradiction]. rewrite E1. cbn [bind]. rewrite E2. cbn [bind]. rewrite E3. cbn [bind fst snd]. rewrite E5. cbn [bind]. rewrite E4. exact E6.
Qed.

(** C64 (partial as [C64_from_circuit_sound_partial]: the proof system is the one that
    also enforces zero in variable 0).  An accepted confidential-to-anonymous note: the
    delegated Schnorr proof verifies for the commitments of its input, and the output is
    the commitment of an anonymous record whose amount, a number below 2^64, and type,
    below 2^240, answer that proof. *)
Theorem C64_accepted_from_partial :
  forall amount ty blind pk w c chal plonk vp (b : note_from), from_cs amount ty blind pk w (cs_new BLS) = Ok (tt, c) ->
  extractable c (plonk vp) -> from_accepts chal plonk vp b = Ok tt ->
  let p := fst (fb_proof BLS E b) in
  exists ca ct beta lambda, amount_com (fb_in BLS E b) = Ok ca /\ type_com (fb_in BLS E b) = Ok ct /\
    ds_verify B H chal (from_start BLS RFr G (fb_out BLS E b)) [ca; ct] p = Ok (beta, lambda) /\
    exists owner blinding X Y A A' r, fb_out BLS E b = commitment BLS Hash owner blinding (fofZ X) (fofZ Y) /\
      answered (fofN (ds_comm p)) (map fst (ds_resp p)) beta lambda (X, Y, A, A', r).
Proof.
  intros amount ty blind pk w c chal plonk vp b Ec Hx Hacc p. apply from_ok in Hacc.
  destruct Hacc as (_ & ca & ct & beta & lambda & vs & E1 & E2 & E3 & E4 & E5). exists ca, ct, beta, lambda. repeat (split; [assumption|]).
  destruct (Hx _ _ E5) as (a & Hs & A0 & PV).
  destruct (C64_from_circuit_sound_partial amount ty blind pk w c Ec a Hs A0) as (am & t & bl & o & l & PV' & HI).
  rewrite PV in PV'. assert (El : vs = l) by exact (f_equal (@tl _) PV'). assert (Eo : fb_out BLS E b = commitment BLS Hash o bl am t) by exact (f_equal (hd 0) PV').
  subst l. destruct (HI _ _ _ _ E4) as (X & Y & A & A' & r & HA & -> & ->). exists o, bl, X, Y, A, A', r. split; [exact Eo|exact HA].
Qed.

(** C64 (partial in the same way).  An accepted anonymous-to-confidential note: the
    delegated Schnorr proof verifies for the commitments of its output, the nullifier is
    that of an anonymous record in the tree with the given root, the amount and type of
    this record answer the proof, and its owner's keys are the folded ones. *)
Theorem C64_accepted_to_partial :
  forall (fw : fold_wit) p0 k w c chal fv plonk vp (n : note_to) root h, to_cs fw p0 k w (cs_new BLS) = Ok (tt, c) ->
  extractable c (plonk vp) -> to_accepts chal fv plonk vp n root h = Ok tt ->
  let b := cn_body BLS E n in let p := cb_cp BLS E b in
  exists ca ct beta lambda fi, amount_com (cb_out BLS E b) = Ok ca /\ type_com (cb_out BLS E b) = Ok ct /\
    ds_verify B H chal (to_start BLS RFr G (cb_in BLS E b)) [ca; ct] p = Ok (beta, lambda) /\
    fv h (cn_fold BLS E n) = Ok fi /\
    exists pk sk s X Y A A' r, cb_in BLS E b = nullifier BLS Hash pk sk s /\ in_tree BLS Hash pk root s /\
      length (sp_path s) = length (p_path BLS p0) /\ sp_amount s = fofZ X /\ sp_type s = fofZ Y /\
      answered (fofN (ds_comm p)) (map fst (ds_resp p)) beta lambda (X, Y, A, A', r) /\
      forall fcomm fresp fbeta flambda, verifier_input fcomm fresp fbeta flambda = Ok fi -> fold_stmt pk sk fcomm fresp fbeta flambda.
Proof.
  intros fw p0 k w c chal fv plonk vp n root h Ec Hx Hacc b p. apply to_ok in Hacc.
  destruct Hacc as (_ & _ & ca & ct & beta & lambda & vs & fi & E1 & E2 & E3 & E4 & E5 & E6). exists ca, ct, beta, lambda, fi. repeat (split; [assumption|]).
  destruct (Hx _ _ E6) as (a & Hs & A0 & PV).
  destruct (C64_to_circuit_sound_partial fw p0 k w c Ec a Hs A0) as (s & rt & pk & sk & l & fl & L1 & L2 & PV' & HT & HI & HF).
  rewrite PV in PV'. assert (En : cb_in BLS E (cn_body BLS E n) = nullifier BLS Hash pk sk s) by exact (f_equal (hd 0) PV').
  assert (Er : root = rt) by exact (f_equal (fun l => hd 0 (tl l)) PV'). assert (El : vs ++ fi = l ++ fl) by exact (f_equal (fun l => tl (tl l)) PV').
  assert (Lv : length vs = 25%nat).
  { unfold proof_inputs, insp_inputs in E5. destruct (two_responses _ _ _) as [cc| |]; [|discriminate..]. cbn [rmap] in E5. apply Ok_inj in E5. rewrite <- E5. reflexivity. }
  assert (E7 : vs = l /\ fi = fl).
  { apply app_same_len; [congruence|exact El]. }
  destruct E7 as [-> ->]. subst rt. destruct (HI _ _ _ _ E5) as (X & Y & A & A' & r & HA & Ea & Et).
  exists pk, sk, s, X, Y, A, A', r. repeat (split; [assumption|]). exact HF.
Qed.

(** ** Extraction *)
(** C64: four runs with the same inspection commitment and randomizers, under two first
    challenges and two second challenges for each, the responses being fixed before the
    second challenge.  Whatever states answer the four runs, two of them exhibit a
    collision of the hash, or they are one state, whose two data are values the two
    commitments of the record open to, with blindings computed from the responses. *)
Theorem C64_extraction :
  forall ca ct t (p : bool -> proof) (chal : bool -> bool -> oracle) beta lambda (o : bool -> bool -> state BLS) comm rand,
  (forall i, ds_comm (p i) = comm /\ ds_rand (p i) = rand) -> beta true <> beta false -> (forall i, lambda i true <> lambda i false) ->
  (forall i j, ds_verify B H (chal i j) t [ca; ct] (p i) = Ok (beta i, lambda i j)) ->
  (forall i j, answered (fofN comm) (map fst (ds_resp (p i))) (beta i) (lambda i j) (o i j)) ->
  (exists i j, Exists (collide BLS Hash) (combine (opening_inputs (o i j)) (opening_inputs (o true true)))) \/
  exists X Y A A' r, (forall i j, o i j = (X, Y, A, A', r)) /\
    (0 <= X < 2 ^ 64)%Z /\ (0 <= Y < 2 ^ 240)%Z /\
    reveal_opening B H ca ct beta (fun i => ds_resp (p i)) X Y.
Proof.
  intros ca ct t p chal beta lambda o comm rand Hp Db Dl HV HA.
  set (Q := exists i j, Exists (collide BLS Hash) (combine (opening_inputs (o i j)) (opening_inputs (o true true)))).
  assert (T : forall ij, In ij [(true, true); (true, false); (false, true); (false, false)] -> o (fst ij) (snd ij) = o true true \/ Q).
  { intros [i j] _. cbn [fst snd]. pose proof (HA i j) as H1. pose proof (HA true true) as H2.
    destruct (o i j) as [[[[X Y] A] A'] r] eqn:Eo. destruct (o true true) as [[[[X1 Y1] A1] A1'] r1] eqn:Eo1.
    destruct H1 as (R1 & R2 & R3 & R4 & C1 & _). destruct H2 as (S1 & S2 & S3 & S4 & C2 & _).
    assert (F1 : Forall (fun z => 0 <= z < 2 ^ 253)%Z ([X; Y] ++ [A; A'])) by (repeat constructor; lia).
    assert (F2 : Forall (fun z => 0 <= z < 2 ^ 253)%Z ([X1; Y1] ++ [A1; A1'])) by (repeat constructor; lia).
    destruct (C64_state_binding [X; Y] [A; A'] [X1; Y1] [A1; A1'] r r1 _ eq_refl eq_refl F1 F2 C1 C2) as [[E1 [E2 ->]]|CC].
    - left. injection E1 as -> ->. injection E2 as -> ->. reflexivity.
    - right. exists i, j. rewrite Eo. exact CC. }
  apply forall_or in T. destruct T as [T|]; [|now left]. right.
  assert (T' : forall i j, o i j = o true true) by (intros i j; apply (T (i, j)); destruct i, j; cbn; auto 6).
  destruct (o true true) as [[[[X Y] A] A'] r] eqn:Eo. exists X, Y, A, A', r. split; [exact T'|].
  pose proof (HA true true) as H0. rewrite Eo in H0. destruct H0 as (R1 & R2 & _). split; [exact R1|]. split; [exact R2|].
  assert (S : forall i, exists s0 s1 rest, ds_resp (p i) = s0 :: s1 :: rest /\ beta i * fofZ X + fofZ A = fst s0 /\ beta i * fofZ Y + fofZ A' = fst s1).
  { intros i. pose proof (HA i true) as H1. pose proof (HA i false) as H2. rewrite T' in H1, H2.
    destruct H1 as (_ & _ & _ & _ & _ & z & Ez & Q1). destruct H2 as (_ & _ & _ & _ & _ & z' & Ez' & Q2).
    destruct (ds_resp (p i)) as [|s0 [|s1 rest]]; [discriminate Ez|discriminate Ez|]. cbn [map two_responses] in Ez, Ez'. apply Ok_inj in Ez. apply Ok_inj in Ez'.
    subst z z'. exists s0, s1, rest. split; [reflexivity|]. exact (two_lambda RFr _ _ _ _ _ _ _ _ _ (Dl i) Q1 Q2). }
  destruct (S true) as (s0 & s1 & rest & Er & P1 & P2). destruct (S false) as (s0' & s1' & rest' & Er' & P1' & P2').
  assert (ER : ds_rand (p true) = ds_rand (p false)) by (rewrite (proj2 (Hp true)), (proj2 (Hp false)); reflexivity).
  pose proof (C30_extraction B H _ _ _ _ _ _ _ _ _ _ _ ER Db (HV true true) (HV false true)) as X0.
  rewrite Er, Er' in X0. unfold reveal_opening, reveals. rewrite Er, Er'. cbn [nth fst snd].
  pose proof (first_beta RFr _ _ _ _ _ _ Db P1 P1') as V1. pose proof (first_beta RFr _ _ _ _ _ _ Db P2 P2') as V2.
  split; [exact (eq_sym V1)|]. split; [rewrite V1; exact (X0 0%nat _ _ _ eq_refl eq_refl eq_refl)|].
  split; [exact (eq_sym V2)|]. rewrite V2. exact (X0 1%nat _ _ _ eq_refl eq_refl eq_refl).
Qed.

(** What the record was known to hold is what was extracted: for any other opening of
    the same commitment with a number below 2^252, the two numbers agree, or they give
    an explicit non-trivial relation between the two generators. *)
Theorem C64_carried_value :
  forall c X u v r, (0 <= X < 2 ^ 240)%Z -> (0 <= v < 2 ^ 240)%Z ->
  SigmaSpec.opens B H c (fofZ X) u -> SigmaSpec.opens B H c (fofZ v) r ->
  X = v \/ dlog_relation E (fofZ X - fofZ v, u - r).
Proof.
  intros c X u v r HX Hv E1 E2. destruct (Z.eq_dec X v) as [|N]; [now left|]. right. split; cbn [fst snd].
  - intros Z0. apply N. apply (proj1 (fsub_0 RFr _ _)) in Z0. apply fofZ_eq_mod in Z0. change (pchar RFr) with ristretto_l in Z0. rewrite !Z.mod_small in Z0; [exact Z0| |]; unfold ristretto_l; lia.
  - exact (two_openings RFr G B H _ _ _ _ _ E1 E2).
Qed.

(** C64 (partial as above): four accepted confidential-to-anonymous notes for one input
    and one output.  The output commits to an amount and a type which the input record
    opens to, or the states found in the four proofs collide. *)
Theorem C64_from_extraction_partial :
  forall amount ty blind pk w c plonk vp, from_cs amount ty blind pk w (cs_new BLS) = Ok (tt, c) -> extractable c (plonk vp) ->
  forall rec out (p : bool -> proof) (pf : bool -> bool -> Pf) memo (chal : bool -> bool -> oracle) beta lambda ca ct comm rand,
  (forall i, ds_comm (p i) = comm /\ ds_rand (p i) = rand) -> beta true <> beta false -> (forall i, lambda i true <> lambda i false) ->
  amount_com rec = Ok ca -> type_com rec = Ok ct ->
  (forall i j, ds_verify B H (chal i j) (from_start BLS RFr G out) [ca; ct] (p i) = Ok (beta i, lambda i j)) ->
  (forall i j, from_accepts (chal i j) plonk vp (mkFb BLS E rec out (p i, pf i j) memo) = Ok tt) ->
  exists o : bool -> bool -> state BLS,
  (forall i j, answered (fofN comm) (map fst (ds_resp (p i))) (beta i) (lambda i j) (o i j) /\
    exists owner blinding, let '(X, Y, _, _, _) := o i j in out = commitment BLS Hash owner blinding (fofZ X) (fofZ Y)) /\
  ((exists i j, Exists (collide BLS Hash) (combine (opening_inputs (o i j)) (opening_inputs (o true true)))) \/
   exists owner blinding X Y, out = commitment BLS Hash owner blinding (fofZ X) (fofZ Y) /\ (0 <= X < 2 ^ 64)%Z /\ (0 <= Y < 2 ^ 240)%Z /\
    reveal_opening B H ca ct beta (fun i => ds_resp (p i)) X Y).
Proof.
  intros amount ty blind pk w c plonk vp Ec Hx rec out p pf memo chal beta lambda ca ct comm rand Hp Db Dl Ea Et HV HA.
  assert (S : forall i j, exists o : state BLS, answered (fofN comm) (map fst (ds_resp (p i))) (beta i) (lambda i j) o /\
    exists owner blinding, let '(X, Y, _, _, _) := o in out = commitment BLS Hash owner blinding (fofZ X) (fofZ Y)).
  { intros i j. destruct (C64_accepted_from_partial _ _ _ _ _ _ _ _ _ _ Ec Hx (HA i j)) as (ca' & ct' & b' & l' & E1 & E2 & E3 & ow & bl & X & Y & A & A' & r & E4 & E5).
    cbn [fb_in fb_out fb_proof fst] in *. rewrite Ea in E1. apply Ok_inj in E1. rewrite Et in E2. apply Ok_inj in E2. subst ca' ct'.
    rewrite HV in E3. apply Ok_inj in E3. injection E3 as <- <-. rewrite (proj1 (Hp i)) in E5. exists (X, Y, A, A', r). split; [exact E5|]. exists ow, bl. exact E4. }
  destruct (S true true) as [o1 O1], (S true false) as [o2 O2], (S false true) as [o3 O3], (S false false) as [o4 O4].
  set (o := fun i j : bool => if i then if j then o1 else o2 else if j then o3 else o4). exists o.
  assert (O : forall i j, answered (fofN comm) (map fst (ds_resp (p i))) (beta i) (lambda i j) (o i j) /\
    exists owner blinding, let '(X, Y, _, _, _) := o i j in out = commitment BLS Hash owner blinding (fofZ X) (fofZ Y)) by (intros [|] [|]; assumption).
  split; [exact O|].
  destruct (C64_extraction ca ct (from_start BLS RFr G out) p chal beta lambda o comm rand Hp Db Dl HV (fun i j => proj1 (O i j))) as [L|(X & Y & A & A' & r & Eo & RX & RY & RO)]; [now left|right].
  destruct (proj2 (O true true)) as (ow & bl & E0). rewrite (Eo true true) in E0. exists ow, bl, X, Y. auto.
Qed.

(** C64 (partial as above): four accepted anonymous-to-confidential notes for one input
    and one output.  In the second case the nullifier belongs to a record of the tree
    whose amount and type the output record opens to. *)
Theorem C64_to_extraction_partial :
  forall (fw : fold_wit) p0 k w c fv plonk vp, to_cs fw p0 k w (cs_new BLS) = Ok (tt, c) -> extractable c (plonk vp) ->
  forall out nf root version memo (p : bool -> proof) (pf : bool -> bool -> Pf) (fi : bool -> bool -> Fi) (chal : bool -> bool -> oracle) beta lambda ca ct comm rand h,
  (forall i, ds_comm (p i) = comm /\ ds_rand (p i) = rand) -> beta true <> beta false -> (forall i, lambda i true <> lambda i false) ->
  amount_com out = Ok ca -> type_com out = Ok ct ->
  (forall i j, ds_verify B H (chal i j) (to_start BLS RFr G nf) [ca; ct] (p i) = Ok (beta i, lambda i j)) ->
  (forall i j, to_accepts (chal i j) fv plonk vp (mkCn BLS E (mkCb BLS E nf out (p i) root version memo) (pf i j) (fi i j)) root h = Ok tt) ->
  exists o : bool -> bool -> state BLS,
  (forall i j, answered (fofN comm) (map fst (ds_resp (p i))) (beta i) (lambda i j) (o i j) /\
    exists pk sk s, nf = nullifier BLS Hash pk sk s /\ in_tree BLS Hash pk root s /\
    let '(X, Y, _, _, _) := o i j in sp_amount s = fofZ X /\ sp_type s = fofZ Y) /\
  ((exists i j, Exists (collide BLS Hash) (combine (opening_inputs (o i j)) (opening_inputs (o true true)))) \/
   exists pk sk s X Y, nf = nullifier BLS Hash pk sk s /\ in_tree BLS Hash pk root s /\ sp_amount s = fofZ X /\ sp_type s = fofZ Y /\
    (0 <= X < 2 ^ 64)%Z /\ (0 <= Y < 2 ^ 240)%Z /\ reveal_opening B H ca ct beta (fun i => ds_resp (p i)) X Y).
Proof.
  intros fw p0 k w c fv plonk vp Ec Hx out nf root version memo p pf fi chal beta lambda ca ct comm rand h Hp Db Dl Ea Et HV HA.
  assert (S : forall i j, exists o : state BLS, answered (fofN comm) (map fst (ds_resp (p i))) (beta i) (lambda i j) o /\
    exists pk sk s, nf = nullifier BLS Hash pk sk s /\ in_tree BLS Hash pk root s /\ let '(X, Y, _, _, _) := o in sp_amount s = fofZ X /\ sp_type s = fofZ Y).
  { intros i j. destruct (C64_accepted_to_partial _ _ _ _ _ _ _ _ _ _ _ _ Ec Hx (HA i j)) as (ca' & ct' & b' & l' & f' & E1 & E2 & E3 & _ & pk & sk & s & X & Y & A & A' & r & E4 & E5 & _ & E6 & E7 & E8 & _).
    cbn [cn_body cb_in cb_out cb_cp] in *. rewrite Ea in E1. apply Ok_inj in E1. rewrite Et in E2. apply Ok_inj in E2. subst ca' ct'.
    rewrite HV in E3. apply Ok_inj in E3. injection E3 as <- <-. rewrite (proj1 (Hp i)) in E8. exists (X, Y, A, A', r). split; [exact E8|]. exists pk, sk, s. auto. }
  destruct (S true true) as [o1 O1], (S true false) as [o2 O2], (S false true) as [o3 O3], (S false false) as [o4 O4].
  set (o := fun i j : bool => if i then if j then o1 else o2 else if j then o3 else o4). exists o.
  assert (O : forall i j, answered (fofN comm) (map fst (ds_resp (p i))) (beta i) (lambda i j) (o i j) /\
    exists pk sk s, nf = nullifier BLS Hash pk sk s /\ in_tree BLS Hash pk root s /\ let '(X, Y, _, _, _) := o i j in sp_amount s = fofZ X /\ sp_type s = fofZ Y) by (intros [|] [|]; assumption).
  split; [exact O|].
  destruct (C64_extraction ca ct (to_start BLS RFr G nf) p chal beta lambda o comm rand Hp Db Dl HV (fun i j => proj1 (O i j))) as [L|(X & Y & A & A' & r & Eo & RX & RY & RO)]; [now left|right].
  destruct (proj2 (O true true)) as (pk & sk & s & E0 & E1 & E2). rewrite (Eo true true) in E2. exists pk, sk, s, X, Y. intuition.
Qed.

(** ** Honest notes *)
Notation prove chal := (conf_prove BLS RFr bls_rescue G B H comp decomp Hdc ceqb Hceqb as_num chal).
Notation witness := (witness_of BLS RFr G).
Notation sc := (fun t => fofN (F := RFr) (as_num t)).
Lemma rfr_252 : (2 ^ 252 < pchar RFr)%Z. Proof. reflexivity. Qed.
Lemma rfr_253 : (pchar RFr < 2 ^ 253)%Z. Proof. reflexivity. Qed.
Notation honest_run := (honest_proof BLS RFr bls_rescue rfr_252 G B H comp decomp Hdc ceqb Hceqb as_num).
Lemma from_run :
  forall chal g r (o : oar E) owner blinding, consistent E sc o -> (as_num (XfrModel.o_type E o) < 2 ^ 240)%N -> is_transparent E (o_bar E o) = false ->
  let amount := fofN (XfrModel.o_amount E o) in let ty := fofN (as_num (XfrModel.o_type E o)) in
  let out := commitment BLS Hash owner blinding amount ty in
  exists p i beta lambda c, prove chal (from_start BLS RFr G out) g r o = Ok (p, i, beta, lambda) /\
    from_cs amount ty blinding owner (witness p i beta lambda) (cs_new BLS) = Ok (tt, c) /\ Inv c /\
    forall plonk vp pf memo, plonk vp (pub_values (val c) c) pf = Ok tt ->
    from_accepts chal plonk vp (mkFb BLS E (o_bar E o) out (p, pf) memo) = Ok tt.
Proof.
  intros chal g r o owner blinding Hc Ht Hn amount ty out.
  destruct (honest_run chal (from_start BLS RFr G out) g r o Hc Ht) as (p & i & beta & lambda & ca & ct & vs & E1 & E2 & E3 & E4 & E5 & HW).
  destruct (from_complete BLS RFr bls_254s bls_rescue bls_rescue_ok gadget_alpha_inv gadget_exp_inv rfr_pchar amount ty blinding owner _ vs HW E5)
    as ([] & c & Ec & HI & _ & v & PV & ->).
  exists p, i, beta, lambda, c. split; [exact E1|]. split; [exact Ec|]. split; [exact HI|].
  intros plonk vp pf memo Hpl. apply from_ok. cbn [fb_in fb_out fb_proof fst snd]. split; [exact Hn|]. exists ca, ct, beta, lambda, vs. repeat (split; [assumption|]).
  rewrite PV in Hpl. exact Hpl.
Qed.
(** C64: converting an honestly opened record.  The prover succeeds, the circuit is
    built without panic, the computed assignment satisfies it and publishes exactly
    what the verifier computes; so the note is accepted as soon as the proof system
    accepts a proof for that satisfied circuit. *)
Theorem C64_from_honest_accepted :
  forall chal g r (o : oar E) owner blinding, consistent E sc o -> (as_num (XfrModel.o_type E o) < 2 ^ 240)%N -> is_transparent E (o_bar E o) = false ->
  let amount := fofN (XfrModel.o_amount E o) in let ty := fofN (as_num (XfrModel.o_type E o)) in
  let out := commitment BLS Hash owner blinding amount ty in
  exists p i beta lambda c, prove chal (from_start BLS RFr G out) g r o = Ok (p, i, beta, lambda) /\
    from_cs amount ty blinding owner (witness p i beta lambda) (cs_new BLS) = Ok (tt, c) /\ sat c (val c) /\ conv (val c) /\
    forall plonk vp pf memo, plonk vp (pub_values (val c) c) pf = Ok tt ->
    from_accepts chal plonk vp (mkFb BLS E (o_bar E o) out (p, pf) memo) = Ok tt.
Proof.
  intros chal g r o owner blinding Hc Ht Hn amount ty out. destruct (from_run chal g r o owner blinding Hc Ht Hn) as (p & i & beta & lambda & c & E1 & Ec & HI & R).
  exists p, i, beta, lambda, c. split; [exact E1|]. split; [exact Ec|]. split; [apply HI|]. split; [apply HI|exact R].
Qed.

Lemma to_run :
  forall chal g r (o : oar E) (pay : payer_w BLS) k root x y skb rx ry rs fr fcomm fbeta flambda,
  consistent E sc o -> (as_num (XfrModel.o_type E o) < 2 ^ 240)%N -> is_transparent E (o_bar E o) = false ->
  payer_ok BLS pay -> p_amount BLS pay = XfrModel.o_amount E o -> p_type BLS pay = fofN (as_num (XfrModel.o_type E o)) ->
  in_tree BLS Hash (kp_pk BLS k) root (spend_val BLS pay) -> honest_keys k x y skb rx ry rs fr fcomm ->
  let nf := nullifier BLS Hash (kp_pk BLS k) (kp_sk BLS k) (spend_val BLS pay) in
  let fw := honest_fold x y skb rx ry rs fr fcomm fbeta flambda in
  exists p i beta lambda c fi, prove chal (to_start BLS RFr G nf) g r o = Ok (p, i, beta, lambda) /\
    verifier_input fcomm (fw_resp fw) fbeta flambda = Ok fi /\
    to_cs fw pay k (witness p i beta lambda) (cs_new BLS) = Ok (tt, c) /\ Inv c /\
    forall fv plonk vp pf finst h version memo, fv h finst = Ok fi -> plonk vp (pub_values (val c) c) pf = Ok tt ->
    to_accepts chal fv plonk vp (mkCn BLS E (mkCb BLS E nf (o_bar E o) p root version memo) pf finst) root h = Ok tt.
Proof.
  intros chal g r o pay k root x y skb rx ry rs fr fcomm fbeta flambda Hc Ht Hn Hpay Ea Et HT Hk nf fw.
  destruct (honest_run chal (to_start BLS RFr G nf) g r o Hc Ht) as (p & i & beta & lambda & ca & ct & vs & E1 & E2 & E3 & E4 & E5 & HW).
  assert (EF : exists fi, verifier_input fcomm (fw_resp fw) fbeta flambda = Ok fi) by (eexists; reflexivity).
  destruct EF as [fi EF].
  assert (HF : forall pk sk c, Inv c -> has_pk BLS c pk (kp_pk BLS k) -> has_sk BLS c sk (kp_sk BLS k) ->
    rhp BLS (in_cs pk sk fw) c (fun _ _ v => v = fi)).
  { intros pk sk c HI Hpk Hsk.
    destruct (folding_honest BLS SecpQ bls_254s bls_rescue bls_rescue_ok gadget_alpha_inv gadget_exp_inv secp_pchar fw _ _ pk sk c
      (honest_keys_witness k x y skb rx ry rs fr fcomm fbeta flambda Hk) HI Hpk Hsk) as [c' [v [X1 [X2 [X3 [X4 X5]]]]]].
    exists tt, c'. split; [exact X1|]. split; [exact X2|]. split; [exact X3|]. exists v. split; [exact X5|].
    apply (Ok_inj v fi). rewrite <- EF. symmetry. exact X4. }
  rewrite <- Ea, <- Et in HW.
  destruct (to_complete BLS RFr bls_254s bls_rescue bls_rescue_ok gadget_alpha_inv gadget_exp_inv rfr_pchar (fun pk sk => in_cs pk sk fw) k fi HF pay _ vs root Hpay HT HW E5)
    as ([] & c & Ec & HI & _ & v & PV & ->).
  exists p, i, beta, lambda, c, fi. split; [exact E1|]. split; [exact EF|]. split; [exact Ec|]. split; [exact HI|].
  intros fv plonk vp pf finst h version memo Hfv Hpl. apply to_ok. cbn [cn_body cn_proof cn_fold cb_in cb_out cb_cp cb_root]. split; [reflexivity|]. split; [exact Hn|].
  exists ca, ct, beta, lambda, vs, fi. repeat (split; [assumption|]). rewrite PV in Hpl. exact Hpl.
Qed.
(** C64: the same in the other direction, for a record of the tree with the amount and
    type of the honestly opened output, whose owner's keys are folded honestly. *)
Theorem C64_to_honest_accepted :
  forall chal g r (o : oar E) (pay : payer_w BLS) k root x y skb rx ry rs fr fcomm fbeta flambda,
  consistent E sc o -> (as_num (XfrModel.o_type E o) < 2 ^ 240)%N -> is_transparent E (o_bar E o) = false ->
  payer_ok BLS pay -> p_amount BLS pay = XfrModel.o_amount E o -> p_type BLS pay = fofN (as_num (XfrModel.o_type E o)) ->
  in_tree BLS Hash (kp_pk BLS k) root (spend_val BLS pay) -> honest_keys k x y skb rx ry rs fr fcomm ->
  let nf := nullifier BLS Hash (kp_pk BLS k) (kp_sk BLS k) (spend_val BLS pay) in
  let fw := honest_fold x y skb rx ry rs fr fcomm fbeta flambda in
  exists p i beta lambda c fi, prove chal (to_start BLS RFr G nf) g r o = Ok (p, i, beta, lambda) /\
    verifier_input fcomm (fw_resp fw) fbeta flambda = Ok fi /\
    to_cs fw pay k (witness p i beta lambda) (cs_new BLS) = Ok (tt, c) /\ sat c (val c) /\ conv (val c) /\
    forall fv plonk vp pf finst h version memo, fv h finst = Ok fi -> plonk vp (pub_values (val c) c) pf = Ok tt ->
    to_accepts chal fv plonk vp (mkCn BLS E (mkCb BLS E nf (o_bar E o) p root version memo) pf finst) root h = Ok tt.
Proof.
  intros chal g r o pay k root x y skb rx ry rs fr fcomm fbeta flambda Hc Ht Hn Hpay Ea Et HT Hk nf fw.
  destruct (to_run chal g r o pay k root x y skb rx ry rs fr fcomm fbeta flambda Hc Ht Hn Hpay Ea Et HT Hk) as (p & i & beta & lambda & c & fi & E1 & EF & Ec & HI & R).
  exists p, i, beta, lambda, c, fi. split; [exact E1|]. split; [exact EF|]. split; [exact Ec|]. split; [apply HI|]. split; [apply HI|exact R].
Qed.

(** ** Refused and malformed notes *)
(** Refuted: a note with a malformed delegated Schnorr proof (not two randomizers or not
    two responses) is not rejected but makes both verifiers panic, whatever the rest. *)
Theorem C64_malformed_proof_panics_refuted :
  forall chal fv plonk vp (p : proof), length (ds_rand p) <> 2%nat \/ length (ds_resp p) <> 2%nat ->
  (forall (b : note_from) ca ct, is_transparent E (fb_in BLS E b) = false -> amount_com (fb_in BLS E b) = Ok ca -> type_com (fb_in BLS E b) = Ok ct ->
    fst (fb_proof BLS E b) = p -> from_accepts chal plonk vp b = Panic) /\
  (forall (n : note_to) root h ca ct, is_transparent E (cb_out BLS E (cn_body BLS E n)) = false ->
    amount_com (cb_out BLS E (cn_body BLS E n)) = Ok ca -> type_com (cb_out BLS E (cn_body BLS E n)) = Ok ct ->
    cb_root BLS E (cn_body BLS E n) = root -> cb_cp BLS E (cn_body BLS E n) = p -> to_accepts chal fv plonk vp n root h = Panic).
Proof.
  intros chal fv plonk vp p Hl.
  assert (V : forall t ca ct, ds_verify B H chal t [ca; ct] p = Panic).
  { intros t ca ct. apply (C30_malformed_rejected_refuted B H). cbn [length]. lia. }
  split.
  - intros b ca ct Hn E1 E2 E3. unfold from_conf_core. rewrite Hn, E1. cbn [bind]. rewrite E2. cbn [bind]. rewrite E3, V. reflexivity.
  - intros n root h ca ct Hn E1 E2 E3 E4. unfold verify_to_conf, to_conf_core. rewrite E3. destruct (feqb_spec root root) as [_|X]; [|now elim X].
    rewrite Hn, E1. cbn [bind]. rewrite E2. cbn [bind]. rewrite E4, V. reflexivity.
Qed.

(** Otherwise the verdict is never a panic unless that of the proof systems is. *)
Theorem C64_verifiers_never_panic_partial :
  forall chal fv plonk vp (p : proof), length (ds_rand p) = 2%nat -> length (ds_resp p) = 2%nat ->
  (forall vs pf, plonk vp vs pf <> Panic) -> (forall h fi, fv h fi <> Panic) ->
  (forall b : note_from, fst (fb_proof BLS E b) = p -> from_accepts chal plonk vp b <> Panic) /\
  (forall (n : note_to) root h, cb_cp BLS E (cn_body BLS E n) = p -> to_accepts chal fv plonk vp n root h <> Panic).
Proof.
  intros chal fv plonk vp p L1 L2 HP HF.
  assert (A : forall r, amount_com r <> Panic).
  { intros [[lo hi|a] ty ow]; unfold com_amount; cbn [b_amount]; [|rewrite u64_pair_spec; discriminate]. destruct (decomp lo); [|discriminate]. destruct (decomp hi); discriminate. }
  assert (T : forall r, type_com r <> Panic).
  { intros [am [c|t] ow]; unfold com_type; cbn [b_type]; [|discriminate]. destruct (decomp c); discriminate. }
  assert (V : forall t ca ct, ds_verify B H chal t [ca; ct] p <> Panic).
  { intros t ca ct. unfold ds_verify. rewrite L1, L2. cbn [length Nat.eqb negb]. destruct (ds_check _ _ _ _); discriminate. }
  assert (I0 : forall beta lambda, proof_inputs BLS RFr G p beta lambda <> Panic).
  { intros beta lambda. unfold proof_inputs, insp_inputs. destruct (ds_resp p) as [|s0 [|s1 l]]; cbn in L2; discriminate. }
  split.
  - intros b Eb. unfold from_conf_core. rewrite Eb. destruct (is_transparent _ _); [discriminate|]. specialize (A (fb_in BLS E b)). destruct (amount_com _) as [ca| |]; [|discriminate|congruence].
    specialize (T (fb_in BLS E b)). cbn [bind]. destruct (type_com _) as [ct| |]; [|discriminate|congruence]. cbn [bind].
    specialize (V (from_start BLS RFr G (fb_out BLS E b)) ca ct). destruct (ds_verify _ _ _ _ _ _) as [[be la]| |]; [|discriminate|congruence]. cbn [bind fst snd].
    specialize (I0 be la). destruct (proof_inputs _ _ _ _ _ _) as [vs| |]; [|discriminate|congruence]. apply HP.
  - intros n root h Eb. unfold verify_to_conf, to_conf_core. destruct (feqb _ _); [|discriminate]. rewrite Eb. destruct (is_transparent _ _); [discriminate|].
    specialize (A (cb_out BLS E (cn_body BLS E n))). destruct (amount_com _) as [ca| |]; [|discriminate|congruence].
    specialize (T (cb_out BLS E (cn_body BLS E n))). cbn [bind]. destruct (type_com _) as [ct| |]; [|discriminate|congruence]. cbn [bind].
    specialize (V (to_start BLS RFr G (cb_in BLS E (cn_body BLS E n))) ca ct). destruct (ds_verify _ _ _ _ _ _) as [[be la]| |]; [|discriminate|congruence]. cbn [bind fst snd].
    specialize (HF h (cn_fold BLS E n)). destruct (fv _ _) as [fi| |]; [|discriminate|congruence]. cbn [bind].
    specialize (I0 be la). destruct (proof_inputs _ _ _ _ _ _) as [vs| |]; [|discriminate|congruence]. apply HP.
Qed.

(** Refuted: the halves of a confidential amount and the owner of the output are not
    part of what is proved or hashed into the challenges.  Take an accepted
    anonymous-to-confidential note with a confidential amount (l, h) and any group
    element d: with the same proofs and the same hash argument the verifier also accepts
    the halves (l + 2^32 d, h - d) and any other owner.  Only the hash argument, which
    the caller supplies, can bind the output; and no range is proved for the halves. *)
Theorem C64_output_halves_bound_refuted :
  forall chal fv plonk vp nf lo hi l h d ty owner owner' cp root version memo pf fi root' hash,
  decomp lo = Some l -> decomp hi = Some h ->
  let note lo hi owner := mkCn BLS E (mkCb BLS E nf (@mkBar E (@AConf E lo hi) ty owner) cp root version memo) pf fi in
  to_accepts chal fv plonk vp (note lo hi owner) root' hash =
  to_accepts chal fv plonk vp (note (comp (l + fofZ (2 ^ 32) *: d)%M) (comp (h + (- (1)) *: d)%M) owner') root' hash.
Proof.
  intros chal fv plonk vp nf lo hi l h d ty owner owner' cp root version memo pf fi root' hash El Eh note.
  assert (EA : amount_com (@mkBar E (@AConf E lo hi) ty owner) = amount_com (@mkBar E (@AConf E (comp (l + fofZ (2 ^ 32) *: d)%M) (comp (h + (- (1)) *: d)%M)) ty owner')).
  { unfold com_amount. cbn [b_amount]. rewrite El, Eh, !Hdc. cbn [opt bind rmap fst snd]. f_equal. symmetry. apply (shifted RFr). }
  assert (ET : type_com (@mkBar E (@AConf E lo hi) ty owner) = type_com (@mkBar E (@AConf E (comp (l + fofZ (2 ^ 32) *: d)%M) (comp (h + (- (1)) *: d)%M)) ty owner')) by reflexivity.
  unfold verify_to_conf, to_conf_core, note. cbn [cn_body cn_proof cn_fold cb_in cb_out cb_cp cb_root]. rewrite EA, ET. reflexivity.
Qed.
End Accepted.
Print Assumptions C64_committed_values.
Print Assumptions C64_undecodable_is_error.
Print Assumptions C64_accepted_from_partial.
Print Assumptions C64_accepted_to_partial.
Print Assumptions C64_extraction.
Print Assumptions C64_carried_value.
Print Assumptions C64_from_extraction_partial.
Print Assumptions C64_to_extraction_partial.
Print Assumptions C64_from_honest_accepted.
Print Assumptions C64_to_honest_accepted.
Print Assumptions C64_malformed_proof_panics_refuted.
Print Assumptions C64_verifiers_never_panic_partial.
Print Assumptions C64_output_halves_bound_refuted.

(** ** Concrete cases *)
(** The group is the scalar field itself; a record hiding amount 2^40 + 7 and type 3. *)
Definition case_g : Mod RFr := self_mod RFr.
Notation case_b := (fofN 1 : case_g). Notation case_h := (fofN 9 : case_g).
Lemma case_ceqb : forall a b : RFr, reflect (a = b) (feqb a b). Proof. exact feqb_spec. Qed.
Definition case_e : pgroup := rgroup RFr case_g case_b case_h (C := RFr) (fun g => g) Some (fun g => eq_refl) feqb case_ceqb.
Definition case_num (t : N) : N := (t mod 2 ^ 240)%N.
Definition case_o : oar case_e :=
  let v := (2 ^ 40 + 7)%N in
  mkOar case_e (@mkBar case_e (@AConf case_e (pedersen case_e (Z.of_N v mod 2 ^ 32) (fofN 11)) (pedersen case_e (Z.of_N v / 2 ^ 32) (fofN 12)))
    (@TConf case_e (madd (smul (fofN (case_num 3)) (gB case_e)) (smul (fofN 13) (gBb case_e)))) 99) v (fofN 11) (fofN 12) 3%N (fofN 13).
Example C64_case_consistent : consistent case_e (fun t => fofN (F := RFr) (case_num t)) case_o /\ (case_num (XfrModel.o_type case_e case_o) < 2 ^ 240)%N /\
  is_transparent case_e (o_bar case_e case_o) = false.
Proof. split; [|split; reflexivity]. split; [reflexivity|]. split; right; reflexivity. Qed.
(** It is converted honestly for every challenge oracle, generator and owner. *)
Example C64_case_from : forall chal g r owner blinding,
  let amount := fofN (2 ^ 40 + 7) in let ty := fofN 3 in
  exists p i beta lambda c, conf_prove BLS RFr bls_rescue case_g case_b case_h (C := RFr) (fun g => g) Some (fun g => eq_refl) feqb case_ceqb case_num chal
      (from_start BLS RFr case_g (commitment BLS Hash owner blinding amount ty)) g r case_o = Ok (p, i, beta, lambda) /\
    from_cs amount ty blinding owner (witness_of BLS RFr case_g p i beta lambda) (cs_new BLS) = Ok (tt, c) /\ sat c (val c).
Proof.
  intros chal g r owner blinding amount ty. destruct C64_case_consistent as [H1 [H2 H3]].
  destruct (C64_from_honest_accepted case_g case_b case_h (fun g => g) Some (fun g => eq_refl) feqb case_ceqb case_num (Pf := unit) (Vp := unit) (Memo := unit) chal g r case_o owner blinding H1 H2 H3)
    as (p & i & beta & lambda & c & E1 & E2 & E3 & _).
  exists p, i, beta, lambda, c. split; [exact E1|]. split; [exact E2|exact E3].
Qed.
(** Four runs of the honest prover, with the same random draws, meet the hypotheses of
    [C64_extraction], whatever the draws. *)
Example C64_four_runs : forall (g : rng (F := RFr)) (r : N) (t : transcript (F := RFr) (G := case_g)), drawn RFr case_g t = false ->
  exists ca ct (p : bool -> ds_proof (F := RFr) (G := case_g)) beta lambda (o : bool -> bool -> state BLS) comm rand,
  (forall i, ds_comm (p i) = comm /\ ds_rand (p i) = rand) /\ beta true <> beta false /\ (forall i : bool, lambda i true <> lambda i false) /\
  (forall i j, ds_verify case_b case_h (case_chal RFr case_g i j) t [ca; ct] (p i) = Ok (beta i, lambda i j)) /\
  (forall i j, answered (fofN comm) (map fst (ds_resp (p i))) (beta i) (lambda i j) (o i j)).
Proof.
  intros g r t Ht. destruct C64_case_consistent as [H1 [H2 H3]].
  exact (four_runs BLS RFr bls_rescue rfr_252 rfr_253 case_g case_b case_h (fun g => g) Some (fun g => eq_refl) feqb case_ceqb case_num g r t case_o H1 H2 Ht).
Qed.
Print Assumptions C64_four_runs.
