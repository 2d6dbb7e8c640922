(** C66: honest anonymous operations are accepted from end to end, with the parameters of
    setup for the prover and created or stored parameters for the verifier. *)
From Coq Require Import List Arith NArith ZArith Lia Bool Field Ring.
From Verif Require Import XfrSpec Base Field PField UtilsModel UtilsProps Power TurboModel TurboSpec TurboProofs TurboLemmas TurboHonest TurboKit TurboEmit RescueModel RescueSpec RescueProofs RescueLemmas MixModel MixSpec AxfrModel AxfrSpec AxfrProofs AxfrHonest AxfrLemmas AxfrProps FoldModel SimModel SimCircuit Primality SecpPrime NoteModel NoteProps AfoldModel AfoldSpec AfoldHonest AfoldRun AfoldWhole AfoldBind AfoldProps SetupModel SetupConf ShapeProofs ShapeFold ShapeProps ShapeInsp XfrModel SigmaModel SigmaSpec InspModel InspSpec InspProofs InspRun InspWhole InspNotes InspProps NoteProofs ShapeConfProps PolyModel PolySpec PolyFft PolyProps KzgModel KzgSpec KzgProofs KzgProps PlonkModel PlonkProofs PlonkComplete PlonkExact PlonkProps ParamsModel ParamsProofs ParamsProps EndProofs.
Import ListNotations.
Local Open Scope F_scope.

Section World.
Context {G1 G2 GT : Mod BLS} (e : G1 -> G2 -> GT) (base1 : G1) (base2 : G2) (pairing : pairing_for e base2).
Context (draw : list (tmsg G1) -> BLS) (cdraw : nat -> list (tmsg G1) -> BLS).
Context (c1 : codec G1) (c2 : codec G2) (X1 : exact c1) (X2 : exact c2).
Context (cc : codec (kzg G1 G2)) (cs : codec (csys BLS * vparams (F := BLS) G1)) (ct : codec (list (list (list N)))) (cv : codec (vset (F := BLS) G1 G2)).
Context (Xc : keeps cc) (Xs : keeps cs) (Xt : keeps ct) (Xv : keeps cv).
Context (degree : nat) (s : BLS) (junk : list N) (bases : nat -> option (list N)) (cands ks : list BLS).
Context (Hd : (N.of_nat degree <= 2 ^ 28)%N) (Hks : choose_ks ((bls_q - 1) / 2) cands = Some ks).
(** The embedded reference string: the bytes of some setup, possibly followed by others. *)
Definition srs : list N := kzg_to_bytes c1 c2 (KzgModel.setup base1 base2 degree s) ++ junk.
(** The reference string is long enough for circuits of [n] gates, the embedded Lagrange
    bases for [n], if there are any, come from the same secret, and no challenge is a root of unity of order
    [n] (see C22 for that condition). *)
Definition fits (n : nat) : Prop := (n + 2 <= degree)%nat /\ lagrange_good (G2 := G2) base1 c1 s bases n /\ forall t, fpow (cdraw n t) n <> 1.
(** The prover's parameters for a circuit. *)
Definition params (cp : tcs BLS) : res (pset (F := BLS) G1 G2) := make (fofZ 7) bls_q c1 c2 (Some srs) bases ks (gates cp, nvars cp).
(** With parameters [P], the prover of circuit [c] makes a proof that is [accepted] whatever its
    randomness and the state of the transcript, except that it panics if a challenge hits
    one of the denominators of its permutation product. *)
Definition proves (P : pset (F := BLS) G1 G2) (c : tcs BLS) (accepted : list (tmsg G1) -> proof (F := BLS) G1 -> Prop) : Prop :=
  forall rnd t0,
    (exists pf, prove_with draw cdraw P (full (gates c) (nvars c)) rnd t0 (wit c) = Ok pf /\ accepted t0 pf) \/
    (prove_with draw cdraw P (full (gates c) (nvars c)) rnd t0 (wit c) = Panic /\ unlucky cdraw (length (gates c)) (nvars c) ks (wit c)).
(** The verifier's parameters: made on the spot, or loaded from the file made by the generator. *)
Definition verifier_one (cp : tcs BLS) (v : vset (F := BLS) G1 G2) : Prop :=
  load_vk cv None (params cp) = Ok v \/ exists file other, gen_vk cv (params cp) = Ok file /\ load_vk cv (Some file) other = Ok v.
(** The same for transfers, with the two files for all numbers of inputs and outputs. *)
Definition verifier_many (circuits : nat -> nat -> res (tcs BLS)) (i j : nat) (v : vset (F := BLS) G1 G2) : Prop :=
  let created := create (fofZ 7) bls_q c1 c2 (Some srs) bases ks (fun i j => rmap (fun c => (gates c, nvars c)) (circuits i j)) in
  load cc cs ct None None created i j = Ok v \/
  exists common specific other, gen_transfer_vk cc cs ct created = Ok (common, specific) /\ load cc cs ct (Some common) (Some specific) other i j = Ok v.

Lemma srs_read : kzg_from_bytes c1 c2 srs = Ok (KzgModel.setup base1 base2 degree s).
Proof.
  clear e draw cdraw pairing. apply (C65_srs_round_trip c1 c2 X1 X2).
  - unfold KzgModel.setup. cbn [pp1]. rewrite g1_powers_len. lia.
  - reflexivity.
Qed.
Lemma power_small k : (2 ^ k + 2 <= degree)%nat -> (k <= 28)%nat.
Proof.
  clear - Hd. intros H. assert (X : forall i, N.of_nat (2 ^ i) = (2 ^ N.of_nat i)%N) by (induction i as [|i IH]; [reflexivity|]; cbn [Nat.pow]; rewrite Nat2N.inj_succ, N.pow_succ_r' , <- IH; lia).
  destruct (le_lt_dec k 28) as [A|A]; [exact A|exfalso].
  assert (2 ^ 28 < 2 ^ N.of_nat k)%N by (apply N.pow_lt_mono_r; lia). rewrite <- X in H0. lia.
Qed.
(** Every circuit whose own builder satisfies it. *)
Lemma run (c cp : tcs BLS) : Inv c -> same_circuit cp (TurboModel.pad BLS c) -> fits (length (gates cp)) ->
  exists P, params cp = Ok P /\ vs_pcs (to_verifier P) = KzgModel.setup base1 base2 degree s /\
  proves P (TurboModel.pad BLS c) (fun t0 pf => verify_with e draw cdraw (to_verifier P) t0 (pub_values (val c) c) pf = Ok tt).
Proof.
  intros HI [Eg Ev] [F1 [F2 F3]]. destruct (padded_ok c HI) as [_ [_ [_ [_ Lg]]]].
  assert (En : length (gates cp) = (2 ^ Nat.log2_up (size c))%nat) by (rewrite Eg; exact Lg).
  pose proof F1 as F1'. rewrite En in F1'. destruct (bls_domain _ (power_small _ F1')) as [Sn [Sm [Bm [D [wm [Hr Pm]]]]]]. rewrite <- En in Sn, Sm, Bm, D, Hr, Pm.
  assert (Pm0 : (0 < quot_eval_dom_size (length (gates cp)))%nat) by now apply supported_pos.
  destruct (C22_choose_ks _ _ _ _ Hks Pm0 D) as [Lk [K0 [_ [Nz Ck]]]].
  assert (N1 : nth 1 ks 0 <> 0) by (apply Nz, nth_In; lia).
  destruct (run_made e base1 base2 pairing (fofZ 7) bls_q draw cdraw c1 c2 c cp degree s srs bases ks wm Sn Sm Bm Hr Pm Lk K0 N1 Ck F1 F3 srs_read F2 HI Eg Ev) as [P [A [B C]]].
  exists P. split; [exact A|]. split; [exact B|]. intros rnd t0. destruct (C rnd t0) as [Y|[Y U]]; [left; exact Y|right; split; [exact Y|]].
  rewrite Eg, Ev in U. exact U.
Qed.
(** Created and stored parameters give the same verdicts. *)
Lemma one_verdict cp v P : params cp = Ok P -> verifier_one cp v -> forall t pi pf, verify_with e draw cdraw v t pi pf = verify_with e draw cdraw (to_verifier P) t pi pf.
Proof.
  intros EP [H|[file [other [H1 H2]]]] t pi pf.
  - rewrite EP in H. cbn [load_vk rmap] in H. apply Ok_inj in H. now subst v.
  - destruct (C65_load_one_is_create e draw cdraw cv Xv _ other _ H1) as [p [v' [A [B [_ C]]]]]. rewrite EP in A. apply Ok_inj in A. subst p. rewrite H2 in B. apply Ok_inj in B. subst v'. apply C.
Qed.
Lemma many_verdict circuits i j cp v P : circuits i j = Ok cp -> params cp = Ok P -> (1 <= i)%nat -> (1 <= j)%nat -> verifier_many circuits i j v ->
  forall t pi pf, verify_with e draw cdraw v t pi pf = verify_with e draw cdraw (to_verifier P) t pi pf.
Proof.
  intros EC EP Hi Hj H t pi pf.
  assert (CR : create (fofZ 7) bls_q c1 c2 (Some srs) bases ks (fun i j => rmap (fun c => (gates c, nvars c)) (circuits i j)) i j = Ok (to_verifier P)).
  { unfold create. rewrite EC. cbn [rmap bind]. unfold params in EP. rewrite EP. reflexivity. }
  destruct (Nat.ltb_spec 6 i) as [Y|Hi6]; [exfalso|destruct (Nat.ltb_spec 6 j) as [Y|Hj6]; [exfalso|]].
  - destruct H as [H|[c [sp [o [_ H]]]]]; rewrite (proj1 (C65_load_range cdraw cc cs ct _ _ _ i j) (or_introl Y)) in H; discriminate.
  - destruct H as [H|[c [sp [o [_ H]]]]]; rewrite (proj1 (C65_load_range cdraw cc cs ct _ _ _ i j) (or_intror Y)) in H; discriminate.
  - destruct H as [H|[c [sp [o [H1 H2]]]]].
    + rewrite (proj1 (proj2 (C65_load_range cdraw cc cs ct None None _ i j)) Hi6 Hj6 (or_introl eq_refl)), CR in H. apply Ok_inj in H. now subst v.
    + destruct (C65_load_is_create e (fofZ 7) bls_q draw cdraw c1 c2 cc cs ct Xc Xs Xt _ _ _ _ _ _ o i j H1 (conj Hi Hi6) (conj Hj Hj6)) as [v0 [v' [A [B C]]]].
      rewrite CR in A. apply Ok_inj in A. subst v0. rewrite H2 in B. apply Ok_inj in B. subst v'. apply C.
Qed.
Lemma proves_more P c (A A' : list (tmsg G1) -> proof (F := BLS) G1 -> Prop) : (forall t pf, A t pf -> A' t pf) -> proves P c A -> proves P c A'.
Proof. intros H Hp rnd t0. destruct (Hp rnd t0) as [[pf [E Y]]|Y]; [left; exists pf; split; [exact E|now apply H]|now right]. Qed.

(** ** Transfers *)
(** C66: take unspent records of one owner that are in the tree, outputs of the same types
    with the same totals up to the fee (what [init_anon_xfr_note] checks) and honest folding
    data.  The circuit of the parameters exists; if the reference string fits its size, the
    prover's parameters exist and its proof makes the note accepted, with every parameters
    the verifier can create or load for these numbers of inputs and outputs. *)
Theorem C66_transfer :
  forall (as_scalar : N -> BLS) k x y skb rx ry rs r comm beta lambda ins outs fee pre x0 y0 k0 depth,
  honest_keys k x y skb rx ry rs r comm ->
  init_anon_xfr_note BLS bls_rescue as_scalar ins outs fee k = Ok pre ->
  Forall (genuine BLS bls_rescue as_scalar) ins -> Forall (fun r => (AxfrModel.o_amount BLS r < 2 ^ 64)%N) outs ->
  In FEE_TYPE (map (AxfrModel.o_type BLS) ins) -> incl (map (AxfrModel.o_type BLS) outs) (map (AxfrModel.o_type BLS) ins) ->
  (forall t, In t (map (AxfrModel.o_type BLS) ins) -> t <> FEE_TYPE -> In t (map (AxfrModel.o_type BLS) outs)) ->
  Forall (fun p => length (p_path BLS p) = depth) (pre_payers BLS pre) ->
  let fw := honest_fold x y skb rx ry rs r comm beta lambda in
  let circuits i j := setup_xfr x0 y0 i j depth k0 (as_scalar FEE_TYPE) in
  exists cp c,
    circuits (length ins) (length outs) = Ok cp /\
    build (fold_gadget fw) (pre_payers BLS pre) (pre_payees BLS pre) k fee (as_scalar FEE_TYPE) = Ok c /\
    (fits (length (gates cp)) ->
     exists P, params cp = Ok P /\
     ((length ins <= 6)%nat -> (length outs <= 6)%nat -> exists v, verifier_many circuits (length ins) (length outs) v) /\
     forall v, verifier_many circuits (length ins) (length outs) v ->
     forall Fi (fold_verify : Fi -> res (list BLS)) (fi : Fi), fold_verify fi = verifier_input comm (fw_resp fw) beta lambda ->
     proves P c (fun t0 pf =>
       verify_anon_xfr_note BLS fold_verify (verify_with e draw cdraw v t0) (pre_body BLS pre) pf fi (b_root BLS (pre_body BLS pre)) = Ok tt)).
Proof.
  intros as_scalar k x y skb rx ry rs r comm beta lambda ins outs fee pre x0 y0 k0 depth Hk H1 H2 H3 H4 H5 H6 HD fw circuits.
  destruct (gadget_run k fw (honest_keys_witness k x y skb rx ry rs r comm beta lambda Hk)) as [GC [vs [V GP]]].
  destruct (circuit_run BLS bls_rescue bls_rescue_ok gadget_alpha_inv gadget_exp_inv bls_big as_scalar (fold_gadget fw) k
           (folding_complete_ha _ k GC) (gadget_adds fw) ins outs fee pre H1 H2 H3 H4 H5 H6) as [HI [fv [PV D]]].
  apply D in GP. subst fv.
  assert (NP : length (pre_payers BLS pre) = length ins /\ length (pre_payees BLS pre) = length outs /\ ins <> [] /\ outs <> []).
  { destruct (builder_ok BLS bls_rescue as_scalar ins outs fee k pre H1) as (i0 & ins' & Ei & No & _ & _ & _ & Ep & Eq & _).
    rewrite Ep, Eq, !map_length. split; [reflexivity|]. split; [reflexivity|]. split; [rewrite Ei; discriminate|exact No]. }
  destruct NP as [L1 [L2 [N1 N2]]].
  assert (P1 : pre_payers BLS pre <> []) by (intros Y; apply N1, length_zero_iff_nil; rewrite <- L1, Y; reflexivity).
  assert (P2 : pre_payees BLS pre <> []) by (intros Y; apply N2, length_zero_iff_nil; rewrite <- L2, Y; reflexivity).
  destruct (setup_circuit x0 y0 _ _ depth k0 (as_scalar FEE_TYPE) P1 P2 HD) as [cp [E1 E2]].
  assert (HB : witness_builds BLS SecpQ fw) by (apply AfoldProps.honest_builds, (proj1 Hk)). specialize (E2 fw k fee HB).
  set (c := circuit (fold_gadget fw) (pre_payers BLS pre) (pre_payees BLS pre) k fee (as_scalar FEE_TYPE)) in *.
  assert (EC : circuits (length ins) (length outs) = Ok (TurboModel.pad BLS cp)) by (unfold circuits; rewrite <- L1, <- L2; exact E1).
  exists (TurboModel.pad BLS cp), (TurboModel.pad BLS c). split; [exact EC|]. split.
  { unfold build_multi_xfr_cs. destruct (pre_payers BLS pre), (pre_payees BLS pre); try contradiction. reflexivity. }
  intros HF. destruct (run c (TurboModel.pad BLS cp) HI (pad_same _ _ E2) HF) as [P [EP [_ HP]]]. exists P. split; [exact EP|]. split.
  { intros Hi Hj. exists (to_verifier P). left. cbv zeta.
    rewrite (proj1 (proj2 (C65_load_range cdraw cc cs ct None None _ (length ins) (length outs))) Hi Hj (or_introl eq_refl)).
    unfold create. rewrite EC. cbn [rmap bind]. unfold params in EP. rewrite EP. reflexivity. }
  intros v Hv Fi fold_verify fi Hfi. eapply proves_more; [|exact HP]. intros t pf Hpf. cbn beta in Hpf |- *.
  assert (I1 : (1 <= length ins)%nat) by (destruct ins; [contradiction|cbn; lia]). assert (J1 : (1 <= length outs)%nat) by (destruct outs; [contradiction|cbn; lia]).
  rewrite <- (many_verdict circuits (length ins) (length outs) _ v P EC EP I1 J1 Hv) in Hpf. rewrite PV in Hpf.
  unfold verify_anon_xfr_note. destruct (feqb_spec (b_root BLS (pre_body BLS pre)) (b_root BLS (pre_body BLS pre))) as [_|Y]; [|now elim Y].
  rewrite Hfi. assert (V' : verifier_input comm (fw_resp fw) beta lambda = Ok vs) by exact V. rewrite V'. cbn [bind]. exact Hpf.
Qed.
Lemma one_exists cp P : params cp = Ok P -> exists v, verifier_one cp v.
Proof. intros EP. exists (to_verifier P). left. rewrite EP. reflexivity. Qed.

(** ** Between transparent records and the pool *)
(** C66: shielding any amount of any type. *)
Theorem C66_shield :
  forall (E : pgroup) (as_scalar : N -> BLS) {Sig Memo} (sig_verify : N -> list N -> Sig -> res unit) pk0 pk blind amount ty owner,
  let cp := setup_shield pk0 in let c := TurboModel.pad BLS (shield_circuit (mkPayee BLS amount blind (as_scalar ty) pk)) in
  fits (length (gates cp)) ->
  exists P, params cp = Ok P /\ (exists v, verifier_one cp v) /\
  forall v, verifier_one cp v -> proves P c (fun t0 pf =>
    forall ser (sg : Sig) (m : Memo) msg,
    let body := mkSb BLS E (mkBar (APlain amount) (TPlain ty) owner) (AxfrModel.commit BLS bls_rescue as_scalar pk blind amount ty) pf m in
    ser body = Ok msg -> sig_verify owner msg sg = Ok tt ->
    verify_shield BLS E as_scalar (fun v => verify_with e draw cdraw v t0) sig_verify ser v (mkSn BLS E body sg) = Ok tt).
Proof.
  intros E as_scalar Sig Memo sig_verify pk0 pk blind amount ty owner cp c HF.
  destruct (shield_complete BLS bls_rescue bls_rescue_ok gadget_alpha_inv gadget_exp_inv (mkPayee BLS amount blind (as_scalar ty) pk)) as [HI _].
  destruct (run _ cp HI (proj1 C63_setup_fits_shield_unshield pk0 _) HF) as [P [EP [_ HP]]]. exists P. split; [exact EP|]. split; [exact (one_exists _ _ EP)|].
  intros v Hv. eapply proves_more; [|exact HP]. intros t pf Hpf ser sg m msg body Hser Hsg. cbn beta in Hpf. rewrite <- (one_verdict cp v P EP Hv) in Hpf.
  exact (proj2 (proj2 (C56_honest_shield_is_provable E as_scalar (fun v => verify_with e draw cdraw v t) sig_verify pk blind amount ty owner)) ser v sg m pf msg Hser Hsg Hpf).
Qed.
(** C66: unshielding any record that is in the tree, by its owner. *)
Theorem C66_unshield :
  forall (E : pgroup) (as_scalar : N -> BLS) {D Fi Memo} (fold_verify : D -> Fi -> res (list BLS)) k x y skb rx ry rs r comm beta lambda o owner body pw x0 y0 k0 depth,
  honest_keys k x y skb rx ry rs r comm ->
  init_unshield BLS E as_scalar (Memo := Memo) bls_rescue o k owner = Ok (body, pw) ->
  genuine BLS bls_rescue as_scalar o -> length (p_path BLS pw) = depth ->
  let fw := honest_fold x y skb rx ry rs r comm beta lambda in
  let cp := setup_unshield x0 y0 depth k0 in let c := TurboModel.pad BLS (unshield_circuit (fold_gadget fw) pw k) in
  fits (length (gates cp)) ->
  exists P, params cp = Ok P /\ (exists v, verifier_one cp v) /\
  forall v, verifier_one cp v -> forall fi h, fold_verify h fi = verifier_input comm (fw_resp fw) beta lambda ->
  proves P c (fun t0 pf =>
    verify_unshield BLS E as_scalar fold_verify (fun v => verify_with e draw cdraw v t0) v (mkUn BLS E body pf fi) (ub_root BLS E body) h = Ok tt).
Proof.
  intros E as_scalar D Fi Memo fold_verify k x y skb rx ry rs r comm beta lambda o owner body pw x0 y0 k0 depth Hk HU HG HD fw cp c HF.
  destruct (gadget_run k fw (honest_keys_witness k x y skb rx ry rs r comm beta lambda Hk)) as [GC [vs [V GP]]].
  assert (HB : witness_builds BLS SecpQ fw) by (apply AfoldProps.honest_builds, (proj1 Hk)).
  destruct (unshield_run E as_scalar fold_verify (fun (v : vset (F := BLS) G1 G2) => verify_with e draw cdraw v []) (fold_gadget fw) k o owner body pw (gadget_adds fw) GC HU HG) as [HI _].
  destruct (run _ cp HI (proj2 C63_setup_fits_shield_unshield x0 y0 depth k0 fw pw k HB HD) HF) as [P [EP [_ HP]]]. exists P. split; [exact EP|]. split; [exact (one_exists _ _ EP)|].
  intros v Hv fi h Hfi. eapply proves_more; [|exact HP]. intros t pf Hpf. cbn beta in Hpf |- *. rewrite <- (one_verdict cp v P EP Hv) in Hpf.
  destruct (unshield_run E as_scalar fold_verify (fun (v : vset (F := BLS) G1 G2) => verify_with e draw cdraw v t) (fold_gadget fw) k o owner body pw (gadget_adds fw) GC HU HG) as [_ [fv [FV R]]].
  apply FV in GP. subst fv. apply R; [rewrite Hfi; exact V|exact Hpf].
Qed.

(** ** Between confidential records and the pool *)
Section Conf.
Context (G : Mod RFr) (B H : G) {C : Type} (comp : G -> C) (decomp : C -> option G) (Hdc : forall g, decomp (comp g) = Some g)
  (ceqb : C -> C -> bool) (Hceqb : forall a b, reflect (a = b) (ceqb a b)) (as_num : N -> N) {D Fi Memo : Type}.
Notation E := (rgroup RFr G B H comp decomp Hdc ceqb Hceqb).
Notation vs := (vset (F := BLS) G1 G2). Notation pfs := (PlonkModel.proof (F := BLS) G1).
Notation from_accepts chal plonk := (from_conf_core BLS RFr G B H comp decomp Hdc ceqb Hceqb as_num (Pf := pfs) (Vp := vs) (Memo := Memo) chal plonk).
Notation to_core chal fv plonk := (to_conf_core BLS RFr G B H comp decomp Hdc ceqb Hceqb as_num (D := D) (Fi := Fi) (Pf := pfs) (Vp := vs) (Memo := Memo) chal fv plonk).
Notation to_accepts chal fv plonk := (verify_to_conf BLS E (to_core chal fv plonk)).
Notation prove chal := (conf_prove BLS RFr bls_rescue G B H comp decomp Hdc ceqb Hceqb as_num chal).
Notation witness := (witness_of BLS RFr G).
Notation sc := (fun t => fofN (F := RFr) (as_num t)).
(** C66: turning an honestly opened confidential record into an anonymous one. *)
Theorem C66_confidential_to_anonymous :
  forall chal g r (o : oar E) owner blinding pk0, XfrSpec.consistent E sc o -> (as_num (XfrModel.o_type E o) < 2 ^ 240)%N -> is_transparent E (o_bar E o) = false ->
  let amount := fofN (XfrModel.o_amount E o) in let ty := fofN (as_num (XfrModel.o_type E o)) in
  let out := commitment BLS Hash owner blinding amount ty in
  exists p i beta lambda c cp, prove chal (from_start BLS RFr G out) g r o = Ok (p, i, beta, lambda) /\
    from_cs amount ty blinding owner (witness p i beta lambda) (cs_new BLS) = Ok (tt, c) /\ setup_from pk0 = Ok cp /\
    (fits (length (gates cp)) ->
     exists P, params cp = Ok P /\ (exists v, verifier_one cp v) /\
     forall v, verifier_one cp v -> proves P (TurboModel.pad BLS c) (fun t0 pf => forall memo,
       from_accepts chal (fun v => verify_with e draw cdraw v t0) v (mkFb BLS E (o_bar E o) out (p, pf) memo) = Ok tt)).
Proof.
  intros chal g r o owner blinding pk0 Hc Ht Hn amount ty out.
  destruct (from_run (Pf := pfs) (Vp := vs) (Memo := Memo) G B H comp decomp Hdc ceqb Hceqb as_num chal g r o owner blinding Hc Ht Hn) as (p & i & beta & lambda & c & E1 & Ec & HI & R).
  destruct (proj1 C63_setup_fits_conf pk0 _ _ _ _ _ _ Ec) as [cp [Ecp Sc]].
  exists p, i, beta, lambda, c, cp. split; [exact E1|]. split; [exact Ec|]. split; [exact Ecp|]. intros HF.
  destruct (run c cp HI Sc HF) as [P [EP [_ HP]]]. exists P. split; [exact EP|]. split; [exact (one_exists _ _ EP)|].
  intros v Hv. eapply proves_more; [|exact HP]. intros t pf Hpf memo. cbn beta in Hpf. rewrite <- (one_verdict cp v P EP Hv) in Hpf.
  exact (R (fun v => verify_with e draw cdraw v t) v pf memo Hpf).
Qed.
(** C66: and a record of the tree into a confidential one. *)
Theorem C66_anonymous_to_confidential :
  forall chal g r (o : oar E) (pay : payer_w BLS) k root x y skb rx ry rs fr fcomm fbeta flambda x0 y0 k0 depth,
  XfrSpec.consistent E sc o -> (as_num (XfrModel.o_type E o) < 2 ^ 240)%N -> is_transparent E (o_bar E o) = false ->
  payer_ok BLS pay -> p_amount BLS pay = XfrModel.o_amount E o -> p_type BLS pay = fofN (as_num (XfrModel.o_type E o)) ->
  in_tree BLS Hash (kp_pk BLS k) root (spend_val BLS pay) -> honest_keys k x y skb rx ry rs fr fcomm -> length (p_path BLS pay) = depth ->
  let nf := nullifier BLS Hash (kp_pk BLS k) (kp_sk BLS k) (spend_val BLS pay) in
  let fw := honest_fold x y skb rx ry rs fr fcomm fbeta flambda in
  exists p i beta lambda c cp, prove chal (to_start BLS RFr G nf) g r o = Ok (p, i, beta, lambda) /\
    to_cs fw pay k (witness p i beta lambda) (cs_new BLS) = Ok (tt, c) /\ setup_to x0 y0 depth k0 = Ok cp /\
    (fits (length (gates cp)) ->
     exists P, params cp = Ok P /\ (exists v, verifier_one cp v) /\
     forall v, verifier_one cp v -> proves P (TurboModel.pad BLS c) (fun t0 pf =>
       forall fv finst h version memo, fv h finst = verifier_input fcomm (fw_resp fw) fbeta flambda ->
       to_accepts chal fv (fun v => verify_with e draw cdraw v t0) v (mkCn BLS E (mkCb BLS E nf (o_bar E o) p root version memo) pf finst) root h = Ok tt)).
Proof.
  intros chal g r o pay k root x y skb rx ry rs fr fcomm fbeta flambda x0 y0 k0 depth Hc Ht Hn Hpay Ea Et HT Hk HD nf fw.
  destruct (to_run (D := D) (Fi := Fi) (Pf := pfs) (Vp := vs) (Memo := Memo) G B H comp decomp Hdc ceqb Hceqb as_num chal g r o pay k root x y skb rx ry rs fr fcomm fbeta flambda Hc Ht Hn Hpay Ea Et HT Hk)
    as (p & i & beta & lambda & c & fi & E1 & EF & Ec & HI & R).
  destruct (proj2 C63_setup_fits_conf x0 y0 depth k0 fw pay k _ _ HD Ec) as [cp [Ecp Sc]].
  exists p, i, beta, lambda, c, cp. split; [exact E1|]. split; [exact Ec|]. split; [exact Ecp|]. intros HF.
  destruct (run c cp HI Sc HF) as [P [EP [_ HP]]]. exists P. split; [exact EP|]. split; [exact (one_exists _ _ EP)|].
  intros v Hv. eapply proves_more; [|exact HP]. intros t pf Hpf fv finst h version memo Hfv. cbn beta in Hpf. rewrite <- (one_verdict cp v P EP Hv) in Hpf.
  exact (R fv (fun v => verify_with e draw cdraw v t) v pf finst h version memo (eq_trans Hfv EF) Hpf).
Qed.
End Conf.
End World.

(** ** A case: groups of scalars, challenges 0, a reference string of 514 powers, the circuit
    of shielding (299 gates, padded to 512) *)
Section Odd.
Context {F : PField}.
Add Field Fodd : (f_th F).
Lemma pick exp c (ks : list F) x cands : x <> 0 -> forallb (fun y => negb (feqb y x)) ks = true -> fpowN x exp <> 1 ->
  choose_loop exp (S c) ks (x :: cands) = choose_loop exp c (ks ++ [x]) cands.
Proof.
  intros A B C. cbn [choose_loop]. rewrite B. destruct (feqb_spec x 0) as [Y|_]; [contradiction|]. destruct (feqb_spec (fpowN x exp) 1) as [Y|_]; [contradiction|]. reflexivity.
Qed.
Lemma odd_power (g : F) h m : fpowN g h <> 1 -> fpowN g (h * 2) = 1 -> fpowN (fpowN g (m * 2 + 1)) h <> 1.
Proof.
  intros A B C. apply A. rewrite <- fpowN_mul in C. replace ((m * 2 + 1) * h)%N with (h * 2 * m + h)%N in C by lia. rewrite fpowN_add, fpowN_mul, B, fpowN_1_l in C. rewrite <- C. ring.
Qed.
Lemma self_pairing : pairing_for (G1 := self_mod F) (G2 := self_mod F) (GT := self_mod F) (fun a b => fmul (a : F) b) (1 : F).
Proof. unfold pairing_for. cbn [mcar m0 madd smul self_mod]. repeat split; intros; try ring. rewrite <- H. ring. Qed.
Lemma zero_outside n : (0 < n)%nat -> fpow (0 : F) n <> 1.
Proof. intros P. destruct n as [|n]; [lia|]. cbn [fpow]. intros Y. apply (f1_neq_0 F). rewrite <- Y. ring. Qed.
End Odd.
Definition case_ks : list BLS := [1; fpowN (fofZ 7) 1; fpowN (fofZ 7) 3; fpowN (fofZ 7) 5; fpowN (fofZ 7) 7].
Lemma bls_half : ((bls_q - 1) / 2 * 2 = bls_q - 1)%N. Proof. vm_compute. reflexivity. Qed.
Example C66_case :
  let c : codec (self_mod BLS) := byteF BLS in let pk0 := (fofZ 1, fofZ 2, fofZ 3) : pubkey BLS in
  pairing_for (G1 := self_mod BLS) (G2 := self_mod BLS) (GT := self_mod BLS) (fun a b => fmul (a : BLS) b) (1 : BLS) /\
  exact c /\ keeps (codec_of (serkzg BLS)) /\ keeps (codec_of (ser_pair (sercs BLS) (servk BLS))) /\ keeps (codec_of (ser_list (ser_list (ser_list serN)))) /\
  choose_ks ((bls_q - 1) / 2) (tl case_ks) = Some case_ks /\
  length (gates (setup_shield pk0)) = 512%nat /\ fits (G2 := self_mod BLS) (1 : self_mod BLS) (fun _ _ => 0) c 514 (fofZ 20) (fun _ => None) 512.
Proof.
  intros c pk0. split; [apply self_pairing|]. split; [apply exactF|]. split; [apply keeps_of, finekzg|]. split; [apply keeps_of, fine_pair; [apply finecs|apply finevk]|].
  split; [apply keeps_of; auto using fine_list, fineN|]. split.
  - destruct (sixth (fofZ 7 : BLS) _ _ _ (proj1 bls_div6) (proj2 bls_div6) bls_sixth) as [G2 _].
    assert (O : forall m, fpowN (fpowN (fofZ 7 : BLS) (m * 2 + 1)) ((bls_q - 1) / 2) <> 1) by (intros m; apply odd_power; [exact G2|rewrite bls_half; exact bls_order]).
    unfold choose_ks, case_ks. cbn [tl].
    rewrite pick; [|apply feqb_neq; vm_compute; reflexivity|vm_compute; reflexivity|apply (O 0%N)]. cbn [app].
    rewrite pick; [|apply feqb_neq; vm_compute; reflexivity|vm_compute; reflexivity|apply (O 1%N)]. cbn [app].
    rewrite pick; [|apply feqb_neq; vm_compute; reflexivity|vm_compute; reflexivity|apply (O 2%N)]. cbn [app].
    rewrite pick; [|apply feqb_neq; vm_compute; reflexivity|vm_compute; reflexivity|apply (O 3%N)]. reflexivity.
  - split; [lazy; reflexivity|]. split; [lia|]. split; [exists None; split; [reflexivity|]; intros om _; exact I|].
    intros t. apply zero_outside. lia.
Qed.
Print Assumptions C66_transfer. Print Assumptions C66_shield. Print Assumptions C66_unshield.
Print Assumptions C66_confidential_to_anonymous. Print Assumptions C66_anonymous_to_confidential.
