(** C69: the signed bytes of a transfer determine its body, and stored notes are read back. *)
From Coq Require Import List NArith ZArith Bool Lia ZifyBool ZifyNat ZifyN String Permutation.
From Verif Require Import Base UtilsModel KeyModel KeySpec KeyProofs KeyProps SerModel SerSpec SerProofs SerProps MemoModel MemoProps PackModel PackSpec PackProofs.
Import ListNotations.
Local Open Scope N_scope.
Notation length := List.length (only parsing).
Notation codec := SerModel.codec.

(** ** MessagePack *)
(** Every value MessagePack can carry is read back from its bytes; no value's bytes start
    another value's bytes, so a sequence of values is read in one way only. *)
Theorem C69_messagepack :
  (forall v r, fits v -> (depth v <= 1024)%nat -> from_slice (pack v ++ r) = Ok v) /\
  (forall v w r s, fits v -> fits w -> pack v ++ r = pack w ++ s -> v = w /\ r = s).
Proof.
  split.
  - intros v r F D. unfold from_slice. rewrite (unpack_pack v F 1024 r D). reflexivity.
  - intros v w r s Fv Fw E. apply (f_equal (unpack (Nat.max (depth v) (depth w)))) in E.
    rewrite !unpack_pack in E by (assumption || lia). apply Ok_inj, pair_equal_spec in E. exact E.
Qed.

(** ** Notes *)
(** The values of the Rust types: 32-byte strings and amounts below 2^64, keys, points,
    scalars and proofs with an encoding, lists that MessagePack can count. *)
Definition amount_ok (a : amount) : Prop :=
  match a with AmConf lo hi => bytes_of 32 lo /\ bytes_of 32 hi | AmOpen n => n < 2 ^ 64 end.
Definition atype_ok (a : atype) : Prop := match a with AtConf c => bytes_of 32 c | AtOpen t => bytes_of 32 t end.
Definition memo_ok (m : omemo) : Prop := memo_bytes m /\ short (om_share m) /\ short (om_lock m).

Section Notes.
Context {RP RS G1 G2 BS PK XK SG RProof MProof : Type}.
Context (rp : codec RP) (rs : codec RS) (g1 : codec G1) (g2 : codec G2) (bs : codec BS) (pk : codec PK) (xk : codec XK)
        (sg : codec SG) (rproof : codec RProof) (mproof : codec MProof) (ct64 : codec (RP * RP)).
Context (Vrp : RP -> Prop) (Vrs : RS -> Prop) (Vg1 : G1 -> Prop) (Vg2 : G2 -> Prop) (Vbs : BS -> Prop) (Vpk : PK -> Prop) (Vxk : XK -> Prop)
        (Vsg : SG -> Prop) (Vrproof : RProof -> Prop) (Vmproof : MProof -> Prop).

Definition bar_ok (b : bar (PK := PK)) : Prop := amount_ok (b_amount b) /\ atype_ok (b_type b) /\ Vpk (b_key b).
Definition cpp_ok (p : cpp (RP := RP) (RS := RS)) : Prop := Vrp (cp_c3 p) /\ Vrp (cp_c4 p) /\ Vrs (cp_z1 p) /\ Vrs (cp_z2 p) /\ Vrs (cp_z3 p).
Definition cppx_ok (p : cppx) : Prop := cpp_ok (cx_eq p) /\ opt_ok cpp_ok (cx_zero p).
Definition xrp_ok (p : xrp (RProof := RProof)) : Prop := Vrproof (xr_proof p) /\ bytes_of 32 (xr_low p) /\ bytes_of 32 (xr_high p).
Definition aaproof_ok (p : aaproof) : Prop :=
  match p with PMix m => Vmproof m | PAmount r => xrp_ok r | PAsset c => cppx_ok c | PAll r c => xrp_ok r /\ cppx_ok c | PNone => True end.
Definition both {A} (V : A -> Prop) (p : A * A) : Prop := V (fst p) /\ V (snd p).
Definition peq_ok (p : peq (RP := RP) (RS := RS)) : Prop := Vrs (pq_z1 p) /\ Vrs (pq_z2 p) /\ both Vrp (pq_e1 p) /\ Vrp (pq_c1 p).
Definition cpok_ok (p : cpok (G2 := G2) (BS := BS)) : Prop := Vg2 (ck_blind p) /\ Vbs (ck_t p) /\ Vbs (ck_sk p) /\ list_ok Vbs (ck_attrs p).
Definition cac_ok (p : cac (G1 := G1)) : Prop := cpok_ok (ca_pok p) /\ list_ok (both Vg1) (ca_ct p) /\ list_ok Vbs (ca_rands p).
Definition atproof_ok (p : atproof) : Prop :=
  list_ok peq_ok (tp_data p) /\ list_ok (list_ok (opt_ok cac_ok)) (tp_in p) /\ list_ok (list_ok (opt_ok cac_ok)) (tp_out p).
Definition xproofs_ok (p : xproofs) : Prop := aaproof_ok (xp_main p) /\ atproof_ok (xp_trace p).
Definition tkeys_ok (k : tkeys) : Prop := Vrp (tk_data k) /\ Vg1 (tk_attrs k) /\ Vxk (tk_info k).
Definition ctext_ok (b : bytes) : Prop := byte_string b /\ short b.
Definition tmemo_ok (m : tmemo) : Prop :=
  tkeys_ok (tm_keys m) /\ opt_ok (fun p => both Vrp (fst p) /\ both Vrp (snd p)) (tm_amount m) /\ opt_ok (both Vrp) (tm_type m) /\
  list_ok (both Vg1) (tm_attrs m) /\ (ctext_ok (fst (tm_info m)) /\ Vxk (snd (tm_info m))).
Definition body_ok (b : xbody) : Prop :=
  list_ok bar_ok (xb_in b) /\ list_ok bar_ok (xb_out b) /\ xproofs_ok (xb_proofs b) /\
  list_ok (list_ok tmemo_ok) (xb_tmemos b) /\ list_ok (opt_ok memo_ok) (xb_omemos b).
Definition note_ok (n : xnote) : Prop := body_ok (xn_body n) /\ list_ok Vsg (xn_sig n).

(** Every encoding gives its objects back. *)
Definition wires : Prop :=
  wire rp Vrp /\ wire rs Vrs /\ wire g1 Vg1 /\ wire g2 Vg2 /\ wire bs Vbs /\ wire pk Vpk /\ wire xk Vxk /\ wire sg Vsg /\
  wire rproof Vrproof /\ wire mproof Vmproof /\ wire ct64 (both Vrp).
Context (W : wires).
Let Wrp : wire rp Vrp. Proof. apply W. Qed.
Let Wrs : wire rs Vrs. Proof. apply W. Qed.
Let Wg1 : wire g1 Vg1. Proof. apply W. Qed.
Let Wg2 : wire g2 Vg2. Proof. apply W. Qed.
Let Wbs : wire bs Vbs. Proof. apply W. Qed.
Let Wpk : wire pk Vpk. Proof. apply W. Qed.
Let Wxk : wire xk Vxk. Proof. apply W. Qed.
Let Wsg : wire sg Vsg. Proof. apply W. Qed.
Let Wrproof : wire rproof Vrproof. Proof. apply W. Qed.
Let Wmproof : wire mproof Vmproof. Proof. apply W. Qed.
Let Wct : wire ct64 (both Vrp). Proof. apply W. Qed.

Lemma wire_comp : wire compressed (bytes_of 32).
Proof. split; [intros x [B L]; split; [exact B|]; cbn; now rewrite L|]. intros x [B L]. unfold short. cbn [compressed enc]. rewrite L. reflexivity. Qed.
Lemma wire_ctext : wire ctext ctext_ok.
Proof. split; [intros x [B _]; split; [exact B|reflexivity]|]. now intros x [_ S]. Qed.

Lemma vput_ok n v d : short n -> fits v /\ (depth v <= S d)%nat -> fits (vput n v) /\ (depth (vput n v) <= S (S d))%nat.
Proof.
  intros Sn [F D]. split.
  - apply fits_map. split; [reflexivity|]. constructor; [split; [exact Sn|exact F]|constructor].
  - apply depth_map. constructor; [|constructor]. cbn [fst snd]. split; [cbn; lia|exact D].
Qed.
Lemma deeper {A} (c : form A) ok d e : law c ok d -> (d <= e)%nat -> law c ok e.
Proof. intros [a b c0] L. split; [exact a| |exact c0]. intros x V. destruct (b x V). split; [assumption|lia]. Qed.

Lemma law_amount : law f_amount amount_ok 3.
Proof.
  pose proof (law_tup _ _ _ _ _ _ (law_obj _ _ wire_comp) (law_obj _ _ wire_comp)) as T. split.
  - intros f [lo hi|n] Hf V; cbn [f_amount put get vput].
    + change (bytes_eqb name_conf name_conf) with true. cbv iota. rewrite (l_round T f (lo, hi) Hf V). reflexivity.
    + change (bytes_eqb name_open name_conf) with false. change (bytes_eqb name_open name_open) with true. cbv iota.
      rewrite (proj2 (proj1 C67_amounts n V)). reflexivity.
  - intros [lo hi|n] V; cbn [f_amount put].
    + apply vput_ok; [reflexivity|]. exact (l_fits T (lo, hi) V).
    + apply vput_ok; [reflexivity|]. split; [|cbn; lia]. cbn [write_amount fits].
      assert (L : forall k m, (length (decimal_fuel k m) <= k)%nat) by (induction k as [|k IH]; intros m; cbn [decimal_fuel]; [cbn; lia|]; destruct (m <? 10); cbn [length]; [lia|]; rewrite app_length; specialize (IH (m / 10)); cbn [length]; lia).
      unfold short, decimal. specialize (L 20%nat n). lia.
  - intros f [? ?|?]; discriminate.
Qed.
Lemma law_atype : law f_atype atype_ok 3.
Proof.
  pose proof (law_obj _ _ wire_comp) as C. pose proof (law_array 32 eq_refl) as T. split.
  - intros f [c|t] Hf V; cbn [f_atype put get vput].
    + change (bytes_eqb name_conf name_conf) with true. cbv iota. rewrite (l_round C f c Hf V). reflexivity.
    + change (bytes_eqb name_open name_conf) with false. change (bytes_eqb name_open name_open) with true. cbv iota.
      rewrite (l_round T f t Hf V). reflexivity.
  - intros [c|t] V; cbn [f_atype put]; (apply vput_ok; [reflexivity|]).
    + destruct (l_fits C c V). split; [assumption|lia].
    + exact (l_fits T t V).
  - intros f [?|?]; discriminate.
Qed.
Ltac nodup := cbn; repeat (constructor; [cbn; repeat (intros [E|E]; [discriminate E|revert E]); intros []|]); constructor.
Ltac fields_of := repeat first [apply flaw_cons; [first [apply law_law0; eassumption | eassumption]|] | apply flaw_nil].
Ltac strct_law := eapply deeper; [eapply law_strct; [fields_of|nodup|reflexivity|now intros []|]|cbn; lia].
Lemma law_bar : law (f_bar pk) bar_ok 4.
Proof.
  pose proof law_amount. pose proof law_atype. pose proof (law_obj _ _ Wpk).
  strct_law. intros ? V. unfold bar_ok in V. cbn [fst snd] in *. tauto.
Qed.
Lemma law_cpp : law (f_cpp rp rs) cpp_ok 2.
Proof.
  pose proof (law_obj _ _ Wrp). pose proof (law_obj _ _ Wrs).
  strct_law. intros ? V. unfold cpp_ok in V. cbn [fst snd] in *. tauto.
Qed.
Lemma law_cppx : law (f_cppx rp rs) cppx_ok 3.
Proof.
  pose proof law_cpp. pose proof (law0_opt _ _ _ (Nat.lt_0_succ 1) law_cpp).
  strct_law. intros ? V. unfold cppx_ok in V. cbn [fst snd] in *. tauto.
Qed.
Lemma law_xrp : law (f_xrp rproof) xrp_ok 2.
Proof.
  pose proof (law_obj _ _ Wrproof). pose proof (law_obj _ _ wire_comp).
  strct_law. intros ? V. unfold xrp_ok in V. cbn [fst snd] in *. tauto.
Qed.
Lemma law_aaproof : law (f_aaproof rp rs rproof mproof) aaproof_ok 5.
Proof.
  pose proof (law_obj _ _ Wmproof) as Lm. pose proof law_xrp as Lx. pose proof law_cppx as Lc. pose proof (law_tup _ _ _ _ _ _ Lx Lc) as Lt. split.
  - intros f [m|r|c|r c|] Hf V; cbn [f_aaproof put get vput].
    + change (bytes_eqb (chars "AssetMix") (chars "AssetMix")) with true. cbv iota. now rewrite (l_round Lm f m Hf V).
    + change (bytes_eqb (chars "ConfAmount") (chars "AssetMix")) with false. change (bytes_eqb (chars "ConfAmount") (chars "ConfAmount")) with true. cbv iota. now rewrite (l_round Lx f r Hf V).
    + change (bytes_eqb (chars "ConfAsset") (chars "AssetMix")) with false. change (bytes_eqb (chars "ConfAsset") (chars "ConfAmount")) with false.
      change (bytes_eqb (chars "ConfAsset") (chars "ConfAsset")) with true. cbv iota. now rewrite (l_round Lc f c Hf V).
    + change (bytes_eqb (chars "ConfAll") (chars "AssetMix")) with false. change (bytes_eqb (chars "ConfAll") (chars "ConfAmount")) with false.
      change (bytes_eqb (chars "ConfAll") (chars "ConfAsset")) with false. change (bytes_eqb (chars "ConfAll") (chars "ConfAll")) with true. cbv iota.
      now rewrite (l_round Lt f (r, c) Hf V).
    + reflexivity.
  - intros [m|r|c|r c|] V; cbn [f_aaproof put]; try (apply vput_ok; [reflexivity|]).
    + destruct (l_fits Lm m V). split; [assumption|lia].
    + destruct (l_fits Lx r V). split; [assumption|lia].
    + destruct (l_fits Lc c V). split; [assumption|lia].
    + exact (l_fits Lt (r, c) V).
    + split; [reflexivity|cbn; lia].
  - intros f [m|r|c|r c|]; discriminate.
Qed.
Lemma law_ct {A} (c : codec A) V : wire c V -> law (f_ct c) (both V) 2.
Proof.
  intros Wc. pose proof (law_obj _ _ Wc). strct_law. intros ? Q. unfold both in Q. cbn [fst snd] in *. tauto.
Qed.
Lemma law_peq : law (f_peq rp rs ct64) peq_ok 2.
Proof.
  pose proof (law_obj _ _ Wrp). pose proof (law_obj _ _ Wrs). pose proof (law_obj _ _ Wct).
  strct_law. intros ? V. unfold peq_ok in V. cbn [fst snd] in *. tauto.
Qed.
Lemma law_cpok : law (f_cpok g2 bs) cpok_ok 3.
Proof.
  pose proof (law_obj _ _ Wg2). pose proof (law_obj _ _ Wbs). pose proof (law_vec _ _ _ (law_obj _ _ Wbs)).
  strct_law. intros ? V. unfold cpok_ok in V. cbn [fst snd] in *. tauto.
Qed.
Lemma law_cac : law (f_cac g1 g2 bs) cac_ok 4.
Proof.
  pose proof law_cpok. pose proof (law_vec _ _ _ (law_ct _ _ Wg1)). pose proof (law_vec _ _ _ (law_obj _ _ Wbs)).
  strct_law. intros ? V. unfold cac_ok in V. cbn [fst snd] in *. tauto.
Qed.
Lemma law_atproof : law (f_atproof rp rs g1 g2 bs ct64) atproof_ok 7.
Proof.
  pose proof (law_vec _ _ _ law_peq). pose proof (law_vec _ _ _ (law_vec0 _ _ _ (law0_opt _ _ _ (Nat.lt_0_succ 3) law_cac))).
  strct_law. intros ? V. unfold atproof_ok in V. cbn [fst snd] in *. tauto.
Qed.
Lemma law_xproofs : law (f_xproofs rp rs g1 g2 bs rproof mproof ct64) xproofs_ok 8.
Proof.
  pose proof law_aaproof. pose proof law_atproof.
  strct_law. intros ? V. unfold xproofs_ok in V. cbn [fst snd] in *. tauto.
Qed.
Lemma law_tkeys : law (f_tkeys rp g1 xk) tkeys_ok 2.
Proof.
  pose proof (law_obj _ _ Wrp). pose proof (law_obj _ _ Wg1). pose proof (law_obj _ _ Wxk).
  strct_law. intros ? V. unfold tkeys_ok in V. cbn [fst snd] in *. tauto.
Qed.
Lemma law_hybrid : law (f_hybrid xk) (fun p => ctext_ok (fst p) /\ Vxk (snd p)) 2.
Proof.
  pose proof (law_obj _ _ wire_ctext). pose proof (law_obj _ _ Wxk).
  strct_law. intros ? V. cbn [fst snd] in *. tauto.
Qed.
Lemma law_tmemo : law (f_tmemo rp g1 xk) tmemo_ok 4.
Proof.
  pose proof law_tkeys. pose proof law_hybrid. pose proof (law_vec _ _ _ (law_ct _ _ Wg1)).
  pose proof (law0_opt _ _ _ (Nat.lt_0_succ 1) (law_ct _ _ Wrp)). pose proof (law0_opt _ _ _ (Nat.lt_0_succ 2) (law_tup _ _ _ _ _ _ (law_ct _ _ Wrp) (law_ct _ _ Wrp))).
  strct_law. intros ? V. unfold tmemo_ok in V. cbn [fst snd] in *. tauto.
Qed.
Lemma law_memo : law f_memo memo_ok 3.
Proof.
  split.
  - intros f m Hf [B _]. cbn [f_memo put get]. destruct (C68_round_trip m B f). now destruct (human f).
  - intros [kt sh lk] [[B1 B2] [S1 S2]]. cbn [RecordModel.om_share RecordModel.om_lock] in *. cbn [f_memo put human memo_seq RecordModel.om_kt RecordModel.om_share RecordModel.om_lock].
    assert (Q : forall b, byte_string b -> short b -> fits (write_vec b) /\ (depth (write_vec b) <= 2)%nat).
    { intros b B S. split; [apply fits_seq; split; [unfold short in *; now rewrite map_length|]|apply depth_in]; apply Forall_map; (eapply Forall_impl; [|exact B]); intros a Ha; [|cbn; lia].
      cbn in *. eapply N.lt_trans; [exact Ha|reflexivity]. }
    destruct (Q sh B1 S1), (Q lk B2 S2). split; [apply fits_seq; split; [reflexivity|]|apply depth_in]; (apply Forall_cons; [|apply Forall_cons; [assumption|apply Forall_cons; [assumption|constructor]]]).
    + destruct kt; reflexivity.
    + cbn. lia.
  - intros f m. cbn [f_memo put]. destruct (human f); discriminate.
Qed.
Notation F_body := (f_body rp rs g1 g2 bs pk xk rproof mproof ct64).
Notation F_note := (f_note rp rs g1 g2 bs pk xk sg rproof mproof ct64).
Lemma law_body : law F_body body_ok 9.
Proof.
  pose proof (law_vec _ _ _ law_bar). pose proof law_xproofs. pose proof (law_vec _ _ _ (law_vec _ _ _ law_tmemo)).
  pose proof (law_vec0 _ _ _ (law0_opt _ _ _ (Nat.lt_0_succ 2) law_memo)).
  strct_law. intros ? V. unfold body_ok in V. cbn [fst snd] in *. tauto.
Qed.
Lemma law_multisig : law (f_multisig sg) (list_ok Vsg) 3.
Proof.
  pose proof (law_vec _ _ _ (law_obj _ _ Wsg)). eapply deeper; [eapply law_strct; [fields_of|nodup|reflexivity|reflexivity|]|cbn; lia]. intros l V. split; [exact V|exact I].
Qed.
Lemma law_note : law F_note note_ok 10.
Proof.
  pose proof law_body. pose proof law_multisig.
  strct_law. intros ? V. unfold note_ok in V. cbn [fst snd] in *. tauto.
Qed.

(** ** Theorems *)
Notation signed := (signed_bytes rp rs g1 g2 bs pk xk rproof mproof ct64).
Notation to_bytes := (note_bytes rp rs g1 g2 bs pk xk sg rproof mproof ct64).
Notation of_bytes := (note_of_bytes rp rs g1 g2 bs pk xk sg rproof mproof ct64).
(** The bytes that the owners of the inputs sign belong to one body only: every amount,
    type, owner, proof and memo of inputs and outputs is fixed by them. *)
Theorem C69_signed_bytes_determine_body : forall b b', body_ok b -> body_ok b' -> signed b = signed b' -> b = b'.
Proof.
  intros b b' V V' E. destruct (l_fits law_body b V) as [F _], (l_fits law_body b' V') as [F' _].
  assert (Ev : put F_body Msgpack b = put F_body Msgpack b') by (apply (proj2 C69_messagepack _ _ [] [] F F'); now rewrite !app_nil_r).
  pose proof (l_round law_body Msgpack b (or_intror eq_refl) V) as R. rewrite Ev, (l_round law_body Msgpack b' (or_intror eq_refl) V') in R. now apply Ok_inj in R.
Qed.
(** A note is read back from its MessagePack bytes, whatever follows them, and from the
    JSON value written for it; different notes are stored differently. *)
Theorem C69_stored_notes : forall n, note_ok n ->
  (forall r, of_bytes (to_bytes n ++ r) = Ok n) /\ get F_note Json (put F_note Json n) = Ok n /\
  (forall n', note_ok n' -> to_bytes n = to_bytes n' \/ put F_note Json n = put F_note Json n' -> n = n').
Proof.
  assert (P : forall n r, note_ok n -> of_bytes (to_bytes n ++ r) = Ok n).
  { intros n r V. destruct (l_fits law_note n V) as [F D]. unfold of_bytes, to_bytes. rewrite (proj1 C69_messagepack _ r F) by lia. cbn [bind]. apply (l_round law_note); [now right|exact V]. }
  intros n V. split; [intros r; now apply P|]. split; [apply (l_round law_note); [now left|exact V]|].
  intros n' V' [E|E].
  - pose proof (P n [] V) as R. rewrite E, (P n' [] V') in R. now apply Ok_inj in R.
  - pose proof (l_round law_note Json n (or_introl eq_refl) V) as R. rewrite E, (l_round law_note Json n' (or_introl eq_refl) V') in R. now apply Ok_inj in R.
Qed.
End Notes.

(** ** Signatures *)
Section Signing.
Context {RP RS G1 G2 BS XK RProof MProof : Type}.
Context (rp : codec RP) (rs : codec RS) (g1 : codec G1) (g2 : codec G2) (bs : codec BS) (xk : codec XK)
        (rproof : codec RProof) (mproof : codec MProof) (ct64 : codec (RP * RP)).
Context (Vrp : RP -> Prop) (Vrs : RS -> Prop) (Vg1 : G1 -> Prop) (Vg2 : G2 -> Prop) (Vbs : BS -> Prop) (Vxk : XK -> Prop)
        (Vrproof : RProof -> Prop) (Vmproof : MProof -> Prop).
Context (X : schemes) (HX : schemes_ok X) (srt : forall A : Type, (A -> bytes) -> list A -> list A) (Hsrt : sorts srt).
Notation msg := (message rp rs g1 g2 bs xk rproof mproof ct64 X).
Notation verify := (verify_transfer_multisig rp rs g1 g2 bs xk rproof mproof ct64 X srt).
Notation sign := (compute_transfer_multisig rp rs g1 g2 bs xk rproof mproof ct64 X srt).
Notation body_ok := (body_ok Vrp Vrs Vg1 Vg2 Vbs pk_bytes_ok Vxk Vrproof Vmproof).

(** An accepted note carries, for the owner of every input, a signature of a message that
    no other body has. *)
Theorem C69_signatures_cover_body :
  wires rp rs g1 g2 bs (key_codec X) xk (sig_codec X) rproof mproof ct64 Vrp Vrs Vg1 Vg2 Vbs pk_bytes_ok Vxk sig_wf Vrproof Vmproof ->
  forall n, verify n = Ok tt -> body_ok (xn_body n) ->
  exists m, (forall b, body_ok b -> (msg b = m <-> b = xn_body n)) /\
    exists keys, Permutation (map b_key (xb_in (xn_body n))) keys /\ Forall2 (fun k s => pk_verify X k m s = Ok tt) keys (xn_sig n).
Proof.
  intros W n A V. exists (msg (xn_body n)). split.
  - intros b Vb. split; [|now intros ->]. intros E. exact (C69_signed_bytes_determine_body _ _ _ _ _ _ _ _ _ _ _ _ _ _ _ _ _ _ _ _ _ W b (xn_body n) Vb V E).
  - destruct (proj1 (C48_acceptance_exact X HX srt Hsrt) _ _ _ A) as [ks K]. exists ks. exact K.
Qed.
(** What the owners of the inputs sign is accepted. *)
Theorem C69_owners_signatures_accepted : schemes_sign X ->
  forall b sks ks, Permutation ks (map (into_keypair X) sks) -> Permutation (map b_key (xb_in b)) (map (pub_of X) sks) ->
  exists sigs, sign b ks = Ok sigs /\ verify (mkXn b sigs) = Ok tt.
Proof.
  intros HS b sks ks Pk Pp. destruct (C48_honest_in_any_order X HX srt Hsrt HS sks ks _ (msg b) Pk Pp) as [sigs [A [_ B]]]. exists sigs. split; [exact A|exact B].
Qed.
End Signing.

(** ** The encodings of the library *)
Theorem C69_encodings : forall (R P : points) (X : schemes), lawful R -> plen R = 32%nat -> lawful P -> N.of_nat (plen P) < 2 ^ 32 -> schemes_ok X -> in_bytes X ->
  wire (ristretto_point R) (fun _ => True) /\ (forall k, wire (scalar_codec k) (fun x => x < ScalarModel.size k)) /\ wire (ark_point P) (fun _ => True) /\
  wire (key_codec X) pk_bytes_ok /\ wire exact32 (bytes_of 32) /\ wire (sig_codec X) sig_wf /\ wire (elgamal R) (both (fun _ => True)).
Proof.
  intros R P X HR R32 HP SP HX BX. destruct (C67_objects_round_trip R P HR HP R32 X HX BX) as [F1 [F2 [F3 [F4 [F5 [F6 [F7 [F8 [F9 [F10 [F11 [F12 [F13 F14]]]]]]]]]]]]].
  destruct (C47_round_trips X HX) as [Kp [_ [Ks _]]].
  split; [|split; [|split; [|split; [|split; [|split]]]]].
  - split; [exact F7|]. intros x _. unfold short. cbn [ristretto_point enc]. rewrite (proj1 (proj2 (HR x))), R32. reflexivity.
  - intros k. split; [apply F6|]. intros x H. unfold short. cbn [scalar_codec enc]. destruct (ScalarProps.C54_round_trip k x H) as [L _]. rewrite L. destruct k; reflexivity.
  - split; [exact F8|]. intros x _. unfold short. cbn [ark_point enc]. now rewrite (proj1 (proj2 (HP x))).
  - split; [exact F12|]. intros x [Hx _]. unfold short. cbn [key_codec enc]. rewrite (proj1 (Kp x Hx)). reflexivity.
  - split; [exact F1|]. intros x [_ L]. unfold short. cbn [exact32 enc]. rewrite L. reflexivity.
  - split; [exact F14|]. intros x Hx. unfold short. cbn [sig_codec enc]. rewrite (proj1 (Ks x Hx)). reflexivity.
  - split; [intros x _; now apply F11|]. intros [a b] _. unfold short. cbn [elgamal enc fst snd]. rewrite app_length.
    change (enc (ristretto_point R) a) with (of_point R a). change (enc (ristretto_point R) b) with (of_point R b). rewrite (proj1 (proj2 (HR a))), (proj1 (proj2 (HR b))), R32. reflexivity.
Qed.

Print Assumptions C69_messagepack.
Print Assumptions C69_signed_bytes_determine_body.
Print Assumptions C69_stored_notes.
Print Assumptions C69_signatures_cover_body.
Print Assumptions C69_owners_signatures_accepted.
Print Assumptions C69_encodings.

(** ** Examples *)
(** A body with a confidential and an open record, proofs of both kinds, tracing with and
    without a credential, a tracer memo and an owner memo; over toy points and keys. *)
Definition tr := ristretto_point (toy_points 31).
Definition tk := ark_point (toy_points 47).
Definition tsc := scalar_codec ScalarModel.Ristretto.
Definition tbs := scalar_codec ScalarModel.Bls.
Definition tct := elgamal (toy_points 31).
Definition c32 (x : N) : bytes := repeat x 32.
Definition toy_body : xbody (RP := bool) (RS := N) (G1 := bool) (G2 := bool) (BS := N) (PK := pubkey toy) (XK := bytes) (RProof := bytes) (MProof := bytes) :=
  mkXb [mkBar (AmConf (c32 1) (c32 2)) (AtConf (c32 3)) (pub_of toy (@SkEd toy true)); mkBar (AmOpen 300) (AtOpen (c32 4)) (pub_of toy (@SkAddr toy true))]
       [mkBar (AmOpen 5) (AtOpen (c32 4)) (pub_of toy (@SkSecp toy false))]
       (mkXp (PAll (mkXrp [1; 2; 3] (c32 5) (c32 6)) (mkCppx (mkCpp true false 1 2 300) (Some (mkCpp true true 4 5 6))))
             (mkAtp [mkPeq 7 8 (true, false) true] [[None; Some (mkCac (mkCpok true 1 2 [3; 4]) [(true, false)] [5])]; []] []))
       [[mkTm (mkTk true false (c32 9)) (Some ((true, false), (false, true))) None [(true, true)] ([1; 2], c32 8)]; []]
       [Some (mkOm KSecp256k1 [1; 2; 255] [3; 4]); None].
Notation toy_wires := (wires tr tsc tk tk tbs (key_codec toy) exact32 (sig_codec toy) ctext ctext tct
  (fun _ => True) (fun x => x < ScalarModel.size ScalarModel.Ristretto) (fun _ => True) (fun _ => True) (fun x => x < ScalarModel.size ScalarModel.Bls) pk_bytes_ok (bytes_of 32) sig_wf ctext_ok ctext_ok).
Example C69_case_hypotheses : toy_wires /\
  body_ok (fun _ => True) (fun x => x < ScalarModel.size ScalarModel.Ristretto) (fun _ => True) (fun _ => True) (fun x => x < ScalarModel.size ScalarModel.Bls) pk_bytes_ok (bytes_of 32) ctext_ok ctext_ok toy_body.
Proof.
  split.
  - assert (HP : lawful (toy_points 47)) by (intros p; split; [apply tser_bytes|apply tcodec]).
    destruct C67_case_hypotheses as [HR [_ [R32 [HX BX]]]].
    destruct (C69_encodings (toy_points 31) (toy_points 47) toy HR R32 HP eq_refl HX BX) as [A [B [C [D [E [F G]]]]]].
    exact (conj A (conj (B _) (conj C (conj C (conj (B _) (conj D (conj E (conj F (conj wire_ctext (conj wire_ctext G)))))))))).
  - assert (B : forall x, x < 256 -> bytes_of 32 (c32 x)) by (intros x H; split; [cbn; repeat (constructor; [exact H|]); constructor|reflexivity]).
    repeat first [ reflexivity | exact I | apply B | split | constructor | apply N.ltb_lt; vm_compute; reflexivity ].
Qed.
(** It is signed by its two input owners, stored, read back and verified; changing the
    amount of the output is noticed. *)
Example C69_case :
  let sign b := compute_transfer_multisig tr tsc tk tk tbs exact32 ctext ctext tct toy isort b (map (into_keypair toy) [@SkAddr toy true; @SkEd toy true]) in
  let verify := verify_transfer_multisig tr tsc tk tk tbs exact32 ctext ctext tct toy isort in
  let read := note_of_bytes tr tsc tk tk tbs (key_codec toy) exact32 (sig_codec toy) ctext ctext tct in
  let store := note_bytes tr tsc tk tk tbs (key_codec toy) exact32 (sig_codec toy) ctext ctext tct in
  let other := mkXb (xb_in toy_body) [mkBar (AmOpen 6) (AtOpen (c32 4)) (pub_of toy (@SkSecp toy false))] (xb_proofs toy_body) (xb_tmemos toy_body) (xb_omemos toy_body) in
  match sign toy_body with
  | Ok sigs => verify (mkXn toy_body sigs) = Ok tt /\ read (store (mkXn toy_body sigs) ++ [1]) = Ok (mkXn toy_body sigs) /\
      read (removelast (store (mkXn toy_body sigs))) = Err /\
      bytes_eqb (message tr tsc tk tk tbs exact32 ctext ctext tct toy toy_body) (message tr tsc tk tk tbs exact32 ctext ctext tct toy other) = false
  | _ => False
  end.
Proof. vm_compute. repeat split. Qed.
Example C69_case_pack :
  pack (VMap [(VStr (chars "ab"), VSeq [VNum 5; VNum 200; VNum 70000; VUnit]); (VNum 1, VBytes [7])]) =
    [130; 162; 97; 98; 148; 5; 204; 200; 206; 0; 1; 17; 112; 192; 1; 196; 1; 7].
Proof. reflexivity. Qed.
