(** C51: opening blind asset records. *)
From Coq Require Import List NArith ZArith Bool Lia ZifyBool ZifyNat ZifyN.
From Verif Require Import Base Field UtilsModel XfrModel XfrSpec XfrProofs SigmaModel NoteModel KeyModel HybModel KeySpec KeyProofs HybProofs HybProps RecordModel RecordSpec.
Import ListNotations.
Local Open Scope N_scope.

Lemma ristretto_scalar b : scalar32 b -> ristretto_bits b = Ok b.
Proof.
  intros [L [F Hb]]. unfold ristretto_bits. rewrite L. change (Nat.ltb 32 32) with false. cbv iota. rewrite Nat.sub_diag. cbn [repeat].
  rewrite app_nil_r. f_equal. assert (E : b = firstn 31 b ++ [nth 31 b 0]).
  { do 32 (destruct b as [|? b]; [discriminate|]). destruct b; [reflexivity|discriminate]. }
  rewrite E at 3. f_equal. f_equal. change 127 with (N.ones 7). rewrite N.land_ones. apply N.mod_small. exact Hb.
Qed.
Lemma ristretto_clamp e : length e = 32%nat -> ristretto_bits (clamp e) = Ok (clamp e).
Proof.
  intros L. unfold ristretto_bits. rewrite (clamp_len e L). change (Nat.ltb 32 32) with false. cbv iota. rewrite Nat.sub_diag. cbn [repeat].
  rewrite app_nil_r. f_equal. do 32 (destruct e as [|? e]; [discriminate|]). destruct e; [|discriminate]. cbn [clamp firstn app nth]. now rewrite land_last.
Qed.

Section Open.
Context (H : hsuite) (X : schemes) (S : suite) (L : slink X S) (E : pgroup) (D : dhsuite S E).
Context (as_scalar : N -> PF E).
Context {BF : Field} {BG : Mod BF} (BB : BG) (IP IDP : Type).
Context (value : SSk X -> N) (scalar_of : SSk X -> Sc S).
Local Notation world := (world_ok H X S L E D value scalar_of).
Local Notation template := (template X E (BG := BG) IP).
Local Notation build := (build_open_asset_record H X S L E D as_scalar (BG := BG) IP).
Local Notation build_blind := (build_blind_asset_record H X S L E D as_scalar (BG := BG) IP).
Local Notation open_record := (open_blind_asset_record H X S L E D).

(** The two ways to the shared point. *)
Lemma shared_agree (k : seckey X) r plain m sh : world -> rnd_ok r ->
  seal_memo H X S L E D (pub_of X k) r plain = Ok (m, sh) ->
  (let '(kt, s) := as_scalar_bytes H X S L k in derive_shared_point X S L E D kt s (om_share m) = Ok sh) /\
  hybrid_decrypt H X S L k (om_lock m) = Ok plain.
Proof.
  intros [W1 [W2 [W3 [W4 [W5 [W6 W7]]]]]] [R1 R2]. unfold seal_memo. destruct k as [sk|sk|sk]; cbn [pub_of random_share as_compressed_point bind as_scalar_bytes].
  - unfold derive_shared_point at 1. rewrite (ristretto_scalar _ R1). cbn [bind].
    destruct (proj1 (proj1 W2) (ed_pk X sk)) as [Lp _]. rewrite Lp. cbn [Nat.eqb negb].
    destruct (W6 sk (r_ed S r) R1) as [Lb [q [Q1 Q2]]]. rewrite Q1. cbn [bind].
    destruct (hybrid_encrypt H X S L (PkEd (ed_pk X sk)) (r_eph S r) (r_enc S r) plain) as [lock| |] eqn:Ek; try discriminate.
    cbn [bind]. intros Eq. apply Ok_inj in Eq. injection Eq as <- <-. cbn [om_share om_lock]. split.
    + unfold derive_shared_point. unfold expand. rewrite ristretto_clamp by (rewrite firstn_length, (proj1 (proj2 (proj2 W1) _)); reflexivity).
      cbn [bind]. rewrite Lb. cbn [Nat.eqb negb]. now rewrite Q2.
    + eapply (C46_transfer_key_round_trip H W1 X S L value scalar_of W2 W3 W4 W5 (SkEd sk)); [exact R2|exact Ek].
  - unfold derive_shared_point at 1. rewrite (W7 (r_secp S r)).
    destruct (as_compressed_point X S L (pub_of X (SkSecp sk))) as [pt| |] eqn:Ep; try discriminate. cbn [pub_of as_compressed_point] in Ep. apply Ok_inj in Ep. rewrite Ep.
    pose proof W5 as [L1 [L2 L3]].
    assert (Dp : sl_decomp X S L pt = Some (mulb S (scalar_of sk))).
    { rewrite <- Ep. unfold convert_point. specialize (L2 sk). destruct (sl_xy X S L (secp_pk X sk)) as [x y]. destruct L2 as [Lx [Ly L2]].
      rewrite convert_limbs. rewrite (N.mod_small (secp_p - y)) by (unfold secp_p in *; lia).
      assert (F : (secp_p - y <=? y) = (secp_p - y <? y)).
      { assert (O : secp_p - y <> y).
        { intros Eq. assert (D2 : secp_p = 2 * y) by (unfold secp_p in *; lia). assert (M : secp_p mod 2 = 0) by (rewrite D2, N.mul_comm; apply N.mod_mul; lia).
          vm_compute in M. discriminate. }
        destruct (N.leb_spec (secp_p - y) y), (N.ltb_spec (secp_p - y) y); try reflexivity; lia. }
      rewrite F. unfold ark_compress in L2. cbn [fst snd] in L2. exact L2. }
    rewrite Dp. cbn [bind].
    destruct (hybrid_encrypt H X S L (PkSecp (secp_pk X sk)) (r_eph S r) (r_enc S r) plain) as [lock| |] eqn:Ek; try discriminate.
    cbn [bind]. intros Eq. apply Ok_inj in Eq. injection Eq as <- <-. cbn [om_share om_lock]. split.
    + unfold derive_shared_point. destruct (L1 sk) as [V1 [V2 V3]]. rewrite V2, convert_limbs, V3. rewrite (proj2 (L3 _)). f_equal. f_equal. symmetry. apply W4.
    + eapply (C46_transfer_key_round_trip H W1 X S L value scalar_of W2 W3 W4 W5 (SkSecp sk)); [exact R2|exact Ek].
  - discriminate.
Qed.

Lemma unwrap_ok {T} (r : res T) x : unwrap r = Ok x -> r = Ok x.
Proof. now destruct r. Qed.
Lemma bind_inv {T U} (r : res T) (f : T -> res U) y : bind r f = Ok y -> exists x, r = Ok x /\ f x = Ok y.
Proof. destruct r as [x| |]; try discriminate. intros Q. now exists x. Qed.
Lemma be8 a : is_u64 a -> be_value (be_bytes 8 a) = a.
Proof. intros Ha. apply be_value_bytes. exact Ha. Qed.
Lemma be32 t : is_type t -> be_value (be_bytes 32 t) = t.
Proof. intros Ht. apply be_value_bytes. exact Ht. Qed.

(** What is built with a public key opens with its secret key to the same opened
    record: amount, type and the three blindings, whatever the confidentiality type,
    the policies and the random draws. *)
Theorem C51_opens_to_what_was_built :
  world -> forall (k : seckey X) (t : template) r es attrs o tms om,
  t_pk X E IP t = pub_of X k -> is_u64 (t_amount X E IP t) -> is_type (t_type X E IP t) -> rnd_ok r ->
  build t r es attrs = Ok (o, tms, om) ->
  build_blind t r es attrs = Ok (o_bar E o, tms, om) /\
  open_record (o_bar E o) om k = Ok o /\
  o_amount E o = t_amount X E IP t /\ o_type E o = t_type X E IP t /\ get_record_type E (o_bar E o) = t_rt X E IP t /\
  b_pk (o_bar E o) = be_value (pk_to_bytes X (t_pk X E IP t)).
Proof.
  intros W k [a ty pk rt ps] r es attrs o tms om Epk Ha Ht Hr. cbn [t_pk t_amount t_type t_rt] in *. subst pk. intros B.
  split; [unfold build_blind_asset_record; rewrite B; reflexivity|]. unfold build_open_asset_record, sample_fields in B. cbn [t_rt t_amount t_type t_pk t_policies] in B.
  destruct rt; cbn [get_flags] in B.
  - apply bind_inv in B. destruct B as [[[[[am tyf] ab] tb] omm] [B1 B]]. apply Ok_inj in B. injection B as <- <- <-.
    apply bind_inv in B1. destruct B1 as [[m b] [B1 B2]]. apply unwrap_ok in B1. apply Ok_inj in B2. cbn [fst snd] in B2. injection B2 as <- <- <- <- <-.
    unfold from_asset_type in B1. apply bind_inv in B1. destruct B1 as [[m' sh] [B1 B2]]. apply Ok_inj in B2. cbn [fst snd] in B2. injection B2 as -> <-.
    destruct (shared_agree k r _ _ _ W Hr B1) as [A1 A2]. cbn [o_bar o_amount o_type b_pk].
    split; [|repeat split]. unfold open_blind_asset_record. cbn [get_record_type amount_conf type_conf b_amount b_type from_flags type_from_blind].
    unfold decrypt_asset_type, om_decrypt, derive_asset_type_blind. rewrite A2. cbn [bind]. rewrite be_bytes_length. cbn [Nat.eqb negb bind].
    destruct (as_scalar_bytes H X S L k) as [kt s]. rewrite A1. cbn [bind get_amount fst snd]. now rewrite be32.
  - apply bind_inv in B. destruct B as [[[[[am tyf] ab] tb] omm] [B1 B]]. apply Ok_inj in B. injection B as <- <- <-.
    apply bind_inv in B1. destruct B1 as [[m b] [B1 B2]]. apply unwrap_ok in B1. apply Ok_inj in B2. cbn [fst snd] in B2. injection B2 as <- <- <- <- <-.
    unfold from_amount in B1. apply bind_inv in B1. destruct B1 as [[m' sh] [B1 B2]]. apply Ok_inj in B2. cbn [fst snd] in B2. injection B2 as -> <-.
    destruct (shared_agree k r _ _ _ W Hr B1) as [A1 A2]. cbn [o_bar o_amount o_type b_pk].
    unfold amount_from_blinds. destruct (u64_to_u32_pair a) as [al ah].
    split; [|repeat split]. unfold open_blind_asset_record. cbn [get_record_type amount_conf type_conf b_amount b_type from_flags].
    unfold decrypt_amount, om_decrypt, derive_amount_blinds. rewrite A2. cbn [bind]. rewrite be_bytes_length. cbn [Nat.eqb negb bind].
    destruct (as_scalar_bytes H X S L k) as [kt s]. rewrite A1. cbn [bind get_asset_type fst snd]. now rewrite be8.
  - apply bind_inv in B. destruct B as [[[[[am tyf] ab] tb] omm] [B1 B]]. apply Ok_inj in B. injection B as <- <- <-.
    apply bind_inv in B1. destruct B1 as [[[m b] tb'] [B1 B2]]. apply unwrap_ok in B1. apply Ok_inj in B2. cbn [fst snd] in B2. injection B2 as <- <- <- <- <-.
    unfold from_amount_and_asset_type in B1. apply bind_inv in B1. destruct B1 as [[m' sh] [B1 B2]]. apply Ok_inj in B2. cbn [fst snd] in B2. injection B2 as -> <- <-.
    destruct (shared_agree k r _ _ _ W Hr B1) as [A1 A2]. cbn [o_bar o_amount o_type b_pk].
    unfold amount_from_blinds. destruct (u64_to_u32_pair a) as [al ah].
    split; [|repeat split]. unfold open_blind_asset_record. cbn [get_record_type amount_conf type_conf b_amount b_type from_flags type_from_blind].
    unfold decrypt_amount_and_asset_type, om_decrypt, derive_amount_blinds, derive_asset_type_blind. rewrite A2. cbn [bind].
    rewrite app_length, !be_bytes_length. cbn [Nat.add Nat.eqb negb bind].
    destruct (as_scalar_bytes H X S L k) as [kt s]. rewrite A1. cbn [bind fst snd].
    rewrite (firstn_app_len 8 (be_bytes 8 a)) by apply be_bytes_length. rewrite (skipn_app_len 8 (be_bytes 8 a)) by apply be_bytes_length. now rewrite be8, be32.
  - cbn [bind] in B. apply Ok_inj in B. injection B as <- <- <-. repeat split.
Qed.

(** The record built carries exactly that opening: it commits to the amount and the
    type with the blindings, or shows them with zero blindings. *)
Theorem C51_built_records_are_consistent :
  forall (t : template) r es attrs o tms om, is_u64 (t_amount X E IP t) ->
  build t r es attrs = Ok (o, tms, om) -> consistent E as_scalar o.
Proof.
  intros [a ty pk rt ps] r es attrs o tms om Ha. cbn [t_amount] in Ha. intros B. unfold build_open_asset_record, sample_fields in B. cbn [t_rt t_amount t_type t_pk t_policies] in B.
  assert (P : forall v (x : PF E), XfrModel.commit E (fofN v) x = pedersen E (Z.of_N v) x) by reflexivity.
  assert (Z1 : Z.of_N (a mod 2 ^ 32) = (Z.of_N a mod 2 ^ 32)%Z) by (now rewrite N2Z.inj_mod).
  assert (Z2 : Z.of_N (a / 2 ^ 32) = (Z.of_N a / 2 ^ 32)%Z) by (now rewrite N2Z.inj_div).
  destruct rt; cbn [get_flags] in B.
  - apply bind_inv in B. destruct B as [[[[[am tyf] ab] tb] omm] [B1 B]]. apply Ok_inj in B. injection B as <- <- <-.
    apply bind_inv in B1. destruct B1 as [[m b] [B1 B2]]. apply Ok_inj in B2. cbn [fst snd] in B2. injection B2 as <- <- <- <- <-.
    split; [exact Ha|]. split; [left; repeat split|right; reflexivity].
  - apply bind_inv in B. destruct B as [[[[[am tyf] ab] tb] omm] [B1 B]]. apply Ok_inj in B. injection B as <- <- <-.
    apply bind_inv in B1. destruct B1 as [[m b] [B1 B2]]. apply Ok_inj in B2. cbn [fst snd] in B2. injection B2 as <- <- <- <- <-.
    split; [exact Ha|]. split; [right|left; repeat split]. cbn [o_bar b_amount o_amount o_blind_lo o_blind_hi].
    unfold amount_from_blinds. rewrite u64_pair_spec, !P, Z1, Z2. reflexivity.
  - apply bind_inv in B. destruct B as [[[[[am tyf] ab] tb] omm] [B1 B]]. apply Ok_inj in B. injection B as <- <- <-.
    apply bind_inv in B1. destruct B1 as [[[m b] tb'] [B1 B2]]. apply Ok_inj in B2. cbn [fst snd] in B2. injection B2 as <- <- <- <- <-.
    split; [exact Ha|]. split; [right|right; reflexivity]. cbn [o_bar b_amount o_amount o_blind_lo o_blind_hi].
    unfold amount_from_blinds. rewrite u64_pair_spec, !P, Z1, Z2. reflexivity.
  - cbn [bind] in B. apply Ok_inj in B. injection B as <- <- <-. split; [exact Ha|]. split; left; repeat split.
Qed.

(** The blindings of a built record are hashes of one shared string followed by
    "amount_low", "amount_high" and "asset_type": separate inputs, so separate
    blindings unless the hash collides on them. *)
Theorem C51_blindings_are_separate :
  forall (t : template) r es attrs o tms om, build t r es attrs = Ok (o, tms, om) ->
  exists p : bytes,
    (amount_conf E (o_bar E o) = true ->
       o_blind_lo E o = d_h2s D (p ++ [97; 109; 111; 117; 110; 116; 95; 108; 111; 119]) /\
       o_blind_hi E o = d_h2s D (p ++ [97; 109; 111; 117; 110; 116; 95; 104; 105; 103; 104])) /\
    (type_conf E (o_bar E o) = true ->
       o_type_blind E o = d_h2s D (p ++ [97; 115; 115; 101; 116; 95; 116; 121; 112; 101])) /\
    ((forall a b, d_h2s D a = d_h2s D b -> a = b) ->
       (amount_conf E (o_bar E o) = true -> o_blind_lo E o <> o_blind_hi E o) /\
       (amount_conf E (o_bar E o) = true -> type_conf E (o_bar E o) = true ->
          o_type_blind E o <> o_blind_lo E o /\ o_type_blind E o <> o_blind_hi E o)).
Proof.
  intros [a ty pk rt ps] r es attrs o tms om B.
  assert (G : exists p : bytes,
    (amount_conf E (o_bar E o) = true -> o_blind_lo E o = d_h2s D (p ++ lbl_amount_low) /\ o_blind_hi E o = d_h2s D (p ++ lbl_amount_high)) /\
    (type_conf E (o_bar E o) = true -> o_type_blind E o = d_h2s D (p ++ lbl_asset_type))).
  { unfold build_open_asset_record, sample_fields in B. cbn [t_rt t_amount t_type t_pk t_policies] in B.
    destruct rt; cbn [get_flags] in B.
    - apply bind_inv in B. destruct B as [[[[[am tyf] ab] tb] omm] [B1 B]]. apply Ok_inj in B. injection B as <- <- <-.
      apply bind_inv in B1. destruct B1 as [[m b] [B1 B2]]. apply unwrap_ok in B1. apply Ok_inj in B2. cbn [fst snd] in B2. injection B2 as <- <- <- <- <-.
      unfold from_asset_type in B1. apply bind_inv in B1. destruct B1 as [[m' sh] [_ B2]]. apply Ok_inj in B2. cbn [fst snd] in B2. injection B2 as _ <-.
      exists sh. split; [discriminate|intros _; reflexivity].
    - apply bind_inv in B. destruct B as [[[[[am tyf] ab] tb] omm] [B1 B]]. apply Ok_inj in B. injection B as <- <- <-.
      apply bind_inv in B1. destruct B1 as [[m b] [B1 B2]]. apply unwrap_ok in B1. apply Ok_inj in B2. cbn [fst snd] in B2. injection B2 as <- <- <- <- <-.
      unfold from_amount in B1. apply bind_inv in B1. destruct B1 as [[m' sh] [_ B2]]. apply Ok_inj in B2. cbn [fst snd] in B2. injection B2 as _ <-.
      exists sh. split; [intros _; split; reflexivity|discriminate].
    - apply bind_inv in B. destruct B as [[[[[am tyf] ab] tb] omm] [B1 B]]. apply Ok_inj in B. injection B as <- <- <-.
      apply bind_inv in B1. destruct B1 as [[[m b] tb'] [B1 B2]]. apply unwrap_ok in B1. apply Ok_inj in B2. cbn [fst snd] in B2. injection B2 as <- <- <- <- <-.
      unfold from_amount_and_asset_type in B1. apply bind_inv in B1. destruct B1 as [[m' sh] [_ B2]]. apply Ok_inj in B2. cbn [fst snd] in B2. injection B2 as _ <- <-.
      exists sh. split; [intros _; split; reflexivity|intros _; reflexivity].
    - cbn [bind] in B. apply Ok_inj in B. injection B as <- <- <-. exists []. split; discriminate. }
  destruct G as [p [G1 G2]]. exists p. split; [exact G1|]. split; [exact G2|]. intros I. split.
  - intros A Q. destruct (G1 A) as [Q1 Q2]. rewrite Q1, Q2 in Q. apply I, app_inv_head in Q. discriminate.
  - intros A T. destruct (G1 A) as [Q1 Q2]. rewrite (G2 T), Q1, Q2.
    split; intros Q; apply I, app_inv_head in Q; discriminate.
Qed.

(** Building succeeds for every Ed25519 and Secp256k1 key, provided the
    authenticated cipher encrypts. *)
Theorem C51_building_succeeds :
  world -> (forall key m, seal S key m <> None) ->
  forall (k : seckey X) (t : template) r es attrs, (forall a, k <> SkAddr a) -> t_pk X E IP t = pub_of X k -> rnd_ok r ->
  exists x, build t r es attrs = Ok x.
Proof.
  intros W Hs k [a ty pk rt ps] r es attrs Na Epk Hr. cbn [t_pk] in Epk. subst pk.
  assert (G : forall plain, exists ms, seal_memo H X S L E D (pub_of X k) r plain = Ok ms).
  { intros plain. destruct W as [W1 [W2 [W3 [W4 [W5 [W6 W7]]]]]]. destruct Hr as [R1 R2].
    destruct (C46_transfer_key_encrypts H X S L value scalar_of W3 W5 k (r_eph S r) (r_enc S r) plain Na (fun key => Hs key plain)) as [lock Ek].
    unfold seal_memo. destruct k as [sk|sk|sk]; cbn [pub_of random_share as_compressed_point bind] in *.
    - unfold derive_shared_point. rewrite (ristretto_scalar _ R1). cbn [bind]. destruct (proj1 (proj1 W2) (ed_pk X sk)) as [Lp _]. rewrite Lp. cbn [Nat.eqb negb].
      destruct (W6 sk (r_ed S r) R1) as [Lb [q [Q1 Q2]]]. rewrite Q1. cbn [bind]. rewrite Ek. cbn [bind]. eexists. reflexivity.
    - unfold derive_shared_point. rewrite (W7 (r_secp S r)). cbn [hybrid_encrypt] in Ek. destruct (sl_decomp X S L (convert_point X S L (secp_pk X sk))) as [gp|] eqn:Eg; [|discriminate].
      cbn [bind hybrid_encrypt]. rewrite Eg, Ek. cbn [bind]. eexists. reflexivity.
    - now destruct (Na sk). }
  unfold build_open_asset_record, sample_fields. cbn [t_rt t_amount t_type t_pk t_policies]. destruct rt; cbn [get_flags].
  - unfold from_asset_type. destruct (G (be_bytes 32 ty)) as [ms ->]. cbn [bind unwrap]. eexists. reflexivity.
  - unfold from_amount. destruct (G (be_bytes 8 a)) as [ms ->]. cbn [bind unwrap]. eexists. reflexivity.
  - unfold from_amount_and_asset_type. destruct (G (be_bytes 8 a ++ be_bytes 32 ty)) as [ms ->]. cbn [bind unwrap]. eexists. reflexivity.
  - cbn [bind]. eexists. reflexivity.
Qed.
(** Address keys cannot own confidential records: building one panics. *)
Theorem C51_address_keys_panic :
  forall (t : template) r es attrs h, t_pk X E IP t = PkAddr h -> hides_something (t_rt X E IP t) -> build t r es attrs = Panic.
Proof.
  intros [a ty pk rt ps] r es attrs h Epk Hd. cbn [t_pk t_rt] in *. subst pk. unfold build_open_asset_record, sample_fields. cbn [t_rt t_amount t_type t_pk].
  destruct rt; try reflexivity. now destruct Hd.
Qed.

(** A hidden record does not open without a memo, and never to a plaintext of the
    wrong length.  The key type written in the memo is not used. *)
Theorem C51_malformed_memos :
  (forall b k, hides_something (get_record_type E b) -> open_record b None k = Err) /\
  (forall b m k plain, hides_something (get_record_type E b) -> hybrid_decrypt H X S L k (om_lock m) = Ok plain ->
     length plain <> match get_record_type E b with RT_ConfAmt_NonConfType => 8%nat | RT_NonConfAmt_ConfType => 32%nat | _ => 40%nat end ->
     open_record b (Some m) k = Err) /\
  (forall b m k kt, open_record b (Some (mkOm kt (om_share m) (om_lock m))) k = open_record b (Some m) k).
Proof.
  split; [|split].
  - intros b k Hd. unfold open_blind_asset_record. destruct (get_record_type E b); try reflexivity. now destruct Hd.
  - intros b m k plain Hd Hp Hl. unfold open_blind_asset_record. destruct (get_record_type E b).
    + unfold decrypt_asset_type, om_decrypt. rewrite Hp. cbn [bind]. apply Nat.eqb_neq in Hl. now rewrite Hl.
    + unfold decrypt_amount, om_decrypt. rewrite Hp. cbn [bind]. apply Nat.eqb_neq in Hl. now rewrite Hl.
    + unfold decrypt_amount_and_asset_type, om_decrypt. rewrite Hp. cbn [bind]. apply Nat.eqb_neq in Hl. now rewrite Hl.
    + now destruct Hd.
  - reflexivity.
Qed.
(** A memo for an Ed25519 key whose share is not the encoding of a point makes
    opening panic. *)
Theorem C51_bad_share_panics :
  hsuite_ok H ->
  forall b m sk plain, hides_something (get_record_type E b) ->
  hybrid_decrypt H X S L (SkEd sk) (om_lock m) = Ok plain ->
  length plain = match get_record_type E b with RT_ConfAmt_NonConfType => 8%nat | RT_NonConfAmt_ConfType => 32%nat | _ => 40%nat end ->
  length (om_share m) <> 32%nat \/ (forall s, d_mul D (om_share m) s = None) ->
  open_record b (Some m) (SkEd sk) = Panic.
Proof.
  intros HH b m sk plain Hd Hp Hl Hs.
  assert (P : let '(kt, s) := as_scalar_bytes H X S L (SkEd sk) in derive_shared_point X S L E D kt s (om_share m) = Panic).
  { cbn [as_scalar_bytes]. unfold derive_shared_point, expand. rewrite ristretto_clamp by (rewrite firstn_length, (proj1 (proj2 (proj2 HH) _)); reflexivity).
    cbn [bind]. destruct (Nat.eqb_spec (length (om_share m)) 32) as [Q|Q]; [|reflexivity]. cbn [negb]. destruct Hs as [Hs|Hs]; [contradiction|now rewrite Hs]. }
  unfold open_blind_asset_record. destruct (get_record_type E b).
  - unfold decrypt_asset_type, om_decrypt, derive_asset_type_blind. rewrite Hp. cbn [bind]. rewrite Hl. cbn [Nat.eqb negb bind].
    destruct (as_scalar_bytes H X S L (SkEd sk)) as [kt s]. now rewrite P.
  - unfold decrypt_amount, om_decrypt, derive_amount_blinds. rewrite Hp. cbn [bind]. rewrite Hl. cbn [Nat.eqb negb bind].
    destruct (as_scalar_bytes H X S L (SkEd sk)) as [kt s]. now rewrite P.
  - unfold decrypt_amount_and_asset_type, om_decrypt, derive_amount_blinds, derive_asset_type_blind. rewrite Hp. cbn [bind]. rewrite Hl. cbn [Nat.eqb negb bind].
    destruct (as_scalar_bytes H X S L (SkEd sk)) as [kt s]. now rewrite P.
  - now destruct Hd.
Qed.

(** Opening does not compare the memo with the commitments: a record opens with the
    memo of another record of the same owner and kind, to the other's hidden values. *)
Theorem C51_commitments_are_not_checked :
  world -> forall (k : seckey X) (t : template) r es attrs o tms om (b : bar E),
  t_pk X E IP t = pub_of X k -> is_u64 (t_amount X E IP t) -> is_type (t_type X E IP t) -> rnd_ok r ->
  build t r es attrs = Ok (o, tms, om) -> get_record_type E b = t_rt X E IP t ->
  (forall a, b_amount b = APlain a -> a = t_amount X E IP t) -> (forall ty, b_type b = TPlain ty -> ty = t_type X E IP t) ->
  open_record b om k = Ok (mkOar E b (o_amount E o) (o_blind_lo E o) (o_blind_hi E o) (o_type E o) (o_type_blind E o)).
Proof.
  intros W k t r es attrs o tms om b Epk Ha Ht Hr B Hb Pa Pt.
  destruct (C51_opens_to_what_was_built W k t r es attrs o tms om Epk Ha Ht Hr B) as [_ [O [Oa [Ot [Org _]]]]].
  unfold open_blind_asset_record in *. rewrite Hb. rewrite Org in O.
  assert (Cb := C51_built_records_are_consistent t r es attrs o tms om Ha B).
  destruct (t_rt X E IP t); destruct o as [b' a' bl bh ty' tb]; cbn [o_bar o_amount o_blind_lo o_blind_hi o_type o_type_blind] in *.
  - destruct om as [m|]; [|discriminate]. destruct (decrypt_asset_type H X S L m k); try discriminate. cbn [bind] in *. destruct (derive_asset_type_blind H X S L E D m k); try discriminate. cbn [bind] in *.
    destruct (b_amount b) as [lo hi|a] eqn:Eb; [unfold get_record_type, amount_conf in Hb; rewrite Eb in Hb; now destruct (type_conf E b)|].
    destruct (b_amount b') as [lo hi|a2] eqn:Eb'; [discriminate|]. cbn [get_amount bind fst snd] in *. apply Ok_inj in O. injection O as -> -> -> -> ->. rewrite (Pa a eq_refl). now rewrite <- Oa.
  - destruct om as [m|]; [|discriminate]. destruct (decrypt_amount H X S L m k); try discriminate. cbn [bind] in *. destruct (derive_amount_blinds H X S L E D m k) as [[u v]| |]; try discriminate. cbn [bind] in *.
    destruct (b_type b) as [c|ty] eqn:Eb; [unfold get_record_type, type_conf in Hb; rewrite Eb in Hb; now destruct (amount_conf E b)|].
    destruct (b_type b') as [c|ty2] eqn:Eb'; [discriminate|]. cbn [get_asset_type bind fst snd] in *. apply Ok_inj in O. injection O as -> -> -> -> ->. rewrite (Pt ty eq_refl). now rewrite <- Ot.
  - destruct om as [m|]; [|discriminate]. destruct (decrypt_amount_and_asset_type H X S L m k) as [[u v]| |]; try discriminate. cbn [bind] in *. destruct (derive_amount_blinds H X S L E D m k) as [[u' v']| |]; try discriminate. cbn [bind] in *.
    destruct (derive_asset_type_blind H X S L E D m k); try discriminate. cbn [bind fst snd] in *. apply Ok_inj in O. injection O as -> -> -> -> ->. reflexivity.
  - destruct (b_amount b) as [lo hi|a] eqn:Eb; [unfold get_record_type, amount_conf in Hb; rewrite Eb in Hb; now destruct (type_conf E b)|].
    destruct (b_type b) as [c|ty] eqn:Eb2; [unfold get_record_type, type_conf in Hb; rewrite Eb2 in Hb; now destruct (amount_conf E b)|].
    destruct (b_amount b') as [lo hi|a2] eqn:Eb'; [discriminate|]. destruct (b_type b') as [c|ty2] eqn:Eb2'; [discriminate|].
    cbn [get_amount get_asset_type bind fst snd] in *. apply Ok_inj in O. injection O as -> <- <- -> <-. rewrite (Pa a eq_refl), (Pt ty eq_refl). now rewrite <- Oa, <- Ot.
Qed.
End Open.

(** The three blindings of a record, and those of records with different shared
    points, are hashes of different strings. *)
Theorem C51_blinding_inputs_differ :
  forall p p' a a', In a [lbl_amount_low; lbl_amount_high; lbl_asset_type] -> In a' [lbl_amount_low; lbl_amount_high; lbl_asset_type] ->
  length p = length p' -> p ++ a = p' ++ a' -> p = p' /\ a = a'.
Proof.
  intros p p' a a' _ _ Hl Q. split.
  - apply (f_equal (firstn (length p))) in Q. rewrite (firstn_app_len _ p a eq_refl) in Q. rewrite (firstn_app_len _ p' a' (eq_sym Hl)) in Q. exact Q.
  - apply (f_equal (skipn (length p))) in Q. rewrite (skipn_app_len _ p a eq_refl) in Q. rewrite (skipn_app_len _ p' a' (eq_sym Hl)) in Q. exact Q.
Qed.
Theorem C51_labels_differ : NoDup [lbl_amount_low; lbl_amount_high; lbl_asset_type].
Proof. repeat constructor; intros Q; cbn in Q; repeat (destruct Q as [Q|Q]; [discriminate|]); exact Q. Qed.

Print Assumptions C51_opens_to_what_was_built.
Print Assumptions C51_built_records_are_consistent.
Print Assumptions C51_blindings_are_separate.
Print Assumptions C51_building_succeeds.
Print Assumptions C51_address_keys_panic.
Print Assumptions C51_malformed_memos.
Print Assumptions C51_bad_share_panics.
Print Assumptions C51_commitments_are_not_checked.
Print Assumptions C51_blinding_inputs_differ.
Print Assumptions C51_labels_differ.

(** ** Examples *)
From Verif Require Import Zp Primality XfrToy.
Local Open Scope N_scope.
Lemma le_snoc l x : le_value (l ++ [x]) = le_value l + 256 ^ N.of_nat (length l) * x.
Proof.
  induction l as [|y l IH]; cbn [app le_value length]; [rewrite N.pow_0_r; lia|]. rewrite IH, Nat2N.inj_succ, N.pow_succ_r'. lia.
Qed.
Lemma le_value_lt l : Forall (fun b => b < 256) l -> le_value l < 256 ^ N.of_nat (length l).
Proof.
  induction 1 as [|y l Hy _ IH]; cbn [le_value length]; [rewrite N.pow_0_r; lia|]. rewrite Nat2N.inj_succ, N.pow_succ_r'. nia.
Qed.
Lemma scalar_lt b : scalar32 b -> le_value b < 2 ^ 255.
Proof.
  intros [Lb [Fb Hb]]. assert (Eb : b = firstn 31 b ++ [nth 31 b 0]).
  { do 32 (destruct b as [|? b]; [discriminate|]). destruct b; [reflexivity|discriminate]. }
  assert (F31 : Forall (fun x => x < 256) (firstn 31 b)) by (rewrite Eb in Fb; apply Forall_app in Fb; apply Fb).
  rewrite Eb, le_snoc. pose proof (le_value_lt _ F31) as Q. rewrite firstn_length, Lb in *. change (N.of_nat (Nat.min 31 32)) with 31 in *.
  change (2 ^ 255) with (256 ^ 31 * 128). nia.
Qed.
(** On the toy keys of HybProps: the "point" of a scalar [r] is [r + 4], and the
    "discrete logarithms" of the two Ed25519 keys are their scalars. *)
Definition toy_scalar (b : bool) : N := le_value (clamp (firstn 32 (sha512 toy_h (le_bytes 32 (tv b))))).
Definition toy_log (p : bytes) : N :=
  if bytes_eqb p (le_bytes 32 (tv true)) then toy_scalar true else if bytes_eqb p (le_bytes 32 (tv false)) then toy_scalar false else le_value p - 4.
Definition toy_d : dhsuite toy_s toy :=
  mkDh toy_s toy (fun r => le_bytes 32 (le_value r + 4)) (fun p s => Some (le_bytes 32 ((toy_log p * le_value s) mod 256 ^ 32)))
    (fun b => le_bytes 32 (tv b)) (fun b => fofN (last b 0 + hd 0 b) : PF toy).
Example toy_world : world_ok toy_h toy_x toy_s toy_l toy toy_d tv (fun b => b).
Proof.
  destruct toy_links_ok as [T1 [T2 [T3 [T4 _]]]].
  split; [exact toy_h_ok|]. split; [exact T1|]. split; [exact T2|]. split; [exact T3|]. split; [exact T4|]. split.
  - intros sk r Hr. pose proof (scalar_lt r Hr) as Q. cbn [d_base d_mul toy_d]. split; [apply lle_len|]. eexists. split; [reflexivity|].
    assert (V : le_value (le_bytes 32 (le_value r + 4)) = le_value r + 4).
    { apply le_val. change (256 ^ N.of_nat 32) with (2 ^ 255 * 2). lia. }
    assert (W : forall c, le_bytes 32 (le_value r + 4) <> le_bytes 32 (tv c)).
    { intros c Eq. apply (f_equal le_value) in Eq. rewrite V, le_val in Eq by (destruct c; vm_compute; reflexivity). destruct c; unfold tv in Eq; lia. }
    assert (K : toy_log (epk_bytes toy_x (ed_pk toy_x sk)) = toy_scalar sk) by (destruct sk; vm_compute; reflexivity).
    assert (K2 : toy_log (le_bytes 32 (le_value r + 4)) = le_value r).
    { unfold toy_log. rewrite V. destruct (bytes_eqb_spec (le_bytes 32 (le_value r + 4)) (le_bytes 32 (tv true))) as [Eq|_]; [now apply W in Eq|].
      destruct (bytes_eqb_spec (le_bytes 32 (le_value r + 4)) (le_bytes 32 (tv false))) as [Eq|_]; [now apply W in Eq|]. lia. }
    rewrite K, K2. f_equal. f_equal. f_equal. rewrite N.mul_comm. reflexivity.
  - intros r. cbn [d_sc_bytes toy_d sl_sc toy_l]. destruct r; vm_compute; reflexivity.
Qed.
Definition toy_rnd (b : bool) : rnd toy_s := mkRnd toy_s (le_bytes 32 (2 ^ 254 + 99)) true (le_bytes 32 (2 ^ 200 + 77)) b.
Example toy_rnd_ok b : rnd_ok (toy_rnd b).
Proof. split; [split; [apply lle_len|split; [apply le_lt|vm_compute; reflexivity]]|split; [apply lle_len|apply le_lt]]. Qed.
(** A hidden amount and type, for keys of both kinds, built and opened. *)
Definition toy_template (k : seckey toy_x) (rt : record_type) : template toy_x toy (BG := self_mod RistrettoFr) unit :=
  mkTpl toy_x toy unit (2 ^ 40 + 7) (2 ^ 250 + 3) (pub_of toy_x k) rt [].
Example C51_case :
  forall k, In k [@SkEd toy_x true; @SkEd toy_x false; @SkSecp toy_x true] ->
  match build_open_asset_record toy_h toy_x toy_s toy_l toy toy_d (fun t => fofN (t mod 1000)) unit (toy_template k RT_ConfAmt_ConfType) (toy_rnd true) (fun _ => []) [] with
  | Ok (o, [], Some m) =>
      match open_blind_asset_record toy_h toy_x toy_s toy_l toy toy_d (o_bar toy o) (Some m) k with
      | Ok o' => o_amount toy o' = 2 ^ 40 + 7 /\ o_type toy o' = 2 ^ 250 + 3
      | _ => False
      end
  | _ => False
  end.
Proof. intros k Hk. cbn [In] in Hk. repeat (destruct Hk as [<-|Hk]; [vm_compute; split; reflexivity|]). destruct Hk. Qed.
