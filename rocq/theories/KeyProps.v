(** C47, C48 and C59: key and signature encodings, multi-signatures, recovery ids. *)
From Coq Require Import List NArith ZArith Bool Lia ZifyBool ZifyNat ZifyN Permutation Sorted.
From Verif Require Import Base UtilsModel NoteModel KeyModel HybModel KeySpec KeyProofs.
Import ListNotations.
Local Open Scope N_scope.

Section Encodings.
Context (X : schemes) (HX : schemes_ok X).

(** ** C47 *)
(** Every public key, secret key and signature is decoded from its encoding, which
    has the documented length; cloning a secret key gives it back. *)
Theorem C47_round_trips :
  (forall k : pubkey X, pk_wf k -> length (pk_to_bytes X k) = 34%nat /\ pk_from_bytes X (pk_to_bytes X k) = Ok k) /\
  (forall k : seckey X, length (sk_to_bytes X k) = 33%nat /\ sk_from_bytes X (sk_to_bytes X k) = Ok k /\ sk_clone X k = Ok k) /\
  (forall s : signature X, sig_wf s -> length (sig_to_bytes X s) = 66%nat /\ sig_from_bytes X (sig_to_bytes X s) = Ok s) /\
  (forall k : keypair X, pk_wf (kp_pk k) -> kp_from_bytes X (kp_to_bytes X k) = Ok k).
Proof.
  pose proof HX as [He [Hs [Hes [Hss [Heg [Hsg _]]]]]].
  assert (P : forall k : pubkey X, pk_wf k -> length (pk_to_bytes X k) = 34%nat /\ pk_from_bytes X (pk_to_bytes X k) = Ok k).
  { intros k W. split; [|now apply pk_from_bytes_iff, pk_to_string].
    destruct k as [pk|pk|h]; cbn [pk_to_bytes length]; rewrite ?app_length, ?(proj1 (proj1 He pk)), ?(proj1 (proj1 Hs pk)), ?W; reflexivity. }
  assert (Q : forall k : seckey X, length (sk_to_bytes X k) = 33%nat /\ sk_from_bytes X (sk_to_bytes X k) = Ok k /\ sk_clone X k = Ok k).
  { intros k. assert (E : sk_from_bytes X (sk_to_bytes X k) = Ok k) by (now apply sk_from_bytes_iff, sk_to_string).
    split; [|split; [exact E|unfold sk_clone; now rewrite E]].
    destruct k as [sk|sk|sk]; cbn [sk_to_bytes length]; rewrite ?(proj1 (proj1 Hes sk)), ?(proj1 (proj1 Hss sk)); reflexivity. }
  split; [exact P|]. split; [exact Q|]. split.
  - intros s W. split; [|now apply sig_from_bytes_iff, sig_to_string].
    destruct s as [s|s r|s r]; cbn [sig_to_bytes length]; rewrite app_length, ?(proj1 (proj1 Heg s)), ?(proj1 (proj1 Hsg s)); reflexivity.
  - intros [pk sk] W. unfold kp_from_bytes, kp_to_bytes. cbn [kp_pk kp_sk] in *. destruct (P pk W) as [P1 P2], (Q sk) as [Q1 [Q2 _]].
    rewrite app_length, P1, Q1. change (Nat.ltb (33 + 34) 33) with false. cbv iota.
    rewrite (firstn_app_len _ _ _ Q1), (skipn_app_len _ _ _ Q1), Q2. cbn [bind]. rewrite P2. reflexivity.
Qed.

(** The byte strings accepted for each value are exactly those of the specification;
    anything else is an error, never a panic. *)
Theorem C47_accepted_strings :
  (forall b (k : pubkey X), pk_from_bytes X b = Ok k <-> pk_string k b) /\
  (forall b (k : seckey X), sk_from_bytes X b = Ok k <-> sk_string k b) /\
  (forall b (s : signature X), sig_from_bytes X b = Ok s <-> sig_string s b) /\
  (forall b, pk_from_bytes X b <> Panic /\ sk_from_bytes X b <> Panic /\ sig_from_bytes X b <> Panic).
Proof.
  split; [intros; now apply pk_from_bytes_iff|]. split; [intros; now apply sk_from_bytes_iff|]. split; [intros; now apply sig_from_bytes_iff|].
  assert (O : forall T U (f : T -> U) o, opt f o <> Panic) by (intros T U f [t|]; discriminate).
  intros b. unfold pk_from_bytes, sk_from_bytes, sig_from_bytes. split; [|split].
  - destruct (Nat.eqb (length b) 32), (Nat.eqb (length b) 34); cbn [negb]; try apply O; try discriminate.
    destruct (kt_from_byte (hd 0 b)); try apply O; discriminate.
  - destruct (Nat.eqb (length b) 32), (Nat.eqb (length b) 33); cbn [negb]; try apply O; try discriminate.
    destruct (kt_from_byte (hd 0 b)); apply O.
  - destruct (Nat.eqb (length b) 64), (Nat.eqb (length b) 66); cbn [negb]; try apply O; try discriminate.
    destruct (kt_from_byte (hd 0 b)); try apply O;
    destruct (ssig_parse X (firstn 64 (skipn 1 b))); cbn [opt bind]; try apply O; discriminate.
Qed.

(** Canonicity holds for strings in the current format: full length, a known key
    type and zero padding.  Missing for the full claim: the format is not enforced. *)
Theorem C47_canonical_partial :
  (forall b c (k : pubkey X), pk_strict b -> pk_strict c -> pk_from_bytes X b = Ok k -> pk_from_bytes X c = Ok k -> b = c) /\
  (forall b c (k : seckey X), sk_strict b -> sk_strict c -> sk_from_bytes X b = Ok k -> sk_from_bytes X c = Ok k -> b = c) /\
  (forall b c (s : signature X), sig_strict b -> sig_strict c -> sig_from_bytes X b = Ok s -> sig_from_bytes X c = Ok s -> b = c).
Proof.
  split; [|split]; intros b c k Sb Sc Eb Ec.
  - apply pk_from_bytes_iff in Eb, Ec; try exact HX. rewrite (pk_strict_unique X HX _ _ Eb Sb), (pk_strict_unique X HX _ _ Ec Sc). reflexivity.
  - apply sk_from_bytes_iff in Eb, Ec; try exact HX. rewrite (sk_strict_unique X HX _ _ Eb Sb), (sk_strict_unique X HX _ _ Ec Sc). reflexivity.
  - apply sig_from_bytes_iff in Eb, Ec; try exact HX. rewrite (sig_strict_unique X HX _ _ Eb Sb), (sig_strict_unique X HX _ _ Ec Sc). reflexivity.
Qed.

(** Canonicity is false as stated: every Ed25519 public key has its 32 raw bytes and
    34-byte strings with any padding byte and any of the 254 key types other than 1
    and 2; addresses ignore 13 bytes; secret keys and signatures likewise. *)
Theorem C47_not_canonical_refuted :
  (forall pk, pk_from_bytes X (epk_bytes X pk) = Ok (PkEd pk) /\
     (forall t x, t <> 1 -> t <> 2 -> pk_from_bytes X (t :: epk_bytes X pk ++ [x]) = Ok (PkEd pk))) /\
  (forall h rest, length h = 20%nat -> length rest = 13%nat -> pk_from_bytes X (2 :: h ++ rest) = Ok (PkAddr h)) /\
  (forall sk, sk_from_bytes X (esk_bytes X sk) = Ok (SkEd sk) /\
     (forall t, t <> 1 -> t <> 2 -> sk_from_bytes X (t :: esk_bytes X sk) = Ok (SkEd sk))) /\
  (forall s, sig_from_bytes X (esig_bytes X s) = Ok (SgEd s) /\
     (forall t x, t <> 1 -> t <> 2 -> sig_from_bytes X (t :: esig_bytes X s ++ [x]) = Ok (SgEd s))).
Proof.
  split; [|split; [|split]].
  - intros pk. split; [apply pk_from_bytes_iff; [exact HX|constructor]|]. intros t x N1 N2. apply pk_from_bytes_iff; [exact HX|now constructor].
  - intros h rest L1 L2. apply pk_from_bytes_iff; [exact HX|now constructor].
  - intros sk. split; [apply sk_from_bytes_iff; [exact HX|constructor]|]. intros t N1 N2. apply sk_from_bytes_iff; [exact HX|now constructor].
  - intros s. split; [apply sig_from_bytes_iff; [exact HX|constructor]|]. intros t x N1 N2. apply sig_from_bytes_iff; [exact HX|now constructor].
Qed.

(** [==] on public keys compares encodings, and is equality of keys. *)
Theorem C47_equality_is_of_keys :
  forall j k : pubkey X, pk_wf j -> pk_wf k -> (pk_to_bytes X j = pk_to_bytes X k <-> j = k).
Proof. intros j k Wj Wk. split; [now apply pk_bytes_inj|now intros ->]. Qed.

(** Decoding a key pair panics on every string shorter than a secret key, and does
    not compare the two keys: any public key is accepted beside any secret key. *)
Theorem C47_keypair_decoding_refuted :
  (forall b, (length b < 33)%nat -> kp_from_bytes X b = Panic) /\
  (forall (sk : seckey X) (pk : pubkey X), pk_wf pk -> kp_from_bytes X (sk_to_bytes X sk ++ pk_to_bytes X pk) = Ok (mkKp pk sk)).
Proof.
  split.
  - intros b L. unfold kp_from_bytes. now rewrite (proj2 (Nat.ltb_lt _ _) L).
  - intros sk pk W. exact (proj2 (proj2 (proj2 C47_round_trips)) (mkKp pk sk) W).
Qed.

(** ** C48 *)
(** A key pair's signature verifies under its public key.  A signature is accepted exactly
    if it is of the key's kind and verifies under the key; for an address this means that
    a key can be recovered from the signature whose hash ends in the address. *)
Theorem C48_single_signatures :
  schemes_sign X ->
  (forall (k : seckey X) msg, exists s, sk_sign X k msg = Ok s /\ sig_wf s /\ pk_wf (pub_of X k) /\ pk_verify X (pub_of X k) msg s = Ok tt) /\
  (forall (k : pubkey X) msg s, pk_verify X k msg s = Ok tt <->
     match k, s with
     | PkEd pk, SgEd s => ed_verify X pk msg s = true
     | PkSecp pk, SgSecp s _ => secp_verify X (keccak X msg) s pk = true
     | PkAddr h, SgAddr s r => exists pk, secp_recover X (keccak X msg) s r = Some pk /\ h = skipn 12 (keccak X (tl (spk_full X pk)))
     | _, _ => False
     end).
Proof.
  intros [Ve Vs]. split.
  - intros [sk|sk|sk] msg; cbn [sk_sign pub_of].
    + eexists. split; [reflexivity|]. cbn. rewrite Ve. auto.
    + specialize (Vs sk (keccak X msg)). destruct (secp_sign X (keccak X msg) sk) as [s r]. destruct Vs as [V1 [V2 V3]].
      eexists. split; [reflexivity|]. cbn. rewrite V1. auto.
    + specialize (Vs sk (keccak X msg)). destruct (secp_sign X (keccak X msg) sk) as [s r]. destruct Vs as [V1 [V2 V3]].
      eexists. split; [reflexivity|]. cbn [sig_wf pk_wf pk_verify]. rewrite V2. split; [exact V3|]. split.
      * unfold address_of. rewrite skipn_length. rewrite (proj2 (proj2 (proj2 (proj2 (proj2 (proj2 HX)))))). reflexivity.
      * destruct (bytes_eqb_spec (address_of X (secp_pk X sk)) (address_of X (secp_pk X sk))); [reflexivity|contradiction].
  - intros [pk|pk|h] msg [s|s r|s r]; cbn [pk_verify]; try (split; [discriminate|contradiction]).
    + now destruct (ed_verify X pk msg s).
    + now destruct (secp_verify X (keccak X msg) s pk).
    + destruct (secp_recover X (keccak X msg) s r) as [pk|].
      2:{ split; [discriminate|intros (pk & Y & _); discriminate Y]. }
      destruct (bytes_eqb_spec h (address_of X pk)) as [->|Nq]; split; try discriminate; intros Q.
      * now exists pk.
      * reflexivity.
      * destruct Q as (pk' & Y & Z). injection Y as <-. now elim Nq.
Qed.

(** The recovery id of a Secp256k1 signature is not looked at: four encodings of the
    same signature all verify. *)
Theorem C48_recovery_id_is_malleable :
  forall pk msg s r r', pk_verify X (PkSecp pk) msg (SgSecp s r) = pk_verify X (PkSecp pk) msg (SgSecp s r').
Proof. reflexivity. Qed.

Context (srt : forall A : Type, (A -> bytes) -> list A -> list A) (Hsrt : sorts srt).

(** A multi-signature made by key pairs (in any order) verifies for any order of
    their public keys. *)
Theorem C48_honest_in_any_order :
  schemes_sign X ->
  forall (sks : list (seckey X)) ks pks msg,
  Permutation ks (map (into_keypair X) sks) -> Permutation pks (map (pub_of X) sks) ->
  exists sigs, multi_sign X srt ks msg = Ok sigs /\ length sigs = length sks /\ multi_verify X srt sigs pks msg = Ok tt.
Proof.
  intros Sg sks ks pks msg Pk Pp. unfold multi_sign, multi_verify.
  set (f := fun k : keypair X => pk_to_bytes X (kp_pk k)). destruct (Hsrt (keypair X) f ks) as [P1 _].
  assert (Hk : Forall (fun k => exists sk, k = into_keypair X sk) (srt _ f ks)).
  { eapply Permutation_Forall; [exact P1|]. eapply Permutation_Forall; [symmetry; exact Pk|]. apply Forall_map, Forall_forall. intros sk _. now exists sk. }
  assert (Ek : map f (srt _ f ks) = map (pk_to_bytes X) (srt _ (pk_to_bytes X) pks)).
  { apply srt_keys; [exact Hsrt|]. rewrite Pk, Pp, !map_map. reflexivity. }
  assert (Wp : Forall pk_wf (srt _ (pk_to_bytes X) pks)).
  { eapply Permutation_Forall; [apply (Hsrt _ (pk_to_bytes X) pks)|]. eapply Permutation_Forall; [symmetry; exact Pp|].
    apply Forall_map, Forall_forall. intros sk _. now destruct (proj1 (C48_single_signatures Sg) sk msg) as [s [_ [_ [W _]]]]. }
  assert (L1 : length (srt _ f ks) = length sks) by (rewrite <- (Permutation_length P1), (Permutation_length Pk); apply map_length).
  assert (L2 : length pks = length sks) by (rewrite (Permutation_length Pp); apply map_length).
  revert Hk Ek Wp L1. generalize (srt _ (pk_to_bytes X) pks). generalize (srt _ f ks). clear P1 Pk Pp. intros l m Hk Ek Wp L1.
  assert (G : exists sigs, mapM (fun k => kp_sign X k msg) l = Ok sigs /\ length sigs = length l /\ all_verify X (combine m sigs) msg = Ok tt).
  { clear L1 L2. revert m Ek Wp. induction Hk as [|k l [sk ->] Hk IH]; intros [|p m] Ek Wp; try discriminate.
    - exists []. auto.
    - cbn [map] in Ek. injection Ek as E1 E2. inversion Wp as [|? ? W Wp']; subst. destruct (IH m E2 Wp') as [sigs [I1 [I2 I3]]].
      destruct (proj1 (C48_single_signatures Sg) sk msg) as [s [S1 [_ [Wk S2]]]]. unfold f in E1. cbn [into_keypair kp_pk] in E1.
      apply (pk_bytes_inj X HX _ _ Wk W) in E1. subst p. exists (s :: sigs). cbn [mapM]. unfold kp_sign at 1. cbn [into_keypair kp_sk].
      rewrite S1. cbn [bind]. rewrite I1. cbn [rmap bind length combine all_verify]. rewrite S2. cbn [bind]. rewrite I2. auto. }
  destruct G as [sigs [G1 [G2 G3]]]. exists sigs. split; [exact G1|]. split; [lia|]. replace (Nat.eqb (length pks) (length sigs)) with true by (symmetry; apply Nat.eqb_eq; lia).
  exact G3.
Qed.

(** Acceptance means that the keys and the signatures, as many, are matched one to
    one, each signature verifying under its key; the verdict does not depend on the
    order in which the keys are listed; missing or extra keys are refused. *)
Theorem C48_acceptance_exact :
  (forall sigs (pks : list (pubkey X)) msg,
     multi_verify X srt sigs pks msg = Ok tt -> exists pks', Permutation pks pks' /\ Forall2 (fun k s => pk_verify X k msg s = Ok tt) pks' sigs) /\
  (forall sigs (pks : list (pubkey X)) msg,
     StronglySorted (fun x y => bytes_leb (pk_to_bytes X x) (pk_to_bytes X y) = true) pks -> Forall pk_wf pks ->
     (multi_verify X srt sigs pks msg = Ok tt <-> Forall2 (fun k s => pk_verify X k msg s = Ok tt) pks sigs)) /\
  (forall sigs (pks pks' : list (pubkey X)) msg, Forall pk_wf pks -> Permutation pks pks' ->
     multi_verify X srt sigs pks msg = multi_verify X srt sigs pks' msg) /\
  (forall sigs (pks : list (pubkey X)) msg, length pks <> length sigs -> multi_verify X srt sigs pks msg = Err).
Proof.
  assert (V : forall sigs pks msg, length pks = length sigs ->
     (multi_verify X srt sigs pks msg = Ok tt <-> Forall2 (fun k s => pk_verify X k msg s = Ok tt) (srt _ (pk_to_bytes X) pks) sigs)).
  { intros sigs pks msg L. unfold multi_verify. rewrite L, Nat.eqb_refl. cbn [negb]. rewrite all_verify_ok by exact HX.
    apply (combine_Forall2 (fun k s => pk_verify X k msg s = Ok tt)). rewrite <- (Permutation_length (proj1 (Hsrt _ (pk_to_bytes X) pks))). exact L. }
  assert (Ne : forall sigs (pks : list (pubkey X)) msg, length pks <> length sigs -> multi_verify X srt sigs pks msg = Err).
  { intros sigs pks msg L. unfold multi_verify. now rewrite (proj2 (Nat.eqb_neq _ _) L). }
  split; [|split; [|split; [|exact Ne]]].
  - intros sigs pks msg H. destruct (Nat.eq_dec (length pks) (length sigs)) as [L|L]; [|rewrite (Ne _ _ _ L) in H; discriminate].
    exists (srt _ (pk_to_bytes X) pks). split; [apply Hsrt|]. now apply V.
  - intros sigs pks msg So W. assert (E : srt _ (pk_to_bytes X) pks = pks).
    { destruct (Hsrt _ (pk_to_bytes X) pks) as [P S2]. assert (E : map (pk_to_bytes X) (srt _ (pk_to_bytes X) pks) = map (pk_to_bytes X) pks).
      { apply sorted_unique; try (now apply sorted_map). symmetry. now apply Permutation_map. }
      assert (W2 : Forall pk_wf (srt _ (pk_to_bytes X) pks)) by (eapply Permutation_Forall; [exact P|exact W]).
      revert E W W2. generalize (srt _ (pk_to_bytes X) pks). clear So P S2. induction pks as [|a l IH]; intros [|b m] E W W2; try discriminate; [reflexivity|].
      cbn in E. injection E as E1 E2. inversion W; inversion W2; subst. f_equal; [now apply (pk_bytes_inj X HX)|now apply IH]. }
    destruct (Nat.eq_dec (length pks) (length sigs)) as [L|L].
    + rewrite V, E by exact L. reflexivity.
    + rewrite (Ne _ _ _ L). split; [discriminate|]. intros F. now apply Forall2_len in F.
  - intros sigs pks pks' msg W P. unfold multi_verify. rewrite (srt_pk_eq X HX srt Hsrt _ _ W P), (Permutation_length P). reflexivity.
Qed.
End Encodings.

(** ** C59 *)
(** The recovery byte of an Ethereum signature: 27 and 28 are the two parities, and
    so are 35 + 2 * chain and 36 + 2 * chain; 0 and 1 are themselves.  Every other
    input is below 35 and returned unchanged, so [RecoveryId::parse] refuses it
    unless it is 2 or 3. *)
Theorem C59_recovery_ids :
  (forall v, recovery_id_from_u64 v < 4 <-> v < 4 \/ v = 27 \/ v = 28 \/ 35 <= v) /\
  (forall chain parity, parity < 2 -> recovery_id_from_u64 (35 + 2 * chain + parity) = parity) /\
  (forall parity, parity < 2 -> recovery_id_from_u64 (27 + parity) = parity /\ recovery_id_from_u64 parity = parity) /\
  (forall v, v < 2 ^ 64 -> recovery_id_from_u64 v < 256).
Proof.
  unfold recovery_id_from_u64.
  assert (M : forall v, (v - 1) mod 2 < 2) by (intros; apply N.mod_lt; lia).
  split; [|split; [|split]].
  - intros v. specialize (M v). destruct (N.eqb_spec v 27); [lia|]. destruct (N.eqb_spec v 28); [lia|]. destruct (N.leb_spec 35 v); [lia|].
    rewrite N.mod_small by lia. lia.
  - intros c q Q. destruct (N.eqb_spec (35 + 2 * c + q) 27); [lia|]. destruct (N.eqb_spec (35 + 2 * c + q) 28); [lia|].
    destruct (N.leb_spec 35 (35 + 2 * c + q)); [|lia]. replace (35 + 2 * c + q - 1) with (q + (17 + c) * 2) by lia.
    rewrite N.mod_add by lia. now apply N.mod_small.
  - intros q Q. assert (q = 0 \/ q = 1) as [-> | ->] by lia; split; reflexivity.
  - intros v _. specialize (M v). destruct (N.eqb_spec v 27); [lia|]. destruct (N.eqb_spec v 28); [lia|]. destruct (N.leb_spec 35 v); [lia|].
    apply N.mod_lt. lia.
Qed.

Print Assumptions C47_round_trips.
Print Assumptions C47_accepted_strings.
Print Assumptions C47_canonical_partial.
Print Assumptions C47_not_canonical_refuted.
Print Assumptions C47_equality_is_of_keys.
Print Assumptions C47_keypair_decoding_refuted.
Print Assumptions C48_single_signatures.
Print Assumptions C48_recovery_id_is_malleable.
Print Assumptions C48_honest_in_any_order.
Print Assumptions C48_acceptance_exact.
Print Assumptions C59_recovery_ids.

(** ** Examples *)
(** A toy signature library: two keys of each kind; a signature is the key combined
    with the parity of the message, and every hypothesis above holds. *)
Definition tser (n : nat) (b : bool) : bytes := (if b then 1 else 0) :: repeat 7 (n - 1).
Definition tparse (n : nat) (l : bytes) : option bool :=
  if bytes_eqb l (tser n true) then Some true else if bytes_eqb l (tser n false) then Some false else None.
Definition par (m : bytes) : bool := N.odd (le_value m).
Definition toy : schemes :=
  mkSchemes bool (tser 32) (tparse 32) bool (tser 33) (tparse 33) (tser 65) bool (tser 32) (tparse 32) bool (tser 32) (tparse 32)
    bool (tser 64) (tparse 64) bool (tser 64) (tparse 64) (fun s => s) (fun s => s)
    (fun s m => xorb s (par m)) (fun p m s => eqb p (xorb s (par m)))
    (fun m => repeat (hd 0 m) 32) (fun m s => (xorb s (par m), if s then 1 else 0)) (fun m s p => eqb p (xorb s (par m)))
    (fun m s r => if N.eqb r (if xorb s (par m) then 1 else 0) then Some (xorb s (par m)) else None).
Lemma tcodec n : codec (S n) (tser (S n)) (tparse (S n)).
Proof.
  unfold codec, tparse. split.
  - intros b. split; [cbn; rewrite Nat.sub_0_r; f_equal; apply repeat_length|].
    destruct (bytes_eqb_spec (tser (S n) b) (tser (S n) true)) as [E|E]; [destruct b; [reflexivity|discriminate]|].
    destruct (bytes_eqb_spec (tser (S n) b) (tser (S n) false)) as [E'|E']; [destruct b; [discriminate|reflexivity]|]. destruct b; contradiction.
  - intros l x. destruct (bytes_eqb_spec l (tser (S n) true)) as [->|]; [intros E; injection E as <-; reflexivity|].
    destruct (bytes_eqb_spec l (tser (S n) false)) as [->|]; [intros E; injection E as <-; reflexivity|discriminate].
Qed.
Example toy_ok : schemes_ok toy /\ schemes_sign toy.
Proof.
  split.
  - unfold schemes_ok. split; [apply tcodec|]. split; [apply tcodec|]. split; [apply tcodec|]. split; [apply tcodec|]. split; [apply tcodec|].
    split; [apply tcodec|]. intros m. cbn. reflexivity.
  - split; [intros sk m; cbn; now destruct sk, (par m)|]. intros sk m. cbn. now destruct sk, (par m).
Qed.
(** A sort: insertion. *)
Fixpoint insert {A} (key : A -> bytes) (a : A) (l : list A) : list A :=
  match l with [] => [a] | b :: l' => if bytes_leb (key a) (key b) then a :: l else b :: insert key a l' end.
Definition isort (A : Type) (key : A -> bytes) (l : list A) : list A := fold_right (insert key) [] l.
Example isort_ok : sorts isort.
Proof.
  intros A key l. induction l as [|a l [P S1]]; cbn; [split; constructor|]. fold (isort A key l). revert P S1. generalize (isort A key l). intros m P S1.
  assert (Q : forall m, Permutation (a :: m) (insert key a m)).
  { clear. induction m as [|b m IH]; cbn; [reflexivity|]. destruct (bytes_leb (key a) (key b)); [reflexivity|]. rewrite perm_swap. now constructor. }
  split; [rewrite <- Q; now constructor|]. clear P. induction S1 as [|b m S1 IH Hb]; cbn; [repeat constructor|].
  destruct (bytes_leb (key a) (key b)) eqn:E.
  - constructor; [now constructor|]. constructor; [exact E|]. eapply Forall_impl; [|exact Hb]. intros c. cbn. now apply leb_trans.
  - constructor; [exact IH|]. eapply Permutation_Forall; [apply Q|]. constructor; [|exact Hb]. destruct (leb_total (key a) (key b)); congruence.
Qed.
(** Three signers of the three kinds, listed in different orders, and the refusal
    of a missing, an extra and a wrong key. *)
Example C48_case :
  let sks := [@SkAddr toy true; @SkSecp toy false; @SkEd toy true] : list (seckey toy) in
  let msg := [5; 6] in
  match multi_sign toy isort (map (into_keypair toy) sks) msg with
  | Ok sigs =>
      let v pks := multi_verify toy isort sigs pks msg in
      let '(a, b, c) := (pub_of toy (@SkAddr toy true), pub_of toy (@SkSecp toy false), pub_of toy (@SkEd toy true)) in
      v [a; b; c] = Ok tt /\ v [c; a; b] = Ok tt /\ v [b; c; a] = Ok tt /\
      v [a; b] = Err /\ v [a; b; c; c] = Err /\ v [a; b; @PkEd toy false] = Err /\
      multi_verify toy isort sigs [a; b; c] [4; 6] = Err
  | _ => False
  end.
Proof. vm_compute. repeat split. Qed.
Example C47_case :
  pk_from_bytes toy (9 :: tser 32 true ++ [77]) = Ok (@PkEd toy true) /\
  pk_from_bytes toy (tser 32 true) = Ok (@PkEd toy true) /\
  pk_from_bytes toy (1 :: tser 33 true) = Ok (@PkSecp toy true) /\
  pk_from_bytes toy (1 :: tser 32 true ++ [77]) = Err /\
  sig_from_bytes toy (2 :: tser 64 true ++ [3]) = Ok (@SgAddr toy true 3) /\
  sig_from_bytes toy (2 :: tser 64 true ++ [4]) = Err /\
  pk_strict (2 :: repeat 9 20 ++ repeat 0 13) /\ sig_strict (1 :: tser 64 true ++ [3]) /\ sk_strict (1 :: tser 32 true).
Proof. vm_compute. intuition. Qed.
