(** C67: text and byte encodings of the objects that leave the library. *)
From Coq Require Import List NArith ZArith Bool Lia ZifyBool ZifyNat ZifyN String.
From Verif Require Import Base UtilsModel UtilsProps ScalarModel ScalarProps KeyModel KeySpec KeyProps SerModel SerSpec SerProofs.
Import ListNotations.
Local Open Scope N_scope.
Notation length := List.length (only parsing).

(** The text of a byte string is its base64url text, and reading it gives it back. *)
Theorem C67_text_round_trip : forall b, byte_string b -> spells (b64enc b) b /\ b64dec (b64enc b) = Ok b.
Proof. intros b H. split; [now apply spelled|now apply b64_round]. Qed.

(** What is read from a text is written as that text, up to at most two missing padding
    characters; in particular no two texts of the same length are read as the same bytes.
    Missing for uniqueness: the padding is optional when reading. *)
Theorem C67_text_canonical_partial :
  (forall t b, b64dec t = Ok b -> byte_string b /\ exists p, (p <= 2)%nat /\ b64enc b = t ++ repeat 61 p) /\
  (forall t u b, b64dec t = Ok b -> b64dec u = Ok b -> length t = length u -> t = u) /\
  (forall t, b64dec t <> Panic).
Proof.
  split; [exact b64_canon|]. split; [|exact b64dec_no_panic].
  intros t u b Ht Hu L. destruct (b64_canon _ _ Ht) as [_ [p [_ Ep]]], (b64_canon _ _ Hu) as [_ [q [_ Eq]]]. rewrite Ep in Eq.
  apply (f_equal (firstn (length t))) in Eq. rewrite L in Eq at 2. rewrite !firstn_app, !firstn_all, L, !Nat.sub_diag in Eq. cbn in Eq. now rewrite !app_nil_r in Eq.
Qed.
Theorem C67_text_unique_refuted : forall b, byte_string b -> Nat.modulo (length b) 3 <> 0%nat ->
  exists t u, t <> u /\ b64dec t = Ok b /\ b64dec u = Ok b.
Proof.
  intros b H M. exists (b64enc b), (map sym (sextets b) ++ repeat PAD 0). split; [|split].
  - rewrite b64enc_eq. intros E. apply app_inv_head in E. apply (f_equal (@length N)) in E. rewrite !repeat_length, <- need_enc in E.
    destruct (Nat.modulo (length b) 3) as [|[|[|k]]] eqn:Q; try contradiction; try discriminate. pose proof (Nat.mod_upper_bound (length b) 3). lia.
  - now apply b64_round.
  - rewrite b64dec_text; [now apply octets_sextets|now apply sextets_6|lia].
Qed.

(** Every object with a faithful byte encoding survives JSON and MessagePack; different
    objects are written differently; and if the byte encoding is canonical, a JSON value
    that is read as an object is the text of that object up to padding. *)
Theorem C67_formats : forall A (c : SerModel.codec A) valid, faithful c valid -> forall f, f = Json \/ f = Msgpack ->
  (forall x, valid x -> read c f (write c f x) = Ok x) /\
  (forall x y, valid x -> valid y -> write c f x = write c f y -> x = y) /\
  (canonical c -> forall v x, read c Json v = Ok x -> exists t p, v = VStr t /\ write c Json x = VStr (t ++ repeat 61 p) /\ (p <= 2)%nat).
Proof.
  intros A c valid F f Hf. assert (R : forall x, valid x -> read c f (write c f x) = Ok x).
  { intros x V. destruct (F x V) as [B D]. unfold read, write. destruct Hf as [-> | ->]; cbn [human read_bytes]; [rewrite b64_round by exact B|]; exact D. }
  split; [exact R|]. split.
  - intros x y Vx Vy E. apply (f_equal (read c f)) in E. rewrite !R in E by assumption. now apply Ok_inj in E.
  - intros K v x H. unfold read in H. destruct v; cbn [read_bytes] in H; try discriminate. destruct (b64dec t) as [b| |] eqn:E; try discriminate. cbn [bind] in H.
    destruct (b64_canon _ _ E) as [_ [p [L Q]]]. exists t, p. split; [reflexivity|]. split; [|exact L]. unfold write. cbn [human]. now rewrite (K _ _ H), Q.
Qed.
(** Plain byte vectors (owner memos) survive as sequences of numbers. *)
Theorem C67_vectors : forall b, byte_string b -> read_vec (write_vec b) = Ok b /\ (forall v, read_vec v = Ok b -> v = write_vec b).
Proof.
  intros b H. split; [exact (u8s_round b H)|]. intros v E. destruct v; try discriminate. apply u8s_inv in E as [_ ->]. reflexivity.
Qed.
(** Amounts survive as decimal texts; the texts read are the decimal numerals, with leading
    zeros and at most one plus sign, of the numbers below 2^64. *)
Theorem C67_amounts :
  (forall n, n < 2 ^ 64 -> numeral (decimal n) n /\ read_amount (write_amount n) = Ok n) /\
  (forall v n, read_amount v = Ok n <-> exists ds, (v = VStr ds \/ v = VStr (43 :: ds)) /\ numeral ds n /\ n < 2 ^ 64).
Proof.
  assert (D : forall n, n < 2 ^ 64 -> numeral (decimal n) n) by (intros n H; apply decimal_spec; [eapply N.lt_trans; [exact H|reflexivity]|lia]).
  split.
  - intros n H. split; [now apply D|]. apply parse_iff. exists (decimal n). split; [now left|]. split; [now apply D|exact H].
  - intros v n. split.
    + destruct v; cbn; try discriminate. intros H. apply parse_iff in H as [ds [[-> | ->] H]]; exists ds; tauto.
    + intros [ds [[-> | ->] H]]; apply parse_iff; exists ds; tauto.
Qed.

(** ** The objects *)
Definition scalar_codec (k : kind) : SerModel.codec N := mkCodec _ (to_bytes k) (from_bytes k).
Definition public_key_codec (X : schemes) : SerModel.codec (pubkey X) := mkCodec _ (pk_to_bytes X) (pk_from_bytes X).
Definition secret_key_codec (X : schemes) : SerModel.codec (seckey X) := mkCodec _ (sk_to_bytes X) (sk_from_bytes X).
Definition signature_codec (X : schemes) : SerModel.codec (signature X) := mkCodec _ (sig_to_bytes X) (sig_from_bytes X).
(** The libraries encode keys and signatures in bytes. *)
Definition in_bytes (X : schemes) : Prop :=
  (forall k, byte_string (epk_bytes X k)) /\ (forall k, byte_string (spk_ser X k)) /\ (forall k, byte_string (esk_bytes X k)) /\
  (forall k, byte_string (ssk_ser X k)) /\ (forall s, byte_string (esig_bytes X s)) /\ (forall s, byte_string (ssig_ser X s)).
Definition pk_bytes_ok {X} (k : pubkey X) : Prop := pk_wf k /\ match k with PkAddr h => byte_string h | _ => True end.

Lemma take {A} n (a b : list A) : length a = n -> firstn n (a ++ b) = a /\ skipn n (a ++ b) = b.
Proof. intros <-. rewrite firstn_app, skipn_app, firstn_all, skipn_all, Nat.sub_diag. cbn. now rewrite app_nil_r. Qed.
Lemma all_bytes n : byte_string (repeat 0 n).
Proof. induction n; constructor; [lia|assumption]. Qed.

Section Objects.
Context (R P : points) (HR : lawful R) (HP : lawful P) (R32 : plen R = 32%nat).
Context (X : schemes) (HX : schemes_ok X) (BX : in_bytes X).

Lemma ark_faithful : faithful (ark_point P) (fun _ => True).
Proof.
  intros p _. destruct (HP p) as [B [L E]]. split; [exact B|]. cbn [ark_point dec enc]. rewrite L, Nat.ltb_irrefl, <- L, firstn_all, E. reflexivity.
Qed.
Lemma pub_faithful : faithful (axfr_pub P) (fun _ => True).
Proof. intros p _. destruct (HP p) as [B [L E]]. split; [exact B|]. cbn [axfr_pub ark_point dec enc]. rewrite L, Nat.eqb_refl. cbn [negb]. rewrite Nat.ltb_irrefl, <- L, firstn_all, E. reflexivity. Qed.
Lemma ristretto_faithful : faithful (ristretto_point R) (fun _ => True).
Proof. intros p _. destruct (HR p) as [B [L E]]. split; [exact B|]. cbn. rewrite L, R32. cbn. now rewrite E. Qed.
Lemma scalar_faithful k : faithful (scalar_codec k) (fun x => x < size k).
Proof. intros x H. destruct (C54_round_trip k x H) as [_ [B [_ E]]]. split; [exact B|exact E]. Qed.

(** Every object is decoded from its bytes (and hence, by [C67_formats], from what JSON
    and MessagePack carry). *)
Theorem C67_objects_round_trip :
  faithful exact32 (bytes_of 32) /\ faithful compressed (bytes_of 32) /\ faithful prefix32 (bytes_of 32) /\
  faithful ctext byte_string /\ faithful hybrid (fun x => byte_string (fst x) /\ bytes_of 32 (snd x)) /\
  (forall k, faithful (scalar_codec k) (fun x => x < size k)) /\
  faithful (ristretto_point R) (fun _ => True) /\ faithful (ark_point P) (fun _ => True) /\ faithful (axfr_pub P) (fun _ => True) /\
  faithful (axfr_pair (scalar_codec Secp) P) (fun x => fst x < size Secp) /\ faithful (elgamal R) (fun _ => True) /\
  faithful (public_key_codec X) pk_bytes_ok /\ faithful (secret_key_codec X) (fun _ => True) /\ faithful (signature_codec X) sig_wf.
Proof.
  split; [intros x [B L]; split; [exact B|]; cbn; now rewrite L|].
  split; [intros x [B L]; split; [exact B|]; cbn; now rewrite L|].
  split; [intros x [B L]; split; [exact B|]; cbn [prefix32 dec enc]; rewrite L; cbn [Nat.ltb Nat.leb]; rewrite <- L; f_equal; apply firstn_all|].
  split; [intros x B; split; [exact B|reflexivity]|].
  split.
  { intros [c k] [Bc [Bk L]]. cbn [fst snd] in *. cbn [hybrid enc dec exact32 ctext fst snd]. split; [apply Forall_app; now split|].
    rewrite app_length, L. replace (Nat.ltb (32 + length c) 32) with false by (symmetry; apply Nat.ltb_ge; lia). destruct (take 32 k c L) as [-> ->]. rewrite L. reflexivity. }
  split; [exact scalar_faithful|]. split; [exact ristretto_faithful|]. split; [exact ark_faithful|]. split; [exact pub_faithful|].
  split.
  { intros [s p] V. cbn [fst] in V. destruct (C54_round_trip Secp s V) as [L [B [_ E]]]. destruct (HP p) as [Bp [Lp Ep]]. destruct (pub_faithful p I) as [_ Dp].
    cbn [axfr_pair enc dec scalar_codec fst snd]. split; [apply Forall_app; split; [exact B|exact Bp]|].
    change (enc (axfr_pub P) p) with (of_point P p) in *. rewrite app_length, L, Lp, Nat.eqb_refl. cbn [negb]. destruct (take 32 _ (of_point P p) L) as [-> ->].
    rewrite E. cbn [bind]. rewrite Dp. reflexivity. }
  split.
  { intros [a b] _. destruct (ristretto_faithful a I) as [Ba Da], (ristretto_faithful b I) as [Bb Db]. destruct (HR a) as [_ [La _]]. rewrite R32 in La.
    cbn [elgamal enc dec fst snd]. split; [apply Forall_app; now split|]. rewrite app_length, La. replace (Nat.ltb (32 + length (of_point R b)) 32) with false by (symmetry; apply Nat.ltb_ge; lia).
    destruct (take 32 (of_point R a) (of_point R b) La) as [-> ->]. change (of_point R a) with (enc (ristretto_point R) a). change (of_point R b) with (enc (ristretto_point R) b). rewrite Da. cbn [bind]. rewrite Db. reflexivity. }
  destruct (C47_round_trips X HX) as [Rp [Rs [Rg _]]]. destruct BX as [B1 [B2 [B3 [B4 [B5 B6]]]]].
  split; [|split].
  - intros k [W B]. split; [|now apply Rp]. destruct k; cbn [enc public_key_codec pk_to_bytes].
    + constructor; [reflexivity|]. apply Forall_app. split; [apply B1|]. repeat constructor.
    + constructor; [reflexivity|]. apply B2.
    + constructor; [reflexivity|]. apply Forall_app. split; [exact B|]. apply all_bytes.
  - intros k _. split; [|now apply Rs]. destruct k; cbn [enc secret_key_codec sk_to_bytes]; (constructor; [reflexivity|]); [apply B3|apply B4|apply B4].
  - intros s W. split; [|now apply Rg]. destruct s; cbn [enc signature_codec sig_to_bytes]; (constructor; [reflexivity|]); apply Forall_app; cbn in W.
    + split; [apply B5|]. repeat constructor.
    + split; [apply B6|]. constructor; [lia|constructor].
    + split; [apply B6|]. constructor; [lia|constructor].
Qed.

(** Exactly which byte strings are decoded, and to what. *)
Theorem C67_accepted_bytes :
  (forall b x, dec exact32 b = Ok x <-> x = b /\ length b = 32%nat) /\
  (forall b x, dec compressed b = Ok x <-> x = b /\ length b = 32%nat) /\
  (forall b x, dec prefix32 b = Ok x <-> exists rest, b = x ++ rest /\ length x = 32%nat) /\
  (forall b c k, dec hybrid b = Ok (c, k) <-> b = k ++ c /\ length k = 32%nat) /\
  (forall b p, dec (ristretto_point R) b = Ok p <-> length b = 32%nat /\ to_point R b = Some p) /\
  (forall b p, dec (ark_point P) b = Ok p <-> exists c rest, b = c ++ rest /\ length c = plen P /\ to_point P c = Some p) /\
  (forall b p, dec (axfr_pub P) b = Ok p <-> length b = plen P /\ to_point P b = Some p) /\
  (forall b s p, dec (axfr_pair (scalar_codec Secp) P) b = Ok (s, p) <->
     exists c d, b = c ++ d /\ length c = 32%nat /\ from_bytes Secp c = Ok s /\ length d = plen P /\ to_point P d = Some p) /\
  (forall b p q, dec (elgamal R) b = Ok (p, q) <->
     exists c d, b = c ++ d /\ length c = 32%nat /\ length d = 32%nat /\ to_point R c = Some p /\ to_point R d = Some q).
Proof.
  assert (EX : forall b x : list N, (if Nat.eqb (length b) 32 then Ok b else Err) = Ok x <-> x = b /\ length b = 32%nat).
  { intros b x. destruct (Nat.eqb_spec (length b) 32); split; [intros E; apply Ok_inj in E; auto|intros [-> _]; reflexivity|discriminate|tauto]. }
  assert (CO : forall b x : list N, (if Nat.eqb (length b) 32 then Ok b else Panic) = Ok x <-> x = b /\ length b = 32%nat).
  { intros b x. destruct (Nat.eqb_spec (length b) 32); split; [intros E; apply Ok_inj in E; auto|intros [-> _]; reflexivity|discriminate|tauto]. }
  assert (RI : forall b p, dec (ristretto_point R) b = Ok p <-> length b = 32%nat /\ to_point R b = Some p).
  { intros b p. cbn. destruct (Nat.eqb_spec (length b) 32) as [L|L]; cbn [bind]; [|split; [discriminate|tauto]]. destruct (to_point R b); split; try discriminate; [intros E; apply Ok_inj in E; subst; auto|intros [_ E]; injection E as ->; reflexivity|intros [_ E]; discriminate]. }
  assert (AR : forall b p, dec (ark_point P) b = Ok p <-> exists c rest, b = c ++ rest /\ length c = plen P /\ to_point P c = Some p).
  { intros b p. cbn [ark_point dec]. destruct (Nat.ltb_spec (length b) (plen P)) as [L|L].
    - split; [discriminate|]. intros [c [r [-> [Lc _]]]]. rewrite app_length in L. lia.
    - split.
      + destruct (to_point P (firstn (plen P) b)) as [p'|] eqn:E; [|discriminate]. intros H. apply Ok_inj in H as <-. exists (firstn (plen P) b), (skipn (plen P) b). split; [symmetry; apply firstn_skipn|]. split; [now apply firstn_length_le|exact E].
      + intros [c [r [-> [Lc E]]]]. destruct (take (plen P) c r Lc) as [-> _]. now rewrite E. }
  assert (PU : forall b p, dec (axfr_pub P) b = Ok p <-> length b = plen P /\ to_point P b = Some p).
  { intros b p. cbn [axfr_pub dec]. destruct (Nat.eqb_spec (length b) (plen P)) as [L|L]; cbn [negb]; [|split; [discriminate|tauto]]. rewrite AR. split.
    - intros [c [r [-> [Lc E]]]]. rewrite app_length in L. destruct r; [|cbn in L; lia]. rewrite app_nil_r in *. auto.
    - intros [_ E]. exists b, []. rewrite app_nil_r. auto. }
  split; [exact EX|]. split; [exact CO|]. split.
  { intros b x. cbn [prefix32 dec]. destruct (Nat.ltb_spec (length b) 32) as [L|L].
    - split; [discriminate|]. intros [r [-> Lx]]. rewrite app_length in L. lia.
    - split; [intros E; apply Ok_inj in E as <-; exists (skipn 32 b); split; [symmetry; apply firstn_skipn|now apply firstn_length_le]|].
      intros [r [-> Lx]]. now destruct (take 32 x r Lx) as [-> _]. }
  split.
  { intros b c k. cbn [hybrid dec exact32 ctext]. destruct (Nat.ltb_spec (length b) 32) as [L|L].
    - split; [discriminate|]. intros [-> Lx]. rewrite app_length in L. lia.
    - rewrite firstn_length_le by lia. cbn [Nat.eqb bind]. split; [intros E; apply Ok_inj, pair_equal_spec in E as [<- <-]; split; [symmetry; apply firstn_skipn|apply firstn_length_le; exact L]|].
      intros [-> Lx]. destruct (take 32 k c Lx) as [T1 T2]. now rewrite T1, T2. }
  split; [exact RI|]. split; [exact AR|]. split; [exact PU|]. split.
  { intros b s p. cbn [axfr_pair dec scalar_codec]. destruct (Nat.eqb_spec (length b) (32 + plen P)) as [L|L]; cbn [negb].
    - split.
      + intros E. apply bind_ok in E as [s' [E1 E]]. apply bind_ok in E as [p' [E2 E]]. apply Ok_inj, pair_equal_spec in E as [<- <-]. apply PU in E2 as [L2 E2].
        exists (firstn 32 b), (skipn 32 b). split; [symmetry; apply firstn_skipn|]. split; [apply firstn_length_le; lia|]. auto.
      + intros [c [d [-> [Lc [Es [Ld Ep]]]]]]. destruct (take 32 c d Lc) as [-> ->]. rewrite Es. cbn [bind].
        rewrite (proj2 (PU d p) (conj Ld Ep)). reflexivity.
    - split; [discriminate|]. intros [c [d [-> [Lc [_ [Ld _]]]]]]. rewrite app_length in L. lia. }
  intros b p q. cbn [elgamal dec]. destruct (Nat.ltb_spec (length b) 32) as [L|L].
  - split; [discriminate|]. intros [c [d [-> [Lc _]]]]. rewrite app_length in L. lia.
  - split.
    + intros E. apply bind_ok in E as [p' [E1 E]]. apply bind_ok in E as [q' [E2 E]]. apply Ok_inj, pair_equal_spec in E as [<- <-]. apply RI in E1 as [L1 E1]. apply RI in E2 as [L2 E2].
      exists (firstn 32 b), (skipn 32 b). split; [symmetry; apply firstn_skipn|]. auto.
    + intros [c [d [-> [Lc [Ld [Ep Eq]]]]]]. destruct (take 32 c d Lc) as [-> ->]. rewrite (proj2 (RI c p) (conj Lc Ep)). cbn [bind]. rewrite (proj2 (RI d q) (conj Ld Eq)). reflexivity.
Qed.

(** These decoders never panic, in any format. *)
Theorem C67_no_panic_partial :
  total exact32 /\ total prefix32 /\ total ctext /\ total hybrid /\ (forall k, total (scalar_codec k)) /\
  total (ark_point P) /\ total (axfr_pub P) /\ total (axfr_pair (scalar_codec Secp) P) /\
  total (public_key_codec X) /\ total (secret_key_codec X) /\ total (signature_codec X) /\
  (forall A (c : SerModel.codec A), total c -> forall f v, read c f v <> Panic) /\ (forall v, read_vec v <> Panic) /\ (forall v, read_amount v <> Panic).
Proof.
  assert (SC : forall k, total (scalar_codec k)) by (intros k b; cbn; unfold from_bytes; destruct (Nat.ltb bytes_len (length b)); [discriminate|destruct k; discriminate]).
  assert (AR : total (ark_point P)) by (intros b; cbn [ark_point dec]; destruct (Nat.ltb (length b) (plen P)); [discriminate|destruct (to_point P (firstn (plen P) b)); discriminate]).
  assert (PU : total (axfr_pub P)) by (intros b; cbn [axfr_pub dec]; destruct (negb _); [discriminate|apply AR]).
  destruct (C47_accepted_strings X HX) as [_ [_ [_ K]]].
  split; [intros b; cbn [exact32 dec]; destruct (Nat.eqb (length b) 32); discriminate|]. split; [intros b; cbn [prefix32 dec]; destruct (Nat.ltb (length b) 32); discriminate|]. split; [discriminate|].
  split; [intros b; cbn [hybrid dec exact32 ctext]; destruct (Nat.ltb (length b) 32); [discriminate|]; destruct (Nat.eqb (length (firstn 32 b)) 32); discriminate|].
  split; [exact SC|]. split; [exact AR|]. split; [exact PU|]. split.
  { intros b. cbn [axfr_pair dec]. destruct (negb _); [discriminate|]. pose proof (SC Secp (firstn 32 b)) as S. pose proof (PU (skipn 32 b)) as Q.
    destruct (dec (scalar_codec Secp) (firstn 32 b)); [cbn [bind]|discriminate|contradiction]. destruct (dec (axfr_pub P) (skipn 32 b)); [discriminate|discriminate|contradiction]. }
  split; [intros b; apply K|]. split; [intros b; apply K|]. split; [intros b; apply K|]. split.
  { intros A c T f v. unfold read. pose proof (read_bytes_no_panic f v) as H. destruct (read_bytes f v); [apply T|discriminate|contradiction]. }
  split; [intros v; destruct v; try discriminate; apply u8s_no_panic|].
  intros v. destruct v; try discriminate. cbn. unfold parse_u64. destruct t as [|c r]; [discriminate|]. destruct (c =? 43); [destruct r; [discriminate|apply digits_no_panic]|apply digits_no_panic].
Qed.
(** The decoders built on compressed points of Curve25519 panic: on every byte string of
    another length than 32 (64 for ElGamal ciphertexts, when the first point is fine), and
    so does reading its text from JSON. *)
Theorem C67_wrong_length_panics_refuted :
  (forall b, length b <> 32%nat -> dec compressed b = Panic /\ dec (ristretto_point R) b = Panic) /\
  (forall b, byte_string b -> length b <> 32%nat ->
     read compressed Json (VStr (b64enc b)) = Panic /\ read (ristretto_point R) Json (VStr (b64enc b)) = Panic) /\
  (forall b, (length b < 32)%nat -> dec (elgamal R) b = Panic) /\
  (forall p b, length b <> 32%nat -> dec (elgamal R) (of_point R p ++ b) = Panic).
Proof.
  assert (D : forall b, length b <> 32%nat -> dec compressed b = Panic /\ dec (ristretto_point R) b = Panic) by (intros b L; cbn; apply Nat.eqb_neq in L; now rewrite L).
  split; [exact D|]. split; [|split].
  - intros b B L. unfold read. cbn [read_bytes]. rewrite b64_round by exact B. now apply D.
  - intros b L. cbn [elgamal dec]. apply Nat.ltb_lt in L. now rewrite L.
  - intros p b L. destruct (HR p) as [_ [Lp _]]. rewrite R32 in Lp. destruct (ristretto_faithful p I) as [_ Dp]. cbn [elgamal dec]. rewrite app_length, Lp.
    replace (Nat.ltb (32 + length b) 32) with false by (symmetry; apply Nat.ltb_ge; lia). destruct (take 32 _ b Lp) as [-> ->]. change (of_point R p) with (enc (ristretto_point R) p). rewrite Dp. cbn [bind].
    now rewrite (proj2 (D b L)).
Qed.
(** Trailing bytes are ignored by the bare X25519 keys and by the arkworks points, and the
    bytes of a key pair are accepted whatever the public key in them is. *)
Theorem C67_unchecked_refuted :
  (forall b x rest, dec prefix32 b = Ok x -> dec prefix32 (b ++ rest) = Ok x) /\
  (forall b p rest, dec (ark_point P) b = Ok p -> dec (ark_point P) (b ++ rest) = Ok p) /\
  (forall (s : N) (p : Pt P), s < size Secp ->
     let c := axfr_pair (scalar_codec Secp) P in dec c (enc c (s, p)) = Ok (s, p)).
Proof.
  destruct C67_accepted_bytes as [_ [_ [A1 [_ [_ [A2 _]]]]]]. split; [|split].
  - intros b x rest H. apply A1 in H as [r [-> L]]. apply A1. exists (r ++ rest). now rewrite app_assoc.
  - intros b p rest H. apply A2 in H as [c [r [-> H]]]. apply A2. exists c, (r ++ rest). now rewrite app_assoc.
  - intros s p H. destruct C67_objects_round_trip as [_ [_ [_ [_ [_ [_ [_ [_ [_ [K _]]]]]]]]]]. now apply (K (s, p)).
Qed.
End Objects.

Print Assumptions C67_text_round_trip.
Print Assumptions C67_text_canonical_partial.
Print Assumptions C67_text_unique_refuted.
Print Assumptions C67_formats.
Print Assumptions C67_vectors.
Print Assumptions C67_amounts.
Print Assumptions C67_objects_round_trip.
Print Assumptions C67_accepted_bytes.
Print Assumptions C67_no_panic_partial.
Print Assumptions C67_wrong_length_panics_refuted.
Print Assumptions C67_unchecked_refuted.

(** ** Examples *)
(** Points and keys that meet the hypotheses: the toy library of KeyProps and points with
    the same encoding. *)
Definition toy_points (n : nat) : points := mkPts bool (S n) (tser (S n)) (tparse (S n)).
Lemma tser_bytes n b : byte_string (tser n b).
Proof. constructor; [destruct b; lia|]. generalize (n - 1)%nat. intros k. induction k; constructor; [lia|assumption]. Qed.
Example C67_case_hypotheses : lawful (toy_points 31) /\ lawful (toy_points 32) /\ plen (toy_points 31) = 32%nat /\ schemes_ok toy /\ in_bytes toy.
Proof.
  split; [|split; [|split; [reflexivity|split; [exact (proj1 toy_ok)|]]]]; try (intros p; split; [apply tser_bytes|apply tcodec]).
  repeat split; intros k; apply tser_bytes.
Qed.
Example C67_case_pair :
  let c := axfr_pair (scalar_codec Secp) (toy_points 32) in
  read c Json (write c Json (5, true)) = Ok (5, true) /\ read c Msgpack (write c Msgpack (5, false)) = Ok (5, false) /\
  dec (elgamal (toy_points 31)) (tser 32 true ++ tser 32 false) = Ok (true, false) /\ dec (elgamal (toy_points 31)) (tser 32 true ++ [0]) = Panic.
Proof. repeat split; vm_compute; reflexivity. Qed.
Example C67_case_text :
  b64enc [1; 2; 250; 255] = chars "AQL6_w==" /\ b64dec (chars "AQL6_w") = Ok [1; 2; 250; 255] /\ b64dec (chars "AQL6_w=") = Ok [1; 2; 250; 255] /\
  b64dec (chars "AQL6_x==") = Err /\ b64dec (chars "AQL6_w===") = Err /\ b64dec (chars "AQL6/w==") = Err /\ b64dec (chars "AQ==AQ==") = Err /\
  read exact32 Json (VStr (chars "AAECAwQFBgcICQoLDA0ODxAREhMUFRYXGBkaGxwdHh8=")) = Ok (map N.of_nat (seq 0 32)) /\
  read compressed Json (VStr (chars "AQL6_w==")) = Panic.
Proof. repeat split. Qed.
Example C67_case_amount :
  decimal 1844674407370955161 = chars "1844674407370955161" /\ read_amount (VStr (chars "1844674407370955161")) = Ok 1844674407370955161 /\
  read_amount (VStr (chars "18446744073709551616")) = Err /\ read_amount (VStr (chars "18446744073709551615")) = Ok 18446744073709551615 /\
  read_amount (VStr (chars "+007")) = Ok 7 /\ read_amount (VStr (chars "-7")) = Err /\ read_amount (VStr (chars "+")) = Err.
Proof. repeat split. Qed.
