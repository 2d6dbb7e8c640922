(** Property theorems for owner memos (C45), batch verification (C49) and the
    notes between transparent records and the anonymous pool (C56).  The field is
    the BLS12-381 scalar field and the hash the Rescue instance of the code. *)
From Coq Require Import List NArith ZArith Bool Lia ZifyBool ZifyNat ZifyN.
From Verif Require Import Base Field PField Power UtilsModel TurboModel TurboSpec TurboProofs TurboHonest TurboKit TurboEmit
  RescueModel RescueSpec RescueProofs RescueLemmas XfrModel MixModel AxfrModel AxfrSpec AxfrProofs AxfrHonest AxfrLemmas AxfrProps
  FoldModel FoldLemmas NoteModel NoteProofs.
Import ListNotations.
Ltac Zify.zify_post_hook ::= Z.div_mod_to_equations.
Local Open Scope F_scope.

(** ** C45 *)
(** What is assumed of the cipher suite: Diffie-Hellman agreement, decryption
    inverts encryption, 72-byte messages can be encrypted, decryption yields
    bytes, coordinates have 32 bytes. *)
Definition suite_ok (S : suite) : Prop :=
  (forall a b, pmul S (mulb S a) b = pmul S (mulb S b) a) /\
  (forall k m c, seal S k m = Some c -> open S k c = Some m) /\
  (forall k m, length m = 72%nat -> Forall (fun b => b < 256)%N m -> seal S k m <> None) /\
  (forall k c m, open S k c = Some m -> Forall (fun b => b < 256)%N m) /\
  (forall p, length (fst (coords S p)) = 32%nat /\ length (snd (coords S p)) = 32%nat).

Section Memos.
Context (as_scalar : N -> BLS) (S : suite) (HS : suite_ok S).
Notation decrypt_memo := (decrypt_memo BLS bls_rescue as_scalar S).
Notation parse_memo := (parse_memo BLS bls_rescue as_scalar S).
Notation from_abar := (from_abar BLS bls_rescue as_scalar S).
Notation from_oabar := (from_oabar BLS bls_rescue as_scalar S).
Notation commit_pt := (commit_pt BLS bls_rescue as_scalar S).

Lemma scalars_ok p : exists t, pk_scalars BLS S p = Ok t.
Proof.
  unfold pk_scalars. destruct HS as [_ [_ [_ [_ H]]]]. specialize (H p). destruct (coords S p) as [x y]. cbn [fst snd] in H.
  unfold get_public_key_scalars. rewrite app_length, (proj1 H), (proj2 H). change (Nat.ltb (32 + 32) 62) with false. cbv iota.
  unfold scalar_from_bytes. rewrite !firstn_length, !skipn_length, app_length, (proj1 H), (proj2 H).
  change (Nat.ltb 32 (Nat.min 31 (32 + 32))) with false. change (Nat.ltb 32 (Nat.min 31 (32 + 32 - 31))) with false.
  change (Nat.ltb 32 (32 + 32 - 62)) with false. cbv iota. cbn [bind]. eexists. reflexivity.
Qed.
Lemma commit_ok p b a t : exists k, pk_scalars BLS S p = Ok k /\ commit_pt p b a t = Ok (AxfrModel.commit BLS bls_rescue as_scalar k b a t).
Proof. destruct (scalars_ok p) as [k Hk]. exists k. split; [exact Hk|]. unfold NoteModel.commit_pt. rewrite Hk. reflexivity. Qed.

(** A record built for the owner of [k] is recovered exactly, whatever the random
    draws [blind] and [r]: the memo decrypts to the amount, type and blinding, and
    opening the published commitment with the memo gives back the same record. *)
Theorem C45_memo_round_trip :
  forall (k : akey S) amount ty (blind : BLS) r,
  ak_pk S k = mulb S (ak_sk S k) -> (amount < 2 ^ 64)%N -> (ty < 2 ^ 256)%N ->
  exists o com m,
    finalize BLS S (builder BLS S amount ty (ak_pk S k)) blind r = Ok o /\
    r_amount BLS S o = amount /\ r_type BLS S o = ty /\ r_blind BLS S o = blind /\ r_pk BLS S o = ak_pk S k /\
    r_memo BLS S o = Some m /\ from_oabar o = Ok com /\
    decrypt_memo m k com = Ok (amount, ty, blind) /\ from_abar com m k = Ok o.
Proof.
  intros k amount ty blind r Hk Ha Ht. pose proof HS as [DH [DE [ENC _]]].
  set (msg := memo_msg BLS amount ty blind). set (key := kdf S (pmul S (ak_pk S k) r)).
  destruct (seal S key msg) as [c|] eqn:Es; [|now apply ENC in Es; [|apply (msg_len BLS)|apply (msg_bytes BLS)]].
  destruct (commit_ok (ak_pk S k) blind amount ty) as [sc [_ Hc]].
  assert (D : decrypt_memo (mulb S r, c) k (AxfrModel.commit BLS bls_rescue as_scalar sc blind amount ty) = Ok (amount, ty, blind)).
  { unfold NoteModel.decrypt_memo, decrypt. cbn [fst snd]. rewrite DH, <- Hk. fold key. rewrite (DE _ _ _ Es). cbn [bind].
    rewrite parse_eq by apply msg_len.
    destruct (msg_slices BLS as_scalar amount ty blind Ha Ht) as [M1 [M2 M3]]; [rewrite bls_pchar; now apply Z.leb_le|].
    fold msg in M1, M2, M3. rewrite M1, M2, M3, Hc. cbn [bind].
    destruct (feqb_spec (AxfrModel.commit BLS bls_rescue as_scalar sc blind amount ty) (AxfrModel.commit BLS bls_rescue as_scalar sc blind amount ty)) as [_|n]; [exact eq_refl|contradiction]. }
  exists (mkOrec BLS S amount ty blind (ak_pk S k) (Some (mulb S r, c))), (AxfrModel.commit BLS bls_rescue as_scalar sc blind amount ty), (mulb S r, c).
  split. { unfold finalize, builder, encrypt. cbn [r_memo r_pk r_amount r_type]. fold msg key. rewrite Es. exact eq_refl. }
  do 5 (split; [exact eq_refl|]). split. { unfold NoteModel.from_oabar. cbn [r_pk r_blind r_amount r_type]. rewrite Hc. exact eq_refl. }
  split; [exact D|]. unfold NoteModel.from_abar. rewrite D. exact eq_refl.
Qed.

(** Plaintexts of another length are refused. *)
Theorem C45_wrong_length_rejected :
  forall (k : akey S) com m bytes,
  open S (kdf S (pmul S (fst m) (ak_sk S k))) (snd m) = Some bytes -> length bytes <> 72%nat ->
  decrypt_memo m k com = Err /\ from_abar com m k = Err.
Proof.
  intros k com m bytes Ho L. unfold NoteModel.from_abar, NoteModel.decrypt_memo, decrypt. rewrite Ho. cbn [bind].
  rewrite parse_wrong_len by exact L. split; exact eq_refl.
Qed.

(** Whatever the memo, opening never panics, and what it accepts is an opening of
    the published commitment by the holder of the key, with a 64-bit amount. *)
Theorem C45_accepted_memo_opens_record :
  forall (k : akey S) com m,
  from_abar com m k <> Panic /\
  forall o, from_abar com m k = Ok o ->
    from_oabar o = Ok com /\ r_pk BLS S o = ak_pk S k /\ r_memo BLS S o = Some m /\
    (r_amount BLS S o < 2 ^ 64)%N /\ (r_type BLS S o < 2 ^ 256)%N.
Proof.
  intros k com m. pose proof HS as [_ [_ [_ [BY _]]]]. unfold NoteModel.from_abar, NoteModel.decrypt_memo, decrypt.
  destruct (open S (kdf S (pmul S (fst m) (ak_sk S k))) (snd m)) as [bytes|] eqn:Eo; [|split; discriminate]. cbn [bind].
  pose proof (BY _ _ _ Eo) as HB. split.
  - destruct (Nat.eq_dec (length bytes) 72) as [L|L]; [|rewrite parse_wrong_len by exact L; discriminate].
    rewrite parse_eq by exact L.
    destruct (commit_ok (ak_pk S k) (fofN (le_value (firstn 32 (skipn 40 bytes)))) (le_value (firstn 8 bytes)) (le_value (firstn 32 (skipn 8 bytes)))) as [sc [_ Hc]].
    rewrite Hc. cbn [bind]. destruct (feqb _ com); discriminate.
  - intros o H. apply bind_ok in H. destruct H as [[[a t] b] [H1 H2]]. apply Ok_inj in H2. subst o.
    destruct (parse_ok BLS bls_rescue as_scalar S _ _ _ _ _ _ H1) as [L [Ea [Et [Eb Hc]]]].
    cbn [r_pk r_memo r_amount r_type]. unfold NoteModel.from_oabar. cbn [r_pk r_blind r_amount r_type]. rewrite Hc.
    split; [exact eq_refl|]. split; [exact eq_refl|]. split; [exact eq_refl|]. subst a t. split.
    + pose proof (le_value_lt _ (firstn_F _ 8 _ HB)) as X. rewrite firstn_length, L in X. exact X.
    + pose proof (le_value_lt _ (firstn_F _ 32 _ (skipn_F _ 8 _ HB))) as X. rewrite firstn_length, skipn_length, L in X. exact X.
Qed.

(** Two memos accepted for the same commitment give the same amount, blinding,
    type scalar and key scalars, or exhibit a collision of the hash between the
    inputs of the two commitment computations. *)
Theorem C45_opening_unique :
  forall (k k' : akey S) com m m' o o',
  from_abar com m k = Ok o -> from_abar com m' k' = Ok o' ->
  exists s s', pk_scalars BLS S (ak_pk S k) = Ok s /\ pk_scalars BLS S (ak_pk S k') = Ok s' /\
  ((s = s' /\ r_amount BLS S o = r_amount BLS S o' /\ r_blind BLS S o = r_blind BLS S o' /\
    as_scalar (r_type BLS S o) = as_scalar (r_type BLS S o')) \/
   Exists (collide BLS Hash)
     (combine (com_inputs BLS Hash s (r_blind BLS S o) (fofN (r_amount BLS S o)) (as_scalar (r_type BLS S o)))
              (com_inputs BLS Hash s' (r_blind BLS S o') (fofN (r_amount BLS S o')) (as_scalar (r_type BLS S o'))))).
Proof.
  intros k k' com m m' o o' H H'.
  destruct (C45_accepted_memo_opens_record k com m) as [_ X]. destruct (X o H) as [E1 [P1 [_ [A1 _]]]]. clear X.
  destruct (C45_accepted_memo_opens_record k' com m') as [_ X]. destruct (X o' H') as [E2 [P2 [_ [A2 _]]]]. clear X.
  unfold NoteModel.from_oabar in E1, E2. rewrite P1 in E1. rewrite P2 in E2.
  destruct (commit_ok (ak_pk S k) (r_blind BLS S o) (r_amount BLS S o) (r_type BLS S o)) as [s [Hs C1]].
  destruct (commit_ok (ak_pk S k') (r_blind BLS S o') (r_amount BLS S o') (r_type BLS S o')) as [s' [Hs' C2]].
  rewrite C1 in E1. rewrite C2 in E2. apply Ok_inj in E1. apply Ok_inj in E2. exists s, s'. split; [exact Hs|]. split; [exact Hs'|].
  destruct (commitment_binding BLS Hash s (r_blind BLS S o) (fofN (r_amount BLS S o)) (as_scalar (r_type BLS S o))
              s' (r_blind BLS S o') (fofN (r_amount BLS S o')) (as_scalar (r_type BLS S o'))) as [[K1 [K2 [K3 K4]]]|K].
  - rewrite <- E2 in E1. unfold AxfrModel.commit in E1. destruct s as [[s0 s1] s2], s' as [[s0' s1'] s2']. cbn [commitment]. exact E1.
  - left. split; [exact K1|]. split; [|split; [exact K2|exact K4]].
    apply (f_equal toZ) in K3. unfold fofN in K3. rewrite !toZ_fofZ, !Z.mod_small in K3; [lia| |];
      (split; [lia|]; rewrite bls_pchar; apply Z.lt_trans with (2 ^ 64)%Z; [lia|reflexivity]).
  - right. exact K.
Qed.
(** A finalized record is final: finalizing twice is an error, so the published
    blinding and memo always belong together. *)
Theorem C45_finalize_once :
  forall (o o' : orec BLS S) blind r, finalize BLS S o blind r = Ok o' ->
  (exists m, r_memo BLS S o' = Some m) /\ forall blind' r', finalize BLS S o' blind' r' = Err.
Proof.
  intros o o' blind r H. unfold finalize in H. destruct (r_memo BLS S o) as [m|]; [discriminate|].
  destruct (encrypt S (r_pk BLS S o) r (memo_msg BLS (r_amount BLS S o) (r_type BLS S o) blind)) as [m| |]; try discriminate.
  apply Ok_inj in H. subst o'. split; [now exists m|reflexivity].
Qed.

(** Building succeeds exactly for a record that has a memo and a key other than
    the default one; it changes nothing and never panics. *)
Theorem C45_build_requirements :
  (forall p q, pt_eqb S p q = true <-> p = q) ->
  forall (o : orec BLS S),
  ((r_pk BLS S o <> dflt S /\ r_memo BLS S o <> None) -> build BLS S o = Ok o) /\
  ((r_pk BLS S o = dflt S \/ r_memo BLS S o = None) -> build BLS S o = Err).
Proof.
  intros Q o. unfold build. destruct (pt_eqb S (r_pk BLS S o) (dflt S)) eqn:E.
  - apply Q in E. split; [intros [x _]; contradiction|reflexivity].
  - assert (r_pk BLS S o <> dflt S) by (intros x; apply Q in x; congruence).
    destruct (r_memo BLS S o); split; try reflexivity; [intros [x|x]; [contradiction|discriminate]|intros [_ x]; now contradiction x].
Qed.
End Memos.
Print Assumptions C45_memo_round_trip.
Print Assumptions C45_wrong_length_rejected.
Print Assumptions C45_accepted_memo_opens_record.
Print Assumptions C45_opening_unique.


(** A concrete suite: multiplication of numbers and a cipher shifting bytes. *)
Definition toy_suite : suite := mkSuite N N (fun s => 3 * s)%N N.mul (fun p => [p mod 256]%N)
  (fun k m => if forallb (fun b => N.ltb b 256) m then Some (map (fun b => (b + hd 0 k) mod 256)%N m) else None)
  (fun k c => Some (map (fun b => (b + (256 - hd 0 k mod 256)) mod 256)%N c))
  (fun p => (le_bytes 32 p, le_bytes 32 0)) N.eqb 0%N.
Example toy_suite_ok : suite_ok toy_suite.
Proof.
  split; [intros a b; unfold toy_suite; cbn [pmul mulb]; rewrite <- !N.mul_assoc, (N.mul_comm a b); reflexivity|]. split; [|split; [|split]].
  - intros k m c. unfold toy_suite. cbn [seal open]. destruct (forallb _ m) eqn:E; [|discriminate]. intros H. injection H as <-.
    f_equal. rewrite map_map. rewrite forallb_forall in E. rewrite <- (map_id m) at 2. apply map_ext_in. intros b Hb. specialize (E b Hb). lia.
  - intros k m _ H. unfold toy_suite. cbn [seal]. destruct (forallb _ m) eqn:E; [discriminate|]. exfalso.
    assert (X : forallb (fun b => (b <? 256)%N) m = true); [|congruence]. apply forallb_forall. rewrite Forall_forall in H. intros b Hb.
    apply N.ltb_lt, H, Hb.
  - intros k c m. unfold toy_suite. cbn [open]. intros H. injection H as <-. rewrite Forall_map. apply Forall_forall. intros b _. apply N.mod_lt. discriminate.
  - intros p. unfold toy_suite. cbn [coords fst snd]. split; apply le_bytes_len.
Qed.
(** The hypotheses of the round trip are met by a key and a record with non-zero
    amount, type and blinding; a memo one byte short meets those of the rejection. *)
Example C45_concrete : exists o com m,
  finalize BLS toy_suite (builder BLS toy_suite 12345 (2 ^ 255 + 7) 21%N) (fofN 99) 5%N = Ok o /\
  r_amount BLS toy_suite o = 12345%N /\ r_memo BLS toy_suite o = Some m /\
  NoteModel.from_abar BLS bls_rescue fofN toy_suite com m (mkAkey toy_suite 21%N 7%N) = Ok o.
Proof.
  destruct (C45_memo_round_trip fofN toy_suite toy_suite_ok (mkAkey toy_suite 21%N 7%N) 12345 (2 ^ 255 + 7) (fofN 99) 5%N eq_refl eq_refl eq_refl)
    as [o [com [m [H1 [H2 [_ [_ [_ [H3 [_ [_ H4]]]]]]]]]]].
  exists o, com, m. exact (conj H1 (conj H2 (conj H3 H4))).
Qed.
Example C45_short_memo_concrete : forall com,
  NoteModel.decrypt_memo BLS bls_rescue fofN toy_suite (15%N, repeat 9%N 71) (mkAkey toy_suite 21%N 7%N) com = Err.
Proof.
  intros com. refine (proj1 (C45_wrong_length_rejected fofN toy_suite (mkAkey toy_suite 21%N 7%N) com (15%N, repeat 9%N 71) _ eq_refl _)).
  rewrite map_length. cbn [repeat length snd]. discriminate.
Qed.

(** ** C49 *)
Lemma Forall_nth2 {A B} (R : A * B -> Prop) (l : list A) (l' : list B) : length l = length l' ->
  (Forall R (combine l l') <-> forall i a b, nth_error l i = Some a -> nth_error l' i = Some b -> R (a, b)).
Proof.
  revert l'. induction l as [|x l IH]; intros [|y l'] L; try discriminate.
  - split; [intros _ [|i] a b H; discriminate|intros _; constructor].
  - cbn [combine]. split.
    + intros H. inversion H as [|? ? H1 H2]; subst. intros [|i] a b Ha Hb; cbn in Ha, Hb; [now injection Ha as <-; injection Hb as <-|].
      now apply (proj1 (IH l' ltac:(now injection L)) H2 i).
    + intros H. constructor; [apply (H 0%nat); reflexivity|]. apply IH; [now injection L|]. intros i a b Ha Hb. now apply (H (S i)).
Qed.
Lemma nth_combine {A B} (l : list A) (l' : list B) i a b : nth_error (combine l l') i = Some (a, b) <->
  nth_error l i = Some a /\ nth_error l' i = Some b.
Proof.
  revert l' i. induction l as [|x l IH]; intros l' i.
  - split; [destruct i; discriminate|]. intros [H _]. destruct i; discriminate.
  - destruct l' as [|y l']; [split; [destruct i; discriminate|intros [_ H]; destruct i; discriminate]|].
    destruct i as [|i]; cbn; [|apply IH]. split; [intros H; now injection H as <- <-|intros [H1 H2]; now injection H1 as ->; injection H2 as ->].
Qed.
Lemma Forall_nth {A} (R : A -> Prop) (l : list A) : Forall R l <-> forall i a, nth_error l i = Some a -> R a.
Proof.
  rewrite Forall_forall. split; intros H.
  - intros i a Hi. eapply H, nth_error_In, Hi.
  - intros a Ha. apply In_nth_error in Ha. destruct Ha as [i Hi]. now apply (H i).
Qed.
Lemma bool_feqb (a b : BLS) : negb (feqb a b) = false <-> a = b.
Proof. destruct (feqb_spec a b) as [e|n]; cbn; split; auto; [discriminate|intros H; contradiction]. Qed.
Lemma nth_some {A B} (l : list A) (l' : list B) i a : length l = length l' -> nth_error l i = Some a -> exists b, nth_error l' i = Some b.
Proof.
  intros L H. destruct (nth_error l' i) as [b|] eqn:E; [eauto|]. apply nth_error_None in E.
  assert (nth_error l i <> None) as X by congruence. apply nth_error_Some in X. lia.
Qed.

Section Batch.
Context (E : pgroup) (as_scalar : N -> BLS) {D Fi Pf Vp Sig Memo Cproof : Type}
  (fold_verify : D -> Fi -> res (list BLS)) (plonk : Vp -> list BLS -> Pf -> res unit) (sig_verify : N -> list N -> Sig -> res unit).

(** For vectors of one length, the batch of anonymous transfers is accepted exactly
    when every note verifies with the parameters, root and hash at its position. *)
Theorem C49_transfer_batch_partial :
  forall ps ns roots hs, length ps = length ns -> length roots = length ns -> length hs = length ns ->
  batch_axfr BLS fold_verify plonk ps ns roots hs = Ok tt <->
  (forall i p n root h, nth_error ps i = Some p -> nth_error ns i = Some n -> nth_error roots i = Some root -> nth_error hs i = Some h ->
     verify_axfr BLS fold_verify plonk p n root h = Ok tt).
Proof.
  intros ps ns roots hs L1 L2 L3. unfold batch_axfr. rewrite guard_ok, existsb_false, verdict_ok, Forall_map, Forall_nth2 by exact L2.
  rewrite Forall_nth. unfold verify_axfr, verify_anon_xfr_note. split.
  - intros [H1 H2] i p n root h Hp Hn Hr Hh. pose proof (H1 i root n Hr Hn) as R. cbn [fst snd] in R. apply bool_feqb in R.
    rewrite <- R. destruct (feqb_spec root root) as [_|x]; [|contradiction].
    apply (H2 i (p, n, root, h)). rewrite !nth_combine. auto.
  - intros H. split.
    + intros i root n Hr Hn. cbn [fst snd]. apply bool_feqb.
      destruct (nth_some ns ps i n (eq_sym L1) Hn) as [p Hp]. destruct (nth_some ns hs i n (eq_sym L3) Hn) as [h Hh].
      pose proof (H i p n root h Hp Hn Hr Hh) as X. destruct (feqb_spec root (b_root BLS (an_body BLS n))) as [e|x]; [exact e|discriminate].
    + intros i [[[p n] root] h] Hi. rewrite !nth_combine in Hi. destruct Hi as [[[Hp Hn] Hr] Hh].
      pose proof (H i p n root h Hp Hn Hr Hh) as X. destruct (feqb_spec root (b_root BLS (an_body BLS n))) as [e|x]; [exact X|discriminate].
Qed.

(** The same for notes to transparent records. *)
Theorem C49_unshield_batch_partial :
  forall p (ns : list (unshield_note BLS E (Fi:=Fi) (Pf:=Pf) (Memo:=Memo))) roots hs, length roots = length ns -> length hs = length ns ->
  batch_unshield BLS E as_scalar fold_verify plonk p ns roots hs = Ok tt <->
  (forall i n root h, nth_error ns i = Some n -> nth_error roots i = Some root -> nth_error hs i = Some h ->
     verify_unshield BLS E as_scalar fold_verify plonk p n root h = Ok tt).
Proof.
  intros p ns roots hs L2 L3. unfold batch_unshield. rewrite !guard_ok, !existsb_false, verdict_ok, Forall_map, Forall_nth2 by exact L2.
  rewrite !Forall_nth. unfold verify_unshield. split.
  - intros [H0 [H1 H2]] i n root h Hn Hr Hh. rewrite (H0 i n Hn). pose proof (H1 i root n Hr Hn) as R. cbn [fst snd] in R. apply bool_feqb in R.
    rewrite <- R. destruct (feqb_spec root root) as [_|x]; [|contradiction].
    apply (H2 i (n, root, h)). rewrite !nth_combine. auto.
  - intros H.
    assert (K : forall i n, nth_error ns i = Some n -> exists root h, nth_error roots i = Some root /\ nth_error hs i = Some h /\
      unshield_conf BLS E n = false /\ root = ub_root BLS E (un_body BLS E n) /\ unshield_job BLS E as_scalar fold_verify plonk p (n, root, h) = Ok tt).
    { intros i n Hn. destruct (nth_some ns roots i n (eq_sym L2) Hn) as [root Hr]. destruct (nth_some ns hs i n (eq_sym L3) Hn) as [h Hh].
      exists root, h. split; [exact Hr|]. split; [exact Hh|]. pose proof (H i n root h Hn Hr Hh) as X. apply guard_ok in X. destruct X as [X1 X2].
      split; [exact X1|]. unfold unshield_job. apply bind_ok_iff in X2. destruct X2 as [fi [F1 X2]]. apply bind_ok_iff in X2. destruct X2 as [at_ [U1 X2]].
      destruct (feqb_spec root (ub_root BLS E (un_body BLS E n))) as [e|x]; [|discriminate]. split; [exact e|].
      rewrite F1. cbn [bind]. rewrite U1. exact X2. }
    split; [|split].
    + intros i n Hn. destruct (K i n Hn) as [root [h [_ [_ [C _]]]]]. exact C.
    + intros i root n Hr Hn. cbn [fst snd]. apply bool_feqb. destruct (K i n Hn) as [root' [h [Hr' [_ [_ [R _]]]]]]. congruence.
    + intros i [[n root] h] Hi. rewrite !nth_combine in Hi. destruct Hi as [[Hn Hr] Hh].
      destruct (K i n Hn) as [root' [h' [Hr' [Hh' [_ [_ J]]]]]]. rewrite Hr in Hr'. rewrite Hh in Hh'. injection Hr' as <-. injection Hh' as <-. exact J.
Qed.

(** The same for notes to confidential records, with any [core] check. *)
Theorem C49_to_confidential_batch_partial :
  forall core p (ns : list (conf_note BLS E (Fi:=Fi) (Pf:=Pf) (Memo:=Memo) (Cproof:=Cproof))) roots (hs : list D), length roots = length ns -> length hs = length ns ->
  batch_to_conf BLS E core p ns roots hs = Ok tt <->
  (forall i n root h, nth_error ns i = Some n -> nth_error roots i = Some root -> nth_error hs i = Some h ->
     verify_to_conf BLS E core (p : Vp) n root h = Ok tt).
Proof.
  intros core p ns roots hs L2 L3. unfold batch_to_conf. rewrite !guard_ok, !existsb_false, verdict_ok, Forall_map, Forall_nth2 by exact L2.
  rewrite !Forall_nth. unfold verify_to_conf. split.
  - intros [H1 [H0 H2]] i n root h Hn Hr Hh. rewrite (H0 i n Hn). pose proof (H1 i root n Hr Hn) as R. cbn [fst snd] in R. apply bool_feqb in R.
    rewrite <- R. destruct (feqb_spec root root) as [_|x]; [|contradiction].
    apply (H2 i (n, root, h)). rewrite !nth_combine. auto.
  - intros H.
    assert (K : forall i n root h, nth_error ns i = Some n -> nth_error roots i = Some root -> nth_error hs i = Some h ->
      root = cb_root BLS E (cn_body BLS E n) /\ is_transparent E (cb_out BLS E (cn_body BLS E n)) = false /\ core p n root h = Ok tt).
    { intros i n root h Hn Hr Hh. pose proof (H i n root h Hn Hr Hh) as X.
      destruct (feqb_spec root (cb_root BLS E (cn_body BLS E n))) as [e|x]; [|discriminate]. apply guard_ok in X. tauto. }
    split; [|split].
    + intros i root n Hr Hn. cbn [fst snd]. apply bool_feqb. destruct (nth_some ns hs i n (eq_sym L3) Hn) as [h Hh]. eapply K; eassumption.
    + intros i n Hn. destruct (nth_some ns roots i n (eq_sym L2) Hn) as [root Hr]. destruct (nth_some ns hs i n (eq_sym L3) Hn) as [h Hh]. eapply K; eassumption.
    + intros i [[n root] h] Hi. rewrite !nth_combine in Hi. destruct Hi as [[Hn Hr] Hh]. eapply K; eassumption.
Qed.

(** The same for notes from confidential records. *)
Theorem C49_from_confidential_batch_partial :
  forall core ser p (ns : list (from_note BLS E (Pf:=Pf) (Sig:=Sig) (Memo:=Memo) (Cproof:=Cproof))) pks, length pks = length ns ->
  batch_from_conf BLS E sig_verify core ser p ns pks = Ok tt <->
  (forall i n pk, nth_error ns i = Some n -> nth_error pks i = Some pk ->
     verify_from_conf BLS E sig_verify core ser (p : Vp) n pk = Ok tt).
Proof.
  intros core ser p ns pks L. unfold batch_from_conf. rewrite verdict_ok, Forall_map, Forall_nth2 by (symmetry; exact L). reflexivity.
Qed.

(** Batches of notes from transparent records have a single vector: exact. *)
Theorem C49_shield_batch :
  forall ser p (ns : list (shield_note BLS E (Pf:=Pf) (Sig:=Sig) (Memo:=Memo))),
  batch_shield BLS E as_scalar plonk sig_verify ser p ns = Ok tt <->
  (forall n, In n ns -> verify_shield BLS E as_scalar plonk sig_verify ser (p : Vp) n = Ok tt).
Proof. intros ser p ns. unfold batch_shield. rewrite verdict_ok, Forall_map, Forall_forall. reflexivity. Qed.

(** C49 is false as stated: lengths are not compared and the shortest vector
    decides how many notes are looked at.  Any notes at all are accepted together
    with empty vectors of roots, hashes or keys (for notes to transparent or
    confidential records: any with outputs of the right kind). *)
Theorem C49_short_vectors_accept_anything_refuted :
  (forall ps ns hs, batch_axfr BLS fold_verify plonk ps ns [] hs = Ok tt) /\
  (forall p (ns : list (unshield_note BLS E (Fi:=Fi) (Pf:=Pf) (Memo:=Memo))) hs, forallb (fun n => negb (unshield_conf BLS E n)) ns = true ->
     batch_unshield BLS E as_scalar fold_verify plonk p ns [] hs = Ok tt) /\
  (forall core (p : Vp) (ns : list (conf_note BLS E (Fi:=Fi) (Pf:=Pf) (Memo:=Memo) (Cproof:=Cproof))) (hs : list D),
     forallb (fun n => negb (is_transparent E (cb_out BLS E (cn_body BLS E n)))) ns = true ->
     batch_to_conf BLS E core p ns [] hs = Ok tt) /\
  (forall core ser (p : Vp) (ns : list (from_note BLS E (Pf:=Pf) (Sig:=Sig) (Memo:=Memo) (Cproof:=Cproof))),
     batch_from_conf BLS E sig_verify core ser p ns [] = Ok tt).
Proof.
  assert (C : forall A B (l : list A), combine l (@nil B) = []) by (intros A B [|a l]; reflexivity).
  assert (X : forall A (f : A -> bool) l, forallb (fun n => negb (f n)) l = true -> existsb f l = false).
  { intros A f l H. apply existsb_false. rewrite forallb_forall in H. apply Forall_forall. intros a Ha. specialize (H a Ha). now destruct (f a). }
  split; [|split; [|split]].
  - intros. unfold batch_axfr. rewrite C. reflexivity.
  - intros p ns hs H. unfold batch_unshield. rewrite (X _ _ _ H), C. reflexivity.
  - intros core p ns hs H. unfold batch_to_conf. cbn [combine existsb]. rewrite (X _ _ _ H), C. reflexivity.
  - intros. unfold batch_from_conf. rewrite C. reflexivity.
Qed.
(** In particular a note that fails on its own passes in a batch. *)
Theorem C49_bad_note_in_batch_refuted :
  forall p n root h, verify_axfr BLS fold_verify plonk p n root h <> Ok tt ->
  exists ps ns roots hs, In n ns /\ batch_axfr BLS fold_verify plonk ps ns roots hs = Ok tt.
Proof.
  intros p n root h _. exists [p], [n], [], [h]. split; [now left|]. apply C49_short_vectors_accept_anything_refuted.
Qed.
End Batch.
Print Assumptions C49_transfer_batch_partial.
Print Assumptions C49_unshield_batch_partial.
Print Assumptions C49_to_confidential_batch_partial.
Print Assumptions C49_from_confidential_batch_partial.
Print Assumptions C49_shield_batch.
Print Assumptions C49_short_vectors_accept_anything_refuted.
Print Assumptions C49_bad_note_in_batch_refuted.
(** Two notes, one of which is refused, are refused together but accepted when the
    list of roots has only the first. *)
Example C49_concrete :
  let note pf := mkAn BLS (mkBody BLS [] [] 0 0 0 []) pf tt in
  let fv (_ _ : unit) := Ok (@nil BLS) in
  let pl (_ : unit) (_ : list BLS) (pf : bool) := if pf then Ok tt else Err in
  batch_axfr BLS fv pl [tt; tt] [note true; note false] [0; 0] [tt; tt] = Err /\
  batch_axfr BLS fv pl [tt; tt] [note true; note true] [0; 0] [tt; tt] = Ok tt /\
  batch_axfr BLS fv pl [tt; tt] [note true; note false] [0] [tt; tt] = Ok tt.
Proof. repeat split. Qed.

(** ** C56 *)
(** A proof system for circuit [c]: accepted proofs come with an assignment
    satisfying it, with the given public inputs and variable 0 at zero. *)
Definition extractable {Pf} (c : tcs BLS) (plonk : list BLS -> Pf -> res unit) : Prop :=
  forall pi pf, plonk pi pf = Ok tt -> exists w, sat c w /\ w 0%nat = 0 /\ pub_values w c = pi.
Notation shield_circuit q := (snd (shield_cs BLS bls_rescue gadget_alpha_inv q (cs_new BLS))).
Notation unshield_circuit folding p k := (snd (unshield_cs BLS bls_rescue gadget_alpha_inv folding p k (cs_new BLS))).

Section Pool.
Context (E : pgroup) (as_scalar : N -> BLS) {D Fi Pf Vp Sig Memo : Type}
  (fold_verify : D -> Fi -> res (list BLS)) (plonk : Vp -> list BLS -> Pf -> res unit) (sig_verify : N -> list N -> Sig -> res unit).

(** A shielding note is accepted exactly when its input is transparent, its owner's
    signature on the serialization of the whole body verifies, and the proof
    verifies for the amount and type of that input and the output commitment. *)
Theorem C56_shield_accepts_exactly :
  forall ser p (n : shield_note BLS E (Pf:=Pf) (Sig:=Sig) (Memo:=Memo)),
  verify_shield BLS E as_scalar plonk sig_verify ser (p : Vp) n = Ok tt <->
  exists amount ty owner msg,
    sb_in BLS E (sn_body BLS E n) = mkBar (APlain amount) (TPlain ty) owner /\
    ser (sn_body BLS E n) = Ok msg /\ sig_verify owner msg (sn_sig BLS E n) = Ok tt /\
    plonk p [fofN amount; as_scalar ty; sb_out BLS E (sn_body BLS E n)] (sb_proof BLS E (sn_body BLS E n)) = Ok tt.
Proof.
  intros ser p n. unfold verify_shield, verify_shield_body. split.
  - intros H. apply bind_ok_iff in H. destruct H as [msg [Hm H]]. apply bind_ok_iff in H. destruct H as [[] [Hs H]].
    apply guard_ok in H. destruct H as [_ H]. apply bind_ok_iff in H. destruct H as [[a t] [Hu H]].
    destruct (sb_in BLS E (sn_body BLS E n)) as [am ty pk]. unfold unwrap_plain in Hu. cbn [b_amount b_type b_pk] in *.
    destruct am as [lo hi|am]; [discriminate|]. destruct ty as [ct|ty]; [discriminate|]. cbn in Hu. injection Hu as <- <-.
    exists am, ty, pk, msg. auto.
  - intros [a [t [o [msg [E1 [E2 [E3 E4]]]]]]]. rewrite E2. cbn [bind]. rewrite E1. cbn [b_pk]. rewrite E3. cbn [bind]. exact E4.
Qed.

(** A hidden amount or type is refused with an error by both verifiers; the
    verifier never panics on it. *)
Theorem C56_hidden_records_are_refused :
  (forall ser p (n : shield_note BLS E (Pf:=Pf) (Sig:=Sig) (Memo:=Memo)) msg,
   (forall a t o, sb_in BLS E (sn_body BLS E n) <> mkBar (APlain a) (TPlain t) o) ->
   ser (sn_body BLS E n) = Ok msg -> sig_verify (b_pk (sb_in BLS E (sn_body BLS E n))) msg (sn_sig BLS E n) = Ok tt ->
   verify_shield BLS E as_scalar plonk sig_verify ser (p : Vp) n = Err) /\
  (forall p (n : unshield_note BLS E (Fi:=Fi) (Pf:=Pf) (Memo:=Memo)) root h,
   (forall a t o, ub_out BLS E (un_body BLS E n) <> mkBar (APlain a) (TPlain t) o) ->
   verify_unshield BLS E as_scalar fold_verify plonk p n root h = Err).
Proof.
  split.
  - intros ser p n msg H E1 E2. unfold verify_shield, verify_shield_body. rewrite E1. cbn [bind]. rewrite E2. cbn [bind].
    destruct (sb_in BLS E (sn_body BLS E n)) as [[lo hi|a] [ct|t] o]; try reflexivity. now destruct (H a t o).
  - intros p n root h H. unfold verify_unshield, unshield_conf.
    destruct (ub_out BLS E (un_body BLS E n)) as [[lo hi|a] [ct|t] o]; try reflexivity. now destruct (H a t o).
Qed.

(** An unshielding note is accepted exactly when its output is transparent, its
    root is the given one, the folding proof verifies, and the proof verifies for
    the nullifier, that root, and the amount and type of the output. *)
Theorem C56_unshield_accepts_exactly :
  forall p (n : unshield_note BLS E (Fi:=Fi) (Pf:=Pf) (Memo:=Memo)) root h,
  verify_unshield BLS E as_scalar fold_verify plonk p n root h = Ok tt <->
  exists amount ty owner fi,
    ub_out BLS E (un_body BLS E n) = mkBar (APlain amount) (TPlain ty) owner /\
    ub_root BLS E (un_body BLS E n) = root /\ fold_verify h (un_fold BLS E n) = Ok fi /\
    plonk p ([ub_in BLS E (un_body BLS E n); root; fofN amount; as_scalar ty] ++ fi) (un_proof BLS E n) = Ok tt.
Proof.
  intros p n root h. unfold verify_unshield. split.
  - intros H. apply guard_ok in H. destruct H as [_ H]. apply bind_ok_iff in H. destruct H as [fi [Hf H]].
    apply bind_ok_iff in H. destruct H as [[a t] [Hu H]]. destruct (feqb_spec root (ub_root BLS E (un_body BLS E n))) as [e|x]; [|discriminate].
    destruct (ub_out BLS E (un_body BLS E n)) as [am ty pk]. unfold unwrap_plain in Hu. cbn [b_amount b_type] in *.
    destruct am as [lo hi|am]; [discriminate|]. destruct ty as [ct|ty]; [discriminate|]. cbn in Hu. injection Hu as <- <-.
    exists am, ty, pk, fi. auto.
  - intros [a [t [o [fi [E1 [E2 [E3 E4]]]]]]]. unfold unshield_conf. rewrite E1. cbn [amount_conf type_conf b_amount b_type orb].
    rewrite E3. cbn [bind]. unfold unwrap_plain. cbn [b_amount b_type get_amount get_asset_type bind fst snd]. rewrite E2.
    destruct (feqb_spec root root) as [_|x]; [exact E4|contradiction].
Qed.

(** The commitment a shielding note creates holds the transparent amount and type
    (partial: the proof system must fix variable 0 at zero). *)
Theorem C56_shield_creates_what_it_consumes_partial :
  forall ser p q (n : shield_note BLS E (Pf:=Pf) (Sig:=Sig) (Memo:=Memo)),
  extractable (shield_circuit q) (plonk p) ->
  verify_shield BLS E as_scalar plonk sig_verify ser p n = Ok tt ->
  exists amount ty owner pk blind,
    sb_in BLS E (sn_body BLS E n) = mkBar (APlain amount) (TPlain ty) owner /\
    sb_out BLS E (sn_body BLS E n) = AxfrModel.commit BLS bls_rescue as_scalar pk blind amount ty.
Proof.
  intros ser p q n HE H. apply C56_shield_accepts_exactly in H. destruct H as [a [t [o [msg [E1 [_ [_ E4]]]]]]].
  destruct (HE _ _ E4) as [w [Hs [Z V]]].
  destruct (shield_sound BLS bls_rescue bls_rescue_ok gadget_alpha_inv gadget_exp_inv q (cs_new BLS)) as [_ [_ S]]; [cbn; lia|].
  destruct (S w Hs) as [_ [vs [V1 V2]]]. destruct (V2 Z) as [a' [t' [b' [pk' EV]]]].
  rewrite V1 in V. cbn [pub_values gates cs_new grev rev flat_map app] in V. rewrite EV in V. injection V as Va Vt Vc.
  exists a, t, o, pk', b'. split; [exact E1|]. rewrite commit_commitment. change (a' = @fofN BLS a) in Va. rewrite <- Va, <- Vt. exact (eq_sym Vc).
Qed.
(** An unshielding note spends a record of the same amount and type that is in the
    tree of the given root, and publishes that record's nullifier (same proviso;
    the keys satisfy whatever the folding gadget enforces). *)
Theorem C56_unshield_spends_what_it_creates_partial :
  forall (folding : pk_v -> sk_v -> CS BLS unit) Rf pw k0,
  (forall pk sk, soundp BLS (folding pk sk) (fun _ => True) (fun w _ vs => Rf w pk sk vs)) ->
  forall p (n : unshield_note BLS E (Fi:=Fi) (Pf:=Pf) (Memo:=Memo)) root h,
  extractable (unshield_circuit folding pw k0) (plonk p) ->
  verify_unshield BLS E as_scalar fold_verify plonk p n root h = Ok tt ->
  exists amount ty owner fi w s pkv skv, let pk := vpk BLS w pkv in let sk := vsk BLS w skv in
    ub_out BLS E (un_body BLS E n) = mkBar (APlain amount) (TPlain ty) owner /\
    ub_root BLS E (un_body BLS E n) = root /\
    sp_amount s = fofN amount /\ sp_type s = as_scalar ty /\ length (sp_path s) = length (p_path BLS pw) /\
    in_tree BLS Hash pk root s /\ ub_in BLS E (un_body BLS E n) = nullifier BLS Hash pk sk s /\
    fold_verify h (un_fold BLS E n) = Ok fi /\ Rf w pkv skv fi.
Proof.
  intros folding Rf pw k0 Hf p n root h HE H. apply C56_unshield_accepts_exactly in H. destruct H as [a [t [o [fi [E1 [E2 [E3 E4]]]]]]].
  destruct (HE _ _ E4) as [w [Hs [Z V]]].
  destruct (unshield_sound BLS bls_rescue bls_rescue_ok gadget_alpha_inv gadget_exp_inv bls_big folding Rf Hf pw k0 (cs_new BLS)) as [_ [_ S]]; [cbn; lia|].
  destruct (S w Hs) as [_ [vs [V1 V2]]]. destruct (V2 Z) as [s [r' [pkv [skv [fv [L [EV [HT HR]]]]]]]].
  rewrite V1 in V. cbn [pub_values gates cs_new grev rev flat_map app] in V. rewrite EV in V. cbn [app] in V. injection V as Vn Vr Va Vt Vf.
  exists a, t, o, fi, w, s, pkv, skv. cbv zeta. split; [exact E1|]. split; [exact E2|]. split; [exact Va|]. split; [exact Vt|].
  split; [exact L|]. split; [rewrite <- Vr; exact HT|]. split; [exact (eq_sym Vn)|]. split; [exact E3|]. rewrite <- Vf. exact HR.
Qed.

(** Honest notes can be proved: the assignment computed by the builder satisfies the
    circuit, with the public inputs the verifier uses. *)
Theorem C56_honest_shield_is_provable :
  forall pk blind amount ty owner,
  let c := shield_circuit (mkPayee BLS amount blind (as_scalar ty) pk) in
  sat c (val c) /\ val c 0%nat = 0 /\
  forall ser p (sg : Sig) (m : Memo) pf msg,
  let body := mkSb BLS E (mkBar (APlain amount) (TPlain ty) owner) (AxfrModel.commit BLS bls_rescue as_scalar pk blind amount ty) pf m in
  ser body = Ok msg -> sig_verify owner msg sg = Ok tt -> plonk p (pub_values (val c) c) pf = Ok tt ->
  verify_shield BLS E as_scalar plonk sig_verify ser (p : Vp) (mkSn BLS E body sg) = Ok tt.
Proof.
  intros pk blind amount ty owner c.
  destruct (shield_complete BLS bls_rescue bls_rescue_ok gadget_alpha_inv gadget_exp_inv (mkPayee BLS amount blind (as_scalar ty) pk))
    as [I1 [_ [vs [V1 V2]]]]. pose proof I1 as [_ [_ [[C0 C1] [_ S1]]]].
  split; [exact S1|]. split; [exact C0|].
  intros ser p sg m pf msg body Hser Hsig Hpl. apply C56_shield_accepts_exactly. exists amount, ty, owner, msg.
  split; [exact eq_refl|]. split; [exact Hser|]. split; [exact Hsig|].
  unfold c in Hpl. rewrite V1, V2 in Hpl. cbn [pub_values gates cs_new grev rev flat_map app q_amount q_type q_pk q_blind] in Hpl.
  unfold body. cbn [sn_body sb_out sb_proof]. rewrite commit_commitment. exact Hpl.
Qed.
Lemma unshield_run :
  forall folding k o owner body pw, adds_gates folding -> folding_complete folding k ->
  init_unshield BLS E as_scalar (Memo:=Memo) bls_rescue o k owner = Ok (body, pw) ->
  genuine BLS bls_rescue as_scalar o ->
  let c := unshield_circuit folding pw k in
  Inv c /\ exists fv, (forall V, publishes BLS folding k V -> fv = V) /\ forall p pf fi h, fold_verify h fi = Ok fv -> plonk p (pub_values (val c) c) pf = Ok tt ->
  verify_unshield BLS E as_scalar fold_verify plonk (p : Vp) (mkUn BLS E body pf fi) (ub_root BLS E body) h = Ok tt.
Proof.
  intros folding k o owner body pw Ef Hf HI [Ha [i [Hl [Hfl Hroot]]]] c. unfold init_unshield in HI. rewrite Hl in HI.
  destruct (pk_eqb BLS (kp_pk BLS k) (AxfrModel.o_pk BLS o)) eqn:Ek; [|discriminate]. apply Ok_inj in HI. injection HI as Eb Ep.
  assert (Epk : kp_pk BLS k = AxfrModel.o_pk BLS o).
  { destruct (kp_pk BLS k) as [[a b] x], (AxfrModel.o_pk BLS o) as [[a' b'] x']. unfold pk_eqb in Ek.
    destruct (feqb_spec a a') as [->|]; [|discriminate]. destruct (feqb_spec b b') as [->|]; [|discriminate].
    destruct (feqb_spec x x') as [->|]; [exact eq_refl|discriminate]. }
  assert (OK : payer_ok BLS pw) by (rewrite <- Ep; split; [exact Hfl|exact Ha]).
  assert (HT : in_tree BLS Hash (kp_pk BLS k) (l_root BLS i) (spend_val BLS pw)).
  { unfold in_tree. rewrite <- Hroot, Epk, <- Ep. exact eq_refl. }
  destruct (unshield_complete BLS bls_rescue bls_rescue_ok gadget_alpha_inv gadget_exp_inv folding k Ef
    (folding_complete_ha folding k Hf) pw (l_root BLS i) OK HT) as [I1 [_ [vs [V1 [fv [V2 FV]]]]]].
  split; [exact I1|]. exists fv. split; [exact FV|].
  intros p pf fi h Hfi Hpl. apply C56_unshield_accepts_exactly. exists (AxfrModel.o_amount BLS o), (AxfrModel.o_type BLS o), owner, fv.
  unfold c in Hpl. rewrite V1, V2 in Hpl. cbn [pub_values gates cs_new grev rev flat_map app] in Hpl.
  rewrite <- Eb. cbn [un_body un_fold un_proof ub_out ub_root ub_in]. split; [exact eq_refl|]. split; [exact eq_refl|]. split; [exact Hfi|].
  rewrite <- Ep in Hpl. cbn [p_amount p_type] in Hpl. cbn [app].
  rewrite <- nullify_nullifier in Hpl. exact Hpl.
Qed.
Theorem C56_honest_unshield_is_provable :
  forall folding k o owner body pw, adds_gates folding -> folding_complete folding k ->
  init_unshield BLS E as_scalar (Memo:=Memo) bls_rescue o k owner = Ok (body, pw) ->
  genuine BLS bls_rescue as_scalar o ->
  let c := unshield_circuit folding pw k in
  sat c (val c) /\ val c 0%nat = 0 /\
  exists fv, (forall V, publishes BLS folding k V -> fv = V) /\ forall p pf fi h, fold_verify h fi = Ok fv -> plonk p (pub_values (val c) c) pf = Ok tt ->
  verify_unshield BLS E as_scalar fold_verify plonk (p : Vp) (mkUn BLS E body pf fi) (ub_root BLS E body) h = Ok tt.
Proof.
  intros folding k o owner body pw Ef Hf HI HG c. destruct (unshield_run folding k o owner body pw Ef Hf HI HG) as [[_ [_ [[C0 _] [_ S1]]]] R].
  split; [exact S1|]. split; [exact C0|]. exact R.
Qed.

(** The owner of the transparent output is not bound by the note itself: an accepted
    note stays accepted, under the same caller-supplied hash, with any other owner,
    memo and root version.  Only the hash can bind them. *)
Theorem C56_unshield_owner_unbound_refuted :
  forall p (n : unshield_note BLS E (Fi:=Fi) (Pf:=Pf) (Memo:=Memo)) root h,
  verify_unshield BLS E as_scalar fold_verify plonk (p : Vp) n root h = Ok tt ->
  forall owner version (memo : option Memo), let b := un_body BLS E n in
  verify_unshield BLS E as_scalar fold_verify plonk p
    (mkUn BLS E (mkUb BLS E (ub_in BLS E b) (mkBar (b_amount (ub_out BLS E b)) (b_type (ub_out BLS E b)) owner) (ub_root BLS E b) version memo)
       (un_proof BLS E n) (un_fold BLS E n)) root h = Ok tt.
Proof. intros p n root h H owner version memo. exact H. Qed.
End Pool.
Print Assumptions C56_shield_accepts_exactly.
Print Assumptions C56_unshield_accepts_exactly.
Print Assumptions C56_shield_creates_what_it_consumes_partial.
Print Assumptions C56_unshield_spends_what_it_creates_partial.
Print Assumptions C56_honest_shield_is_provable.
Print Assumptions C56_honest_unshield_is_provable.
Print Assumptions C56_unshield_owner_unbound_refuted.
Print Assumptions C45_finalize_once.
Print Assumptions C45_build_requirements.
Print Assumptions C56_hidden_records_are_refused.

(** A proof system accepting exactly the satisfying assignments (the assignment is
    the proof) meets [extractable]; with it an honest shielding note is accepted and
    so meets the hypotheses of the theorems on accepted notes. *)
Definition assignment_ok (c : tcs BLS) (pi : list BLS) (w : nat -> BLS) : Prop := sat c w /\ w 0%nat = 0 /\ pub_values w c = pi.
Example C56_shield_concrete : forall pk blind (owner : N) (E : pgroup),
  let q := mkPayee BLS 1000 blind (fofN 77) pk in
  exists w, assignment_ok (shield_circuit q) [fofN 1000; fofN 77; AxfrModel.commit BLS bls_rescue fofN pk blind 1000 77] w /\
  forall plonk : unit -> list BLS -> (nat -> BLS) -> res unit,
  (forall pi x, plonk tt pi x = Ok tt <-> assignment_ok (shield_circuit q) pi x) ->
  extractable (shield_circuit q) (plonk tt) /\
  verify_shield BLS E fofN plonk (fun _ _ _ => Ok tt) (fun _ => Ok []) tt
    (mkSn BLS E (mkSb BLS E (mkBar (APlain 1000%N) (TPlain 77%N) owner) (AxfrModel.commit BLS bls_rescue fofN pk blind 1000 77) w tt) tt) = Ok tt.
Proof.
  intros pk blind owner E q. set (c := shield_circuit q). exists (val c).
  destruct (shield_complete BLS bls_rescue bls_rescue_ok gadget_alpha_inv gadget_exp_inv q)
    as [I1 [_ [vs [V1 V2]]]]. pose proof I1 as [_ [_ [[C0 C1] [_ S1]]]].
  assert (A : assignment_ok c [fofN 1000; fofN 77; AxfrModel.commit BLS bls_rescue fofN pk blind 1000 77] (val c)).
  { split; [exact S1|]. split; [exact C0|]. unfold c. rewrite V1, V2, commit_commitment. exact eq_refl. }
  split; [exact A|]. intros plonk HP. split; [intros pi pf H; exists pf; exact (proj1 (HP pi pf) H)|].
  apply C56_shield_accepts_exactly. exists 1000%N, 77%N, owner, []. split; [exact eq_refl|]. split; [exact eq_refl|]. split; [exact eq_refl|].
  apply HP. exact A.
Qed.
