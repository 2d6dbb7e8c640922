(** Property theorems for the records behind the circuits of the anonymous notes (C72):
    they are values of fixed variables, so an extractor for the proof system turns a ledger
    of accepted notes into one explicit history. *)
From Coq Require Import List ZArith NArith Bool Lia ZifyBool ZifyNat ZifyN.
From Verif Require Import Base Field PField UtilsModel UtilsProps Power TurboModel TurboSpec TurboProofs TurboLemmas TurboHonest TurboKit TurboEmit
  RescueModel RescueSpec RescueProofs RescueLemmas XfrModel XfrSpec MixModel MixSpec MixProofs MixLemmas
  AxfrModel AxfrSpec AxfrProofs AxfrHonest AxfrLemmas AxfrProps FoldModel FoldLemmas SimModel SecpPrime NoteModel
  NoteProofs AfoldModel AfoldSpec AfoldHonest AfoldRun AfoldWhole AfoldBind AfoldProps NoteProps SetupModel ShapeProofs ShapeFold ShapeProps
  MerkleSpec HistSpec HistProofs HistProps HistNoteSpec HistNoteProps WireSpec WireProofs.
Import ListNotations.
Local Open Scope F_scope.

(** ** Circuits of the parameters *)
(** C72 (partial: constant zero in variable 0): an assignment satisfying the circuit for
    shielding has the record in variables 2 to 7, and publishes its amount, its type and
    its commitment. *)
Theorem C72_shield_partial : forall pk (w : nat -> BLS), sat (setup_shield pk) w -> w 0%nat = 0 ->
  pub_values w (setup_shield pk) = [w 2%nat; w 3%nat; commitment BLS Hash (key_at w 5) (w 4%nat) (w 2%nat) (w 3%nat)].
Proof.
  intros pk w S W0. unfold shield_params_cs in *. rewrite pad_sat in S. rewrite pad_pub.
  exact (shield_wires BLS bls_rescue bls_rescue_ok gadget_alpha_inv gadget_exp_inv _ w S W0).
Qed.
Print Assumptions C72_shield_partial.
(** C72 (same restriction): an assignment satisfying the circuit for unshielding from trees
    of depth [d] has the spent record and the keys of its owner in fixed variables; it
    publishes their nullifier, the root of a tree that has the record, and the amount and
    type; and what the inspector learns is about these keys. *)
Theorem C72_unshield_partial : forall x y d kd (w : nat -> BLS), sat (setup_unshield x y d kd) w -> w 0%nat = 0 ->
  let s := spend_at w 2 d in let pk := key_at w (outputs_base [d]) in let sk := secret_at w (outputs_base [d] + 3) in
  exists root fv,
    pub_values w (setup_unshield x y d kd) = [nullifier BLS Hash pk sk s; root; sp_amount s; sp_type s] ++ fv /\
    in_tree BLS Hash pk root s /\
    forall comm resp beta lambda, verifier_input comm resp beta lambda = Ok fv -> fold_stmt pk sk comm resp beta lambda.
Proof.
  intros x y d kd w S W0. unfold unshield_params_cs in *. rewrite pad_sat in S. rewrite pad_pub.
  pose proof (unshield_wires BLS bls_rescue bls_rescue_ok gadget_alpha_inv gadget_exp_inv bls_big (fold_gadget (default_fw x y)) _
    (fun pk sk => folding_soundp BLS SecpQ bls_254s bls_rescue bls_rescue_ok gadget_alpha_inv gadget_exp_inv secp_pchar (default_fw x y) pk sk (default_builds x y))
    (fake_payer BLS d) kd w S W0) as R.
  assert (L : length (p_path BLS (fake_payer BLS d)) = d) by apply repeat_length.
  rewrite L in R. destruct R as (root & fv & R1 & R2 & R3). exists root, fv. split; [exact R1|]. split; [exact R2|exact (R3 W0)].
Qed.
Print Assumptions C72_unshield_partial.
(** C72 (partial: constants in variables 0 and 1): an assignment satisfying the circuit for
    transfers has the spent records, the created records and the owner's keys in fixed
    variables, and publishes the transfer they describe. *)
Theorem C72_transfer_partial :
  forall x y n m depth k ft cp (w : nat -> BLS), setup_xfr x y n m depth k ft = Ok cp ->
  (Z.of_nat n <= 2 ^ 100)%Z -> (Z.of_nat m <= 2 ^ 100)%Z ->
  sat cp w -> w 0%nat = 0 -> w 1%nat = 1 ->
  let ds := repeat depth n in let ins := spends_at w 2 ds in let outs := outputs_at w (outputs_base ds) m in
  let pk := key_at w (owner_base ds m) in let sk := secret_at w (owner_base ds m + 3) in
  exists root fee fv,
    pub_values w cp = public BLS Hash pk sk root ins outs fee ++ fv /\
    well_formed BLS Hash pk root ins outs /\
    (u64f fee -> conserves BLS ft ins outs fee) /\
    forall comm resp beta lambda, verifier_input comm resp beta lambda = Ok fv -> fold_stmt pk sk comm resp beta lambda.
Proof.
  intros x y n m depth k ft cp w HC L1 L2 Hs W0 W1.
  unfold xfr_params_cs, build_multi_xfr_cs in HC. destruct n as [|n]; [discriminate|]. destruct m as [|m]; [discriminate|].
  cbn [repeat] in HC. apply Ok_inj in HC. subst cp. rewrite pad_sat in Hs. rewrite pad_pub.
  assert (B : forall q, (Z.of_nat q <= 2 ^ 100)%Z -> (Z.of_nat q * 2 ^ 64 < pchar BLS)%Z /\ ((Z.of_nat q + 1) * 2 ^ 64 < pchar BLS)%Z).
  { intros q Lq. rewrite bls_pchar. split; (apply Z.le_lt_trans with ((2 ^ 100 + 1) * 2 ^ 64)%Z; [nia|reflexivity]). }
  pose proof (fun A C D => transfer_wires BLS bls_rescue bls_rescue_ok gadget_alpha_inv gadget_exp_inv bls_big (fold_gadget (default_fw x y)) _
    (fun pk sk => folding_soundp BLS SecpQ bls_254s bls_rescue bls_rescue_ok gadget_alpha_inv gadget_exp_inv secp_pchar (default_fw x y) pk sk (default_builds x y))
    _ _ k _ ft w A C D Hs W0 W1) as R.
  cbv zeta in R. cbn [length] in R. rewrite !repeat_length in R.
  assert (Ed : map (fun p => length (p_path BLS p)) (fake_payer BLS depth :: repeat (fake_payer BLS depth) n) = repeat depth (S n)).
  { cbn [map repeat p_path fake_payer]. rewrite repeat_length. f_equal. clear. induction n as [|n IH]; [reflexivity|]. cbn [repeat map p_path fake_payer]. now rewrite repeat_length, IH. }
  rewrite Ed in R. destruct R as (root & fee & fv & R1 & R2 & R3 & R4); [discriminate|apply B, L1|apply B, L2|].
  exists root, fee, fv. split; [exact R1|]. split; [exact R3|]. split; [exact R4|exact (R2 W0)].
Qed.
Print Assumptions C72_transfer_partial.

(** ** Ledgers *)
Lemma small_word n : (n < 2 ^ 64)%N -> toZ (@fofN BLS n) = Z.of_N n.
Proof.
  intros L. unfold fofN. apply toZ_small. split; [lia|]. assert (2 ^ 64 < pchar BLS)%Z by (vm_compute; reflexivity).
  change (2 ^ 64)%N with 18446744073709551616%N in L. lia.
Qed.
Section Ledger.
Context (E : pgroup) (as_scalar : N -> BLS) {D Fi Pf Vp Sig Memo : Type}
  (fold_verify : D -> Fi -> res (list BLS)) (plonk : Vp -> list BLS -> Pf -> res unit) (sig_verify : N -> list N -> Sig -> res unit)
  (ser : shield_body BLS E (Pf:=Pf) (Memo:=Memo) -> res (list N)) (ft : BLS) (ps pu : Vp) (px : nat -> nat -> option Vp)
  (es eu : list BLS -> Pf -> nat -> BLS) (ex : nat -> nat -> list BLS -> Pf -> nat -> BLS).
Notation note := (note BLS E (D:=D) (Fi:=Fi) (Pf:=Pf) (Sig:=Sig) (Memo:=Memo)).
Notation accepted := (accepted BLS E as_scalar fold_verify plonk sig_verify ser ps pu px).
Notation shows := (shows BLS E as_scalar (D:=D) (Fi:=Fi) (Pf:=Pf) (Sig:=Sig) (Memo:=Memo) Hash).
Notation ledger_ok := (ledger_ok BLS E (D:=D) (Fi:=Fi) (Pf:=Pf) (Sig:=Sig) (Memo:=Memo) Hash).
Notation event_in := (event_in BLS E as_scalar (Sig:=Sig) (Memo:=Memo) fold_verify es eu ex).

(** The parameters belong to the circuits of setup.rs for trees of depth 20, and the
    extractors find assignments that satisfy them, with the constants in variables 0 and 1. *)
Definition extractors : Prop :=
  (exists pk, knows (setup_shield pk) (plonk ps) es) /\
  (exists x y kd, knows (setup_unshield x y 20 kd) (plonk pu) eu) /\
  (forall n m p, px n m = Some p -> (Z.of_nat n <= 2 ^ 100)%Z /\ (Z.of_nat m <= 2 ^ 100)%Z /\
     exists x y k cp, setup_xfr x y n m 20 k ft = Ok cp /\ knows cp (plonk p) (ex n m)).

Lemma cons_inj {A} (a b : A) l l' : a :: l = b :: l' -> a = b /\ l = l'.
Proof. intros H. now injection H. Qed.
Lemma spends_at_length (w : nat -> BLS) ds : forall b, map (fun s => length (sp_path s)) (spends_at w b ds) = ds.
Proof.
  induction ds as [|d ds IH]; intros b; [reflexivity|]. cbn [spends_at map]. rewrite IH. f_equal.
  unfold spend_at. cbn [sp_path]. now rewrite map_length, seq_length.
Qed.
Lemma outputs_at_length (w : nat -> BLS) b n : length (outputs_at w b n) = n.
Proof. unfold outputs_at. now rewrite map_length, seq_length. Qed.

(** C72: the event read off the assignment found in an accepted note is sound and agrees
    with everything the note publishes. *)
Theorem C72_accepted_note_partial : extractors -> forall x, accepted x -> word_sized BLS E x ->
  shows x (event_in x) /\ sound_event BLS Hash ft (event_in x) /\
  forall pk sk r s, In (pk, sk, r, s) (takes (event_in x)) -> length (sp_path s) = 20%nat.
Proof.
  intros ([pks HS] & [x0 [y0 [kd HU]]] & HX) x A W. destruct x as [n|n root h|n root h]; cbn [HistNoteSpec.accepted word_sized] in A, W; unfold event_in, WireSpec.event_in, assignment.
  - apply C56_shield_accepts_exactly in A. destruct A as (a & t & o & msg & E1 & _ & _ & A).
    unfold HistNoteSpec.shows, plain in *. rewrite E1 in *. cbn [XfrModel.b_amount XfrModel.b_type fst snd makes takes map coms_of nulls_of root_of_note sound_event ou_amount ou_type] in *.
    pose proof (HS _ _ A) as K. cbv zeta in K. revert K. generalize (es [fofN a; as_scalar t; sb_out BLS E (sn_body BLS E n)] (sb_proof BLS E (sn_body BLS E n))).
    intros w (Sw & W0 & _ & V). rewrite (C72_shield_partial pks w Sw W0) in V. apply cons_inj in V as [V1 V]. apply cons_inj in V as [V2 V]. apply cons_inj in V as [V3 _].
    split; [|split].
    + split; [unfold output_com; cbn [ou_pk ou_blind ou_amount ou_type]; f_equal; exact V3|]. split; [reflexivity|]. split; [intros ? ? ? ? []|now split].
    + unfold u64f. rewrite V1, small_word by exact W. lia.
    + intros ? ? ? ? [].
  - destruct A as (p & Ep & A). destruct (HX _ _ _ Ep) as (L1 & L2 & x & y & k & cp & Ec & Hx).
    unfold verify_axfr, verify_anon_xfr_note in A. destruct (feqb_spec root (b_root BLS (an_body BLS n))) as [_|]; [|discriminate A].
    apply bind_ok_iff in A. destruct A as (fi & Ef & A). unfold fold_inputs. rewrite Ef.
    pose proof (Hx _ _ A) as K. cbv zeta in K. unfold pub_inputs in K.
    match type of K with context [ex ?a ?b ?c ?d] => match goal with |- context [ex a b ?c' d] => replace c with c' in K by (now rewrite <- ?app_assoc) end end.
    revert K. match goal with |- context [ex ?a ?b ?c ?d] => generalize (ex a b c d) end. intros w (Sw & W0 & W1 & V).
    destruct (C72_transfer_partial x y _ _ 20 k ft cp w Ec L1 L2 Sw W0 W1) as (root' & fee & fv & B3 & B4 & B5 & _).
    set (ds := repeat 20%nat (length (b_inputs BLS (an_body BLS n)))) in *. set (m := length (b_outputs BLS (an_body BLS n))) in *.
    pose proof (spends_at_length w ds 2) as B1. pose proof (outputs_at_length w (outputs_base ds) m) as B2.
    revert B1 B2 B3 B4 B5. generalize (spends_at w 2 ds), (outputs_at w (outputs_base ds) m), (key_at w (owner_base ds m)), (secret_at w (owner_base ds m + 3)).
    intros ins outs pk sk B1 B2 B3 B4 B5. unfold ds in B1. destruct (length_of_paths _ _ B1) as [Li Lp].
    rewrite V in B3. unfold public in B3.
    rewrite <- ?app_assoc in B3. apply app_inj_len in B3 as [Q1 B3]; [|now rewrite map_length, Li].
    cbn [app] in B3. apply cons_inj in B3 as [Q2 B3]. rewrite <- ?app_assoc in B3. apply app_inj_len in B3 as [Q3 B3]; [|now rewrite map_length, B2].
    cbn [app] in B3. apply cons_inj in B3 as [Q4 _]. subst root' fee. split; [|split].
    + unfold HistNoteSpec.shows. cbn [makes takes coms_of nulls_of root_of_note]. rewrite map_map. cbn [published].
      split; [now symmetry|]. split; [now symmetry|]. split; [|reflexivity].
      intros pk' sk' r s I. apply in_map_iff in I as (s' & I & _). apply pair_equal_spec in I as [I _]. apply pair_equal_spec in I as [_ <-]. reflexivity.
    + cbn [sound_event]. split; [exact B4|]. assert (U : @u64f BLS (fofN (b_fee BLS (an_body BLS n)))) by (unfold u64f; rewrite small_word by exact W; lia).
      split; [exact U|now apply B5].
    + cbn [takes]. intros pk' sk' r s I. apply in_map_iff in I as (s' & I & J). apply pair_equal_spec in I as [_ <-]. now apply Lp.
  - apply C56_unshield_accepts_exactly in A. destruct A as (a & t & o & fi & E1 & _ & Ef & A).
    unfold HistNoteSpec.shows, plain, fold_inputs in *. rewrite E1, Ef in *. cbn [XfrModel.b_amount XfrModel.b_type fst snd makes takes map coms_of nulls_of root_of_note published] in *.
    pose proof (HU _ _ A) as K. cbv zeta in K. revert K. match goal with |- context [eu ?c ?d] => generalize (eu c d) end. intros w (Sw & W0 & _ & V).
    destruct (C72_unshield_partial x0 y0 20 kd w Sw W0) as (root' & fv & R1 & R2 & _). rewrite V in R1.
    assert (L : length (sp_path (spend_at w 2 20)) = 20%nat) by (unfold spend_at; cbn [sp_path]; now rewrite map_length, seq_length).
    revert L R1 R2. generalize (spend_at w 2 20), (key_at w (outputs_base [20%nat])), (secret_at w (outputs_base [20%nat] + 3)). intros s pk sk L R1 R2.
    cbn [app] in R1. apply cons_inj in R1 as [Q1 R1]. apply cons_inj in R1 as [Q2 R1]. apply cons_inj in R1 as [Q3 R1]. apply cons_inj in R1 as [Q4 _]. subst root'. split; [|split].
    + split; [reflexivity|]. split; [now rewrite Q1|]. split; [|now split].
      intros pk' sk' r s' [I|[]]. apply pair_equal_spec in I as [I _]. apply pair_equal_spec in I as [_ <-]. reflexivity.
    + cbn [sound_event]. split; [exact R2|]. unfold u64f. rewrite <- Q3, small_word by exact W. lia.
    + intros pk' sk' r s' [I|[]]. apply pair_equal_spec in I as [_ <-]. exact L.
Qed.

(** C72 (partial: constants in variables 0 and 1, one secret key per public key): the
    events found in the notes of a ledger, of any length, form an admitted history that
    agrees with everything the notes publish; unless the hash fails on inputs met in this
    very history, no more left the anonymous pool than had entered it. *)
Theorem C72_explicit_history_partial : extractors ->
  forall xs, Forall accepted xs -> Forall (word_sized BLS E) xs -> ledger_ok xs ->
  let l := map event_in xs in
  Forall2 shows xs l /\ admitted BLS Hash ft l /\
  (one_secret l -> hash_broken BLS Hash l \/
     forall t, (paid_out BLS E as_scalar t xs + paid_fees BLS E ft t xs <= paid_in BLS E as_scalar t xs)%Z).
Proof.
  intros SP xs A W (R & N) l.
  assert (M : Forall2 (fun x e => shows x e /\ sound_event BLS Hash ft e /\ forall pk sk r s, In (pk, sk, r, s) (takes e) -> length (sp_path s) = 20%nat) xs l).
  { unfold l. clear R N l. induction A as [|x xs Ax A IH]; [constructor|]. inversion W as [|? ? Wx Wxs]; subst. cbn [map]. constructor; [now apply C72_accepted_note_partial|now apply IH]. }
  clearbody l. assert (S : Forall2 shows xs l) by (clear -M; induction M as [|x e xs l Mx _ IH]; constructor; [apply Mx|exact IH]).
  assert (Ad : admitted BLS Hash ft l).
  { split; [|split].
    - clear -M. induction M as [|x e xs l Mx _ IH]; constructor; [apply Mx|exact IH].
    - intros l1 e l2 pk sk r s El I. subst l. apply Forall2_app_inv_r in M as (xs1 & xs2 & M1 & M2 & ->). inversion M2 as [|x e' xs3 l3 Mx M3]; subst.
      destruct Mx as (Sx & _ & P). split; [exact (P _ _ _ _ I)|]. destruct Sx as (_ & _ & Rx & _).
      destruct (R xs1 x xs3 r eq_refl (Rx _ _ _ _ I)) as [k Ek]. exists k. rewrite Ek. do 2 f_equal. symmetry. apply (shows_coms E as_scalar).
      clear -M1. induction M1 as [|x e xs l Mx _ IH]; constructor; [apply Mx|exact IH].
    - unfold fresh_nullifiers. now rewrite (shows_nulls _ _ _ _ S). }
  split; [exact S|]. split; [exact Ad|]. intros O. destruct (C70_no_history_creates_value_partial BLS Hash ft l Ad O) as [B|(rest & _ & T)]; [now left|right].
  intros t. destruct (shows_totals E as_scalar fold_verify plonk sig_verify ft ps t xs l S W) as (T1 & T2 & T3). rewrite <- T1, <- T2, <- T3. apply T.
Qed.
End Ledger.
Print Assumptions C72_accepted_note_partial.
Print Assumptions C72_explicit_history_partial.

(** ** The hypotheses can be met *)
Lemma ideal_knows c : knows c (ideal c) (fun _ w => w).
Proof. intros pi w I. now apply ideal_iff in I. Qed.
(** With the ideal proof system, whose proofs are assignments, the extractors return the
    proof; shielding and unshielding any 64-bit amount with an honest key meets all
    hypotheses of the theorem above. *)
Theorem C72_honest_ledger :
  forall (E : pgroup) (as_scalar : N -> BLS) ft x y skb rx ry rs r comm k (blind : BLS) (amount ty owner : N),
  honest_keys k x y skb rx ry rs r comm -> (amount < 2 ^ 64)%N ->
  exists (ps pu : tcs BLS) (xs : list (note BLS E (D:=unit) (Fi:=list BLS) (Pf:=nat -> BLS) (Sig:=unit) (Memo:=unit))),
    let px := fun _ _ => None in
    extractors ideal ft ps pu px (fun _ w => w) (fun _ w => w) (fun _ _ _ w => w) /\
    Forall (accepted BLS E as_scalar (fun _ fi => Ok fi) ideal (fun _ _ _ => Ok tt) (fun _ => Ok []) ps pu px) xs /\
    Forall (word_sized BLS E) xs /\ ledger_ok BLS E Hash xs /\
    paid_in BLS E as_scalar (as_scalar ty) xs = Z.of_N amount /\ paid_out BLS E as_scalar (as_scalar ty) xs = Z.of_N amount.
Proof.
  intros E as_scalar ft x y skb rx ry rs r comm k blind amount ty owner HK HA.
  remember (ledger_root BLS Hash [AxfrModel.commit BLS bls_rescue as_scalar (kp_pk BLS k) blind amount ty]) as root eqn:Hroot.
  destruct (shield_accepted E as_scalar k blind amount ty owner) as [w RS].
  destruct (unshield_accepted E as_scalar x y skb rx ry rs r comm k blind amount ty owner root HK HA Hroot) as (w' & fv & RU).
  destruct (two_totals E as_scalar k blind amount ty owner root w w' fv HA) as (T1 & T2).
  exists (setup_shield (kp_pk BLS k)), (setup_unshield x y 20 k), (two_notes E as_scalar k blind amount ty owner root w w' fv).
  cbv zeta. split; [|split; [|split; [exact T1|split; [now apply two_ok|exact T2]]]].
  - split; [|split].
    + exists (kp_pk BLS k). apply ideal_knows.
    + exists x, y, k. apply ideal_knows.
    + intros n m p Y. discriminate Y.
  - unfold two_notes. constructor; [exact RS|]. constructor; [exact RU|constructor].
Qed.
Print Assumptions C72_honest_ledger.
