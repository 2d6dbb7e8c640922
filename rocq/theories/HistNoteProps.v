(** Property theorems for ledgers of accepted notes (C70): what the verifiers of the
    library accept, together with the checks of the ledger, is a history in the sense of
    HistSpec, so value never leaves the anonymous pool that did not enter it. *)
From Coq Require Import List ZArith NArith Bool Lia ZifyBool ZifyNat ZifyN Permutation.
From Verif Require Import Base Field PField UtilsModel UtilsProps Power TurboModel TurboSpec TurboProofs TurboLemmas TurboHonest TurboKit TurboEmit
  RescueModel RescueSpec RescueProofs RescueLemmas XfrModel XfrSpec MixModel MixSpec MixProofs MixLemmas
  AxfrModel AxfrSpec AxfrProofs AxfrHonest AxfrLemmas AxfrProps FoldModel FoldLemmas SimModel SecpPrime NoteModel
  NoteProofs AfoldModel AfoldSpec AfoldHonest AfoldRun AfoldWhole AfoldBind AfoldProps NoteProps SetupModel ShapeProofs ShapeFold ShapeProps
  MerkleSpec HistSpec HistProofs HistProps HistNoteSpec.
Import ListNotations.
Local Open Scope F_scope.

(** As [extractable], with variable 1 at one (which mixing relies on, C14). *)
Definition extractable_one {Pf} (c : tcs BLS) (v : list BLS -> Pf -> res unit) : Prop :=
  forall pi pf, v pi pf = Ok tt -> exists w, sat c w /\ w 0%nat = 0 /\ w 1%nat = 1 /\ pub_values w c = pi.

Section Ledger.
Context (E : pgroup) (as_scalar : N -> BLS) {D Fi Pf Vp Sig Memo : Type}
  (fold_verify : D -> Fi -> res (list BLS)) (plonk : Vp -> list BLS -> Pf -> res unit) (sig_verify : N -> list N -> Sig -> res unit)
  (ser : shield_body BLS E (Pf:=Pf) (Memo:=Memo) -> res (list N)) (ft : BLS) (ps pu : Vp) (px : nat -> nat -> option Vp).
Notation note := (note BLS E (D:=D) (Fi:=Fi) (Pf:=Pf) (Sig:=Sig) (Memo:=Memo)).
Notation accepted := (accepted BLS E as_scalar fold_verify plonk sig_verify ser ps pu px).
Notation shows := (shows BLS E as_scalar (D:=D) (Fi:=Fi) (Pf:=Pf) (Sig:=Sig) (Memo:=Memo) Hash).
Notation ledger_ok := (ledger_ok BLS E (D:=D) (Fi:=Fi) (Pf:=Pf) (Sig:=Sig) (Memo:=Memo) Hash).

(** The parameters belong to the circuits of setup.rs for trees of depth 20, and the proof
    system is knowledge sound for them with the constants in variables 0 and 1. *)
Definition sound_parameters : Prop :=
  (exists pk, extractable (setup_shield pk) (plonk ps)) /\
  (exists x y kd, extractable (setup_unshield x y 20 kd) (plonk pu)) /\
  (forall n m p, px n m = Some p -> (Z.of_nat n <= 2 ^ 100)%Z /\ (Z.of_nat m <= 2 ^ 100)%Z /\
     exists x y k cp, setup_xfr x y n m 20 k ft = Ok cp /\ extractable_one cp (plonk p)).

Lemma word_u64 n : (n < 2 ^ 64)%N -> toZ (@fofN BLS n) = Z.of_N n.
Proof.
  intros L. unfold fofN. apply toZ_small. split; [lia|]. assert (2 ^ 64 < pchar BLS)%Z by (vm_compute; reflexivity).
  change (2 ^ 64)%N with 18446744073709551616%N in L. lia.
Qed.
Lemma length_of_paths (ins : list (spend BLS)) n : map (fun s => length (sp_path s)) ins = repeat 20%nat n -> length ins = n /\ forall s, In s ins -> length (sp_path s) = 20%nat.
Proof.
  intros H. split.
  - apply (f_equal (@length nat)) in H. now rewrite map_length, repeat_length in H.
  - intros s I. apply (repeat_spec n). rewrite <- H. now apply (in_map (fun s => length (sp_path s))).
Qed.

(** C70: every accepted note stands for a sound event that agrees with everything the note
    publishes (partial: constants in variables 0 and 1). *)
Theorem C70_accepted_note_is_an_event_partial : sound_parameters ->
  forall x, accepted x -> word_sized BLS E x ->
  exists e, shows x e /\ sound_event BLS Hash ft e /\
    forall pk sk r s, In (pk, sk, r, s) (takes e) -> length (sp_path s) = 20%nat.
Proof.
  intros ([pks HS] & [x0 [y0 [kd HU]]] & HX) x A W. destruct x as [n|n root h|n root h]; cbn [HistNoteSpec.accepted word_sized] in A, W.
  - destruct (C56_shield_creates_what_it_consumes_partial E as_scalar plonk sig_verify ser ps (fake_payee BLS pks) n) as (a & t & o & pk & b & E1 & E2).
    { apply (proj1 C63_setup_extractable _ pks). exact HS. }
    { exact A. }
    unfold plain in W. rewrite E1 in W. cbn [XfrModel.b_amount XfrModel.b_type fst] in W.
    exists (EShield (mkOutput (fofN a) (as_scalar t) b pk)). split; [|split].
    + unfold HistNoteSpec.shows, plain. rewrite E1. cbn [makes takes map coms_of nulls_of output_com ou_pk ou_blind ou_amount ou_type XfrModel.b_amount XfrModel.b_type fst snd root_of_note].
      split; [|split; [reflexivity|split; [intros ? ? ? ? []|now split]]]. rewrite E2, commit_commitment. reflexivity.
    + cbn [sound_event ou_amount]. unfold u64f. rewrite word_u64 by exact W. lia.
    + intros ? ? ? ? [].
  - destruct A as (p & Ep & A). destruct (HX _ _ _ Ep) as (L1 & L2 & x & y & k & cp & Ec & Hx).
    unfold verify_axfr, verify_anon_xfr_note in A. destruct (feqb_spec root (b_root BLS (an_body BLS n))) as [_|]; [|discriminate A].
    apply bind_ok_iff in A. destruct A as (fi & _ & A). destruct (Hx _ _ A) as (w & Sw & W0 & W1 & V).
    destruct (C63_setup_transfer_sound_partial x y _ _ 20 k ft cp w Ec L1 L2 Sw W0 W1) as (ins & outs & pk & sk & root' & fee & fv & B1 & B2 & B3 & B4 & B5 & _).
    rewrite V in B3. unfold pub_inputs, public in B3. destruct (length_of_paths _ _ B1) as [Li Lp].
    rewrite <- app_assoc in B3. apply app_inj_len in B3 as [Q1 B3]; [|now rewrite map_length, Li].
    cbn [app] in B3. injection B3 as Q2 B3. rewrite <- app_assoc in B3. apply app_inj_len in B3 as [Q3 B3]; [|now rewrite map_length, B2].
    cbn [app] in B3. injection B3 as Q4 _. subst root' fee.
    exists (ETransfer pk sk root ins outs (fofN (b_fee BLS (an_body BLS n)))). split; [|split].
    + unfold HistNoteSpec.shows. cbn [makes takes coms_of nulls_of root_of_note]. rewrite map_map. cbn [published].
      split; [now symmetry|]. split; [now symmetry|]. split; [|reflexivity].
      intros pk' sk' r s I. apply in_map_iff in I as (s' & I & _). apply pair_equal_spec in I as [I _]. apply pair_equal_spec in I as [_ <-]. reflexivity.
    + cbn [sound_event]. split; [exact B4|]. assert (U : @u64f BLS (fofN (b_fee BLS (an_body BLS n)))) by (unfold u64f; rewrite word_u64 by exact W; lia).
      split; [exact U|now apply B5].
    + cbn [takes]. intros pk' sk' r s I. apply in_map_iff in I as (s' & I & J). apply pair_equal_spec in I as [_ <-]. now apply Lp.
  - destruct (C56_unshield_spends_what_it_creates_partial E as_scalar fold_verify plonk sig_verify (fold_gadget (default_fw x0 y0)) _ (fake_payer BLS 20) kd
      (fun pk sk => folding_soundp BLS SecpQ bls_254s bls_rescue bls_rescue_ok gadget_alpha_inv gadget_exp_inv secp_pchar (default_fw x0 y0) pk sk (default_builds x0 y0))
      pu n root h) as (a & t & o & fi & w & s & pkv & skv & E1 & E2 & E3 & E4 & E5 & E6 & E7 & _).
    { apply (proj2 C63_setup_extractable _ x0 y0 20%nat kd); [apply default_builds|apply repeat_length|exact HU]. }
    { exact A. }
    unfold plain in W. rewrite E1 in W. cbn [XfrModel.b_amount XfrModel.b_type fst] in W.
    exists (EUnshield (vpk BLS w pkv) (vsk BLS w skv) root s). split; [|split].
    + unfold HistNoteSpec.shows, plain. rewrite E1. cbn [makes takes map coms_of nulls_of XfrModel.b_amount XfrModel.b_type fst snd root_of_note published].
      split; [reflexivity|]. split; [now rewrite E7|]. split; [|now split].
      intros pk' sk' r s' [I|[]]. apply pair_equal_spec in I as [I _]. apply pair_equal_spec in I as [_ <-]. reflexivity.
    + cbn [sound_event]. split; [exact E6|]. unfold u64f. rewrite E3, word_u64 by exact W. lia.
    + intros pk' sk' r s' [I|[]]. apply pair_equal_spec in I as [_ <-]. rewrite E5. apply repeat_length.
Qed.

Lemma shows_coms xs l : Forall2 shows xs l -> commitments BLS Hash l = flat_map (coms_of BLS E) xs.
Proof.
  induction 1 as [|x e xs l S _ IH]; [reflexivity|]. unfold commitments, records in *. cbn [flat_map]. rewrite map_app, IH. f_equal. exact (proj1 S).
Qed.
Lemma shows_nulls xs l : Forall2 shows xs l -> map (published BLS Hash) (spends l) = flat_map (nulls_of BLS E) xs.
Proof.
  induction 1 as [|x e xs l S _ IH]; [reflexivity|]. unfold spends in *. cbn [flat_map]. rewrite map_app, IH. f_equal. exact (proj1 (proj2 S)).
Qed.
Lemma shows_totals t xs l : Forall2 shows xs l -> Forall (word_sized BLS E) xs ->
  shielded t l = paid_in BLS E as_scalar t xs /\ unshielded t l = paid_out BLS E as_scalar t xs /\ fees BLS ft t l = paid_fees BLS E ft t xs.
Proof.
  intros S W. induction S as [|x e xs l Sx _ IH]; [now repeat split|]. inversion W as [|? ? Wx Wxs]; subst. destruct (IH Wxs) as (I1 & I2 & I3).
  unfold shielded, unshielded, fees, paid_in, paid_out, paid_fees, zsum in *. cbn [map fold_right]. rewrite I1, I2, I3.
  destruct Sx as (_ & _ & _ & Sx). clear IH I1 I2 I3 W Wxs. destruct x as [n|n root h|n root h], e as [o|pk sk r ins outs fee|pk sk r s]; try contradiction; cbn [word_sized] in Wx.
  - destruct Sx as [Ea Et]. split; [|now split]. f_equal. cbn [ftotal]. unfold of_type. rewrite Et, Ea, word_u64 by exact Wx. destruct (f_dec t _); lia.
  - subst fee. split; [reflexivity|]. split; [reflexivity|]. now rewrite word_u64.
  - destruct Sx as [Ea Et]. split; [reflexivity|]. split; [|reflexivity]. f_equal. cbn [ftotal]. unfold of_type. rewrite Et, Ea, word_u64 by exact Wx. destruct (f_dec t _); lia.
Qed.

(** C70 (partial: constants in variables 0 and 1 as in C14, one secret key per public key
    as in C23): for every ledger of accepted notes, of any length, there is an admitted
    history that agrees with everything the notes publish; and for whichever such history
    was found in the proofs, unless the hash failed on inputs met in it, for every asset
    type no more left the anonymous pool, in transparent outputs and fees, than had
    entered it. *)
Theorem C70_pool_never_pays_out_more_partial : sound_parameters ->
  forall xs, Forall accepted xs -> Forall (word_sized BLS E) xs -> ledger_ok xs ->
  (exists l, Forall2 shows xs l /\ admitted BLS Hash ft l) /\
  (forall l, Forall2 shows xs l -> admitted BLS Hash ft l -> one_secret l -> hash_broken BLS Hash l \/
     forall t, (paid_out BLS E as_scalar t xs + paid_fees BLS E ft t xs <= paid_in BLS E as_scalar t xs)%Z).
Proof.
  intros SP xs A W (R & N). split.
  2:{ intros l S Ad O. destruct (C70_no_history_creates_value_partial BLS Hash ft l Ad O) as [B|(rest & _ & T)]; [now left|right].
    intros t. destruct (shows_totals t xs l S W) as (T1 & T2 & T3). rewrite <- T1, <- T2, <- T3. apply T. }
  assert (G : exists l, Forall2 (fun x e => shows x e /\ sound_event BLS Hash ft e /\ forall pk sk r s, In (pk, sk, r, s) (takes e) -> length (sp_path s) = 20%nat) xs l).
  { clear R N. induction A as [|x xs Ax A IH]; [exists []; constructor|]. inversion W as [|? ? Wx Wxs]; subst. destruct (IH Wxs) as [l M].
    destruct (C70_accepted_note_is_an_event_partial SP x Ax Wx) as [e Me]. exists (e :: l). now constructor. }
  destruct G as [l M]. assert (S : Forall2 shows xs l) by (clear -M; induction M as [|x e xs l Mx _ IH]; constructor; [apply Mx|exact IH]).
  exists l. split; [exact S|]. split; [|split].
    - clear -M. induction M as [|x e xs l Mx _ IH]; constructor; [apply Mx|exact IH].
    - intros l1 e l2 pk sk r s El I. subst l. apply Forall2_app_inv_r in M as (xs1 & xs2 & M1 & M2 & ->). inversion M2 as [|x e' xs3 l3 Mx M3]; subst.
      destruct Mx as (Sx & _ & P). split; [exact (P _ _ _ _ I)|]. destruct Sx as (_ & _ & Rx & _).
      destruct (R xs1 x xs3 r eq_refl (Rx _ _ _ _ I)) as [k Ek]. exists k. rewrite Ek. do 2 f_equal. symmetry. apply shows_coms.
      clear -M1. induction M1 as [|x e xs l Mx _ IH]; constructor; [apply Mx|exact IH].
    - unfold fresh_nullifiers. now rewrite (shows_nulls _ _ S).
Qed.
End Ledger.
Print Assumptions C70_accepted_note_is_an_event_partial.
Print Assumptions C70_pool_never_pays_out_more_partial.

(** ** The hypotheses can be met *)
(** The ideal proof system: a proof is an assignment, the verifier checks it. *)
Lemma gate_dec (w : nat -> BLS) g : {gate_eq w g /\ gate_bool w g} + {~ (gate_eq w g /\ gate_bool w g)}.
Proof.
  assert (A : {gate_eq w g} + {~ gate_eq w g}) by apply f_dec.
  assert (B : {gate_bool w g} + {~ gate_bool w g}).
  { unfold gate_bool. destruct (g_bool g); [|left; intros Y; discriminate Y].
    assert (X : forall z : BLS, {boolean z} + {~ boolean z}) by (intros z; unfold boolean; destruct (f_dec z 0), (f_dec z 1); tauto).
    destruct (X (w (w2 g))), (X (w (w3 g))), (X (w (w4 g))); tauto. }
  tauto.
Qed.
Definition ideal (c : tcs BLS) (pi : list BLS) (w : nat -> BLS) : res unit :=
  if Forall_dec _ (gate_dec w) (grev c) then if list_eq_dec f_dec (pub_values w c) pi then
    if f_dec (w 0%nat) 0 then if f_dec (w 1%nat) 1 then Ok tt else Err else Err else Err else Err.
Lemma ideal_iff c pi w : ideal c pi w = Ok tt <-> sat c w /\ w 0%nat = 0 /\ w 1%nat = 1 /\ pub_values w c = pi.
Proof.
  unfold ideal, sat. destruct (Forall_dec _ (gate_dec w) (grev c)), (list_eq_dec f_dec (pub_values w c) pi), (f_dec (w 0%nat) 0), (f_dec (w 1%nat) 1); split; try discriminate; try tauto; intros; try (now repeat split).
Qed.
Lemma ideal_extractable c : extractable c (ideal c).
Proof. intros pi pf I. apply ideal_iff in I. exists pf. tauto. Qed.
Lemma ideal_honest cp c : same_circuit cp (TurboModel.pad BLS c) -> Inv c -> ideal cp (pub_values (val c) c) (val c) = Ok tt.
Proof.
  intros S (_ & _ & (C0 & C1) & _ & Sc). apply ideal_iff. split; [apply (same_sat _ _ _ S), pad_sat, Sc|]. split; [exact C0|]. split; [exact C1|].
  now rewrite (same_pub _ _ _ S), pad_pub.
Qed.

(** A single record, in the tree of its commitment alone. *)
Definition lone_path : list (node BLS) := repeat (mkNode BLS 0 0 1 0) 20.
Definition lone (as_scalar : N -> BLS) (k : keypair BLS) (blind : BLS) (amount ty : N) (root : BLS) : oabar BLS :=
  mkOabar BLS amount ty blind (kp_pk BLS k) None (Some (mkLeaf BLS lone_path root 0 0)).
Lemma lone_steps : map (step_val BLS) lone_path = repeat (SLeft, 0, 0) 20.
Proof. unfold lone_path. generalize 20%nat. intros d. induction d as [|d IH]; [reflexivity|]. cbn [repeat map]. now rewrite IH. Qed.
Lemma lone_root (K : PField) (H : K -> K -> K -> K -> K) com :
  root_of K H (fofN 0) com (repeat (SLeft, 0, 0) 20) = ledger_root K H [com].
Proof. rewrite root_high. unfold leaves. cbn [length seq combine map fst snd]. rewrite single_tree. reflexivity. Qed.
Lemma lone_genuine as_scalar k blind amount ty root : (amount < 2 ^ 64)%N ->
  root = ledger_root BLS Hash [AxfrModel.commit BLS bls_rescue as_scalar (kp_pk BLS k) blind amount ty] ->
  genuine BLS bls_rescue as_scalar (lone as_scalar k blind amount ty root).
Proof.
  intros HA HR. split; [exact HA|]. eexists. split; [reflexivity|]. split.
  - apply Forall_forall. intros n I. cbn [l_path] in I. apply repeat_spec in I. subst n. right. left. now split.
  - cbn [l_path l_uid l_root lone AxfrModel.o_pk AxfrModel.o_blind AxfrModel.o_amount AxfrModel.o_type]. rewrite lone_steps, HR. apply lone_root.
Qed.
Lemma pk_self (p : pubkey BLS) : pk_eqb BLS p p = true.
Proof. destruct p as [[a b] c]. unfold pk_eqb. destruct (feqb_spec a a), (feqb_spec b b), (feqb_spec c c); try contradiction; reflexivity. Qed.

Lemma pair_ok (K : PField) (G : pgroup) (D Fi Pf Sig Memo : Type) (H : K -> K -> K -> K -> K) (x y : note K G (D:=D) (Fi:=Fi) (Pf:=Pf) (Sig:=Sig) (Memo:=Memo)) c u :
  coms_of K G x = [c] -> root_of_note K G x = None -> nulls_of K G x = [] ->
  root_of_note K G y = Some (ledger_root K H [c]) -> nulls_of K G y = [u] -> ledger_ok K G H [x; y].
Proof.
  intros C1 R1 N1 R2 N2. split.
  - intros l1 z l2 r0 El Er. destruct l1 as [|a l1]; cbn [app] in El; injection El as <- El; [congruence|].
    destruct l1 as [|b l1]; cbn [app] in El; injection El as <- El; [|now destruct l1].
    exists 1%nat. cbn [flat_map app]. rewrite C1. cbn [app firstn]. congruence.
  - cbn [flat_map]. rewrite N1, N2. constructor; [intros []|constructor].
Qed.

Section Honest.
Context (E : pgroup) (as_scalar : N -> BLS) (k : keypair BLS) (blind : BLS) (amount ty owner : N).
Notation com := (AxfrModel.commit BLS bls_rescue as_scalar (kp_pk BLS k) blind amount ty).
Context (root : BLS) (Hroot : root = ledger_root BLS Hash [com]).
Notation note := (note BLS E (D:=unit) (Fi:=list BLS) (Pf:=nat -> BLS) (Sig:=unit) (Memo:=unit)).
Definition two_notes (w w' : nat -> BLS) (fv : list BLS) : list note :=
  [NShield BLS E (mkSn BLS E (mkSb BLS E (mkBar (APlain amount) (TPlain ty) owner) com w tt) tt);
   NUnshield BLS E (mkUn BLS E (mkUb BLS E (nullify BLS bls_rescue as_scalar k amount ty 0) (mkBar (APlain amount) (TPlain ty) owner) root 0 None) w' fv) root tt].
Lemma two_ok w w' fv : ledger_ok BLS E Hash (two_notes w w' fv).
Proof.
  unfold two_notes. eapply pair_ok; [reflexivity|reflexivity|reflexivity| |reflexivity]. cbn [root_of_note]. rewrite Hroot. reflexivity.
Qed.
Lemma two_totals w w' fv : (amount < 2 ^ 64)%N -> Forall (word_sized BLS E) (two_notes w w' fv) /\
  paid_in BLS E as_scalar (as_scalar ty) (two_notes w w' fv) = Z.of_N amount /\ paid_out BLS E as_scalar (as_scalar ty) (two_notes w w' fv) = Z.of_N amount.
Proof.
  clear Hroot. intros HA. unfold two_notes. generalize com. intros c. generalize (nullify BLS bls_rescue as_scalar k amount ty 0). intros u.
  split; [repeat constructor; exact HA|]. unfold paid_in, paid_out, zsum, plain, of_type. cbn [map fold_right sn_body sb_in un_body ub_out XfrModel.b_amount XfrModel.b_type fst snd].
  destruct (f_dec (as_scalar ty) (as_scalar ty)); [lia|contradiction].
Qed.
End Honest.

Lemma shield_accepted (E : pgroup) (as_scalar : N -> BLS) k (blind : BLS) (amount ty owner : N) : exists w,
  verify_shield BLS E as_scalar ideal (fun _ _ (_ : unit) => Ok tt) (fun _ => Ok []) (setup_shield (kp_pk BLS k))
    (mkSn BLS E (mkSb BLS E (mkBar (APlain amount) (TPlain ty) owner) (AxfrModel.commit BLS bls_rescue as_scalar (kp_pk BLS k) blind amount ty) w tt) tt) = Ok tt.
Proof.
  destruct (shield_complete BLS bls_rescue bls_rescue_ok gadget_alpha_inv gadget_exp_inv (mkPayee BLS amount blind (as_scalar ty) (kp_pk BLS k))) as (IS & _).
  destruct (C56_honest_shield_is_provable E as_scalar ideal (fun _ _ (_ : unit) => Ok tt) (Memo:=unit) (kp_pk BLS k) blind amount ty owner) as (_ & _ & RS).
  pose proof (ideal_honest _ _ (proj1 C63_setup_fits_shield_unshield (kp_pk BLS k) _) IS) as PS. clear IS.
  revert PS RS. generalize (snd (shield_cs BLS bls_rescue gadget_alpha_inv (mkPayee BLS amount blind (as_scalar ty) (kp_pk BLS k)) (cs_new BLS))). intros c PS RS.
  exists (val c). exact (RS (fun _ => Ok []) _ tt tt _ [] eq_refl eq_refl PS).
Qed.
Lemma lone_init (E : pgroup) as_scalar k blind amount ty root owner :
  init_unshield BLS E as_scalar (Memo:=unit) bls_rescue (lone as_scalar k blind amount ty root) k owner =
  Ok (mkUb BLS E (nullify BLS bls_rescue as_scalar k amount ty 0) (mkBar (APlain amount) (TPlain ty) owner) root 0 None,
      mkPayer BLS amount (as_scalar ty) 0 lone_path blind).
Proof.
  unfold init_unshield, lone. cbn [AxfrModel.o_leaf AxfrModel.o_pk]. rewrite pk_self. reflexivity.
Qed.
Lemma unshield_accepted (E : pgroup) (as_scalar : N -> BLS) x y skb rx ry rs r comm k (blind : BLS) (amount ty owner : N) root :
  honest_keys k x y skb rx ry rs r comm -> (amount < 2 ^ 64)%N ->
  root = ledger_root BLS Hash [AxfrModel.commit BLS bls_rescue as_scalar (kp_pk BLS k) blind amount ty] -> exists w fv,
  verify_unshield BLS E as_scalar (fun (_ : unit) fi => Ok fi) ideal (setup_unshield x y 20 k)
    (mkUn BLS E (mkUb BLS E (nullify BLS bls_rescue as_scalar k amount ty 0) (mkBar (APlain amount) (TPlain ty) owner) root 0 (None : option unit)) w fv) root tt = Ok tt.
Proof.
  intros HK HA HR.
  pose proof (honest_keys_witness k x y skb rx ry rs r comm 0 0 HK) as HW. revert HW. generalize (honest_fold x y skb rx ry rs r comm 0 0). intros fw HW.
  destruct (gadget_run k fw HW) as (FC & _).
  pose proof (lone_init E as_scalar k blind amount ty root owner) as HI.
  assert (LP : length (p_path BLS (mkPayer BLS amount (as_scalar ty) 0 lone_path blind)) = 20%nat) by apply repeat_length.
  revert HI LP. generalize (mkPayer BLS amount (as_scalar ty) 0 lone_path blind). intros pw HI LP.
  remember (mkUb BLS E (nullify BLS bls_rescue as_scalar k amount ty 0) (mkBar (APlain amount) (TPlain ty) owner) root 0 (None : option unit)) as body eqn:Eb.
  destruct (unshield_run E as_scalar (fun (_ : unit) fi => Ok fi) ideal (fold_gadget fw) k _ owner body pw (gadget_adds fw) FC HI (lone_genuine as_scalar k blind amount ty root HA HR)) as (IU & fv & _ & RU).
  pose proof (ideal_honest _ _ (proj2 C63_setup_fits_shield_unshield x y 20%nat k fw pw k (proj1 HW) LP) IU) as PU. clear IU.
  revert PU RU. generalize (snd (unshield_cs BLS bls_rescue gadget_alpha_inv (fold_gadget fw) pw k (cs_new BLS))). intros c PU RU.
  exists (val c), fv. pose proof (RU _ _ fv tt eq_refl PU) as R. assert (ER : ub_root BLS E body = root) by (rewrite Eb; reflexivity). rewrite ER in R. exact R.
Qed.
(** With that proof system, every owner with an honest key can shield any 64-bit amount of
    any type and unshield it again: the ledger of these two notes meets all hypotheses of
    the theorem above, and all that entered has left. *)
Theorem C70_honest_ledger :
  forall (E : pgroup) (as_scalar : N -> BLS) ft x y skb rx ry rs r comm k (blind : BLS) (amount ty owner : N),
  honest_keys k x y skb rx ry rs r comm -> (amount < 2 ^ 64)%N ->
  exists (ps pu : tcs BLS) (xs : list (note BLS E (D:=unit) (Fi:=list BLS) (Pf:=nat -> BLS) (Sig:=unit) (Memo:=unit))),
    let px := fun _ _ => None in
    sound_parameters ideal ft ps pu px /\
    Forall (accepted BLS E as_scalar (fun _ fi => Ok fi) ideal (fun _ _ _ => Ok tt) (fun _ => Ok []) ps pu px) xs /\
    Forall (word_sized BLS E) xs /\ ledger_ok BLS E Hash xs /\
    paid_in BLS E as_scalar (as_scalar ty) xs = Z.of_N amount /\ paid_out BLS E as_scalar (as_scalar ty) xs = Z.of_N amount.
Proof.
  intros E as_scalar ft x y skb rx ry rs r comm k blind amount ty owner HK HA.
  remember (ledger_root BLS Hash [AxfrModel.commit BLS bls_rescue as_scalar (kp_pk BLS k) blind amount ty]) as root eqn:Hroot.
  destruct (shield_accepted E as_scalar k blind amount ty owner) as [w RS].
  destruct (unshield_accepted E as_scalar x y skb rx ry rs r comm k blind amount ty owner root HK HA Hroot) as (w' & fv & RU).
  destruct (two_totals E as_scalar k blind amount ty owner root w w' fv HA) as (T1 & T2).
  exists (setup_shield (kp_pk BLS k)), (setup_unshield x y 20 k), (two_notes E as_scalar k blind amount ty owner root w w' fv).
  cbv zeta. split; [|split; [|split; [exact T1|split; [now apply two_ok|exact T2]]]].
  - split; [|split].
    + exists (kp_pk BLS k). apply ideal_extractable.
    + exists x, y, k. apply ideal_extractable.
    + intros n m p Y. discriminate Y.
  - unfold two_notes. constructor; [exact RS|]. constructor; [exact RU|constructor].
Qed.
Print Assumptions C70_honest_ledger.
