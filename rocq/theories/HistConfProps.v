(** Property theorems for ledgers with conversions between confidential and anonymous
    records (C71): whatever openings of the confidential records anybody knows, value
    leaves the anonymous pool only if it entered it. *)
From Coq Require Import List ZArith NArith Bool Lia ZifyBool ZifyNat ZifyN Permutation Field_theory.
From Verif Require Import Base Field PField UtilsModel UtilsProps Power TurboModel TurboSpec TurboProofs TurboLemmas TurboHonest TurboKit TurboEmit
  RescueModel RescueSpec RescueProofs RescueLemmas XfrModel XfrSpec MixModel MixSpec MixProofs MixLemmas
  AxfrModel AxfrSpec AxfrProofs AxfrHonest AxfrLemmas AxfrProps FoldModel FoldLemmas SimModel SecpPrime SigmaModel SigmaSpec NoteModel
  NoteProofs AfoldModel AfoldSpec AfoldHonest AfoldRun AfoldWhole AfoldBind AfoldProps NoteProps SetupModel SetupConf ShapeProofs ShapeFold ShapeProps
  InspModel InspSpec InspProofs InspBind InspRun InspWhole InspNotes InspProps ShapeConfProps
  MerkleSpec HistSpec HistProofs HistProps HistNoteSpec HistNoteProps HistConfSpec.
Import ListNotations.
Local Open Scope F_scope.

Section Ledger.
Context (G : Mod RFr) (B H : G) {C : Type} (comp : G -> C) (decomp : C -> option G) (Hdc : forall g, decomp (comp g) = Some g)
  (ceqb : C -> C -> bool) (Hceqb : forall a b, reflect (a = b) (ceqb a b)) (as_num : N -> N) {D Fi Pf Vp Sig Memo : Type}.
Notation E := (rgroup RFr G B H comp decomp Hdc ceqb Hceqb).
Context (fold_verify : D -> Fi -> res (list BLS)) (plonk : Vp -> list BLS -> Pf -> res unit) (sig_verify : N -> list N -> Sig -> res unit)
  (ser : shield_body BLS E (Pf:=Pf) (Memo:=Memo) -> res (list N)) (ft : BLS) (ps pu pf pt : Vp) (px : nat -> nat -> option Vp).
Notation move := (move G B H comp decomp Hdc ceqb Hceqb (D:=D) (Fi:=Fi) (Pf:=Pf) (Sig:=Sig) (Memo:=Memo)).
Notation move_accepted := (move_accepted G B H comp decomp Hdc ceqb Hceqb as_num fold_verify plonk sig_verify ser ps pu pf pt px).
Notation sized := (sized G B H comp decomp Hdc ceqb Hceqb as_num (D:=D) (Fi:=Fi) (Pf:=Pf) (Sig:=Sig) (Memo:=Memo)).
Notation moves_ok := (moves_ok G B H comp decomp Hdc ceqb Hceqb (D:=D) (Fi:=Fi) (Pf:=Pf) (Sig:=Sig) (Memo:=Memo)).
Notation found_in := (found_in G B H comp decomp Hdc ceqb Hceqb as_num (D:=D) (Fi:=Fi) (Pf:=Pf) (Sig:=Sig) (Memo:=Memo) ft).
Notation breaks_commitment := (breaks_commitment G B H comp decomp Hdc ceqb Hceqb (D:=D) (Fi:=Fi) (Pf:=Pf) (Sig:=Sig) (Memo:=Memo)).
Notation coms := (move_coms G B H comp decomp Hdc ceqb Hceqb).
Notation nulls := (move_nulls G B H comp decomp Hdc ceqb Hceqb).
Notation root_at := (move_root G B H comp decomp Hdc ceqb Hceqb).
Notation moved_in := (moved_in G B H comp decomp Hdc ceqb Hceqb as_num).
Notation moved_out := (moved_out G B H comp decomp Hdc ceqb Hceqb as_num).
Notation moved_fees := (moved_fees G B H comp decomp Hdc ceqb Hceqb ft).
Notation code := (code as_num).

(** As [HistNoteProps.sound_parameters], with the parameters of the two conversions. *)
Definition sound_with_conversions : Prop :=
  sound_parameters plonk ft ps pu px /\
  (exists pk cp, setup_from pk = Ok cp /\ extractable cp (plonk pf)) /\
  (exists x y k cp, setup_to x y 20 k = Ok cp /\ extractable cp (plonk pt)).

Lemma from_circuit pk cp : setup_from pk = Ok cp -> extractable cp (plonk pf) ->
  exists a t b k w c, from_cs a t b k w (cs_new BLS) = Ok (tt, c) /\ extractable c (plonk pf).
Proof.
  intros Ecp X. pose proof Ecp as E0. unfold from_params_cs in E0. destruct (from_cs 0 0 0 pk (default_insp BLS RFr) (cs_new BLS)) as [[[] c]| |] eqn:Ec; try discriminate E0.
  do 6 eexists. split; [exact Ec|]. exact (proj1 C63_setup_conf_extractable _ _ _ _ _ _ _ _ _ _ Ecp Ec X).
Qed.
Lemma to_circuit depth x y k cp : setup_to x y depth k = Ok cp -> extractable cp (plonk pt) ->
  exists (fw : fold_wit) p0 k w c, length (p_path BLS p0) = depth /\ to_cs fw p0 k w (cs_new BLS) = Ok (tt, c) /\ extractable c (plonk pt).
Proof.
  intros Ecp X. pose proof Ecp as E0. unfold to_params_cs in E0. destruct (to_cs (default_fw x y) (fake_payer BLS depth) k (default_insp BLS RFr) (cs_new BLS)) as [[[] c]| |] eqn:Ec; try discriminate E0.
  assert (L : length (p_path BLS (fake_payer BLS depth)) = depth) by apply repeat_length.
  do 5 eexists. split; [exact L|]. split; [exact Ec|]. exact (proj2 C63_setup_conf_extractable _ _ _ _ _ _ _ _ _ _ _ _ Ecp L Ec X).
Qed.
Lemma four {T} (P : bool -> bool -> T -> Prop) : (forall i j, exists x, P i j x) -> exists f, forall i j, P i j (f i j).
Proof.
  intros X. destruct (X true true) as [a A], (X true false) as [b B0], (X false true) as [c C0], (X false false) as [d D0].
  exists (fun i j : bool => if i then if j then a else b else if j then c else d). intros [|] [|]; assumption.
Qed.

(** C71: the proofs of every accepted move contain findings, that is an event agreeing
    with what the move publishes, or the states and records of a conversion (partial:
    constants in variables 0 and 1). *)
Theorem C71_accepted_moves_have_findings_partial : sound_with_conversions ->
  forall m, move_accepted m -> sized m -> exists f, found_in m f.
Proof.
  intros (SP & (pk & cp & Ecp & Xf) & (x & y & k & cq & Ecq & Xt)) m A S. destruct m as [n|rec out memo r op|nf out root version memo h r op].
  - destruct (C70_accepted_note_is_an_event_partial E code fold_verify plonk sig_verify ser ft ps pu px SP n A S) as [e He]. exists (FNote e). exact He.
  - destruct A as ((Q1 & Q2 & Q3 & Q4 & ca & ct & Ea & Et & V) & A). destruct (from_circuit _ _ Ecp Xf) as (a & t & b & k0 & w & c & Ec & Xc).
    destruct (four (fun i j z => let '(o, pk, b) := z in let '(x, y, _, _, _) := o in
      answers_run G r i j o /\ out = commitment BLS Hash pk b (fofZ x) (fofZ y))) as [f Hf]; [|exists (FFrom f); exact Hf].
    intros i j. destruct (C64_accepted_from_partial G B H comp decomp Hdc ceqb Hceqb as_num _ _ _ _ _ _ _ _ _ _ Ec Xc (A i j)) as (ca' & ct' & b' & l' & E1 & E2 & E3 & ow & bl & X & Y & A1 & A2 & rr & E4 & E5).
    cbn [fb_in fb_out fb_proof fst] in E1, E2, E3, E4, E5. rewrite Ea in E1. apply Ok_inj in E1. rewrite Et in E2. apply Ok_inj in E2. subst ca' ct'.
    rewrite V in E3. apply Ok_inj in E3. apply pair_equal_spec in E3 as [<- <-]. exists (X, Y, A1, A2, rr, ow, bl). split; [exact E5|exact E4].
  - destruct A as ((Q1 & Q2 & Q3 & Q4 & ca & ct & Ea & Et & V) & A). destruct (to_circuit _ _ _ _ _ Ecq Xt) as (fw & p0 & k0 & w & c & L & Ec & Xc).
    destruct (four (fun i j z => let '(o, pk, sk, s) := z in let '(x, y, _, _, _) := o in
      answers_run G r i j o /\ nf = nullifier BLS Hash pk sk s /\ in_tree BLS Hash pk root s /\ length (sp_path s) = 20%nat /\
      sp_amount s = fofZ x /\ sp_type s = fofZ y)) as [f Hf]; [|exists (FTo root f); now split].
    intros i j. destruct (C64_accepted_to_partial G B H comp decomp Hdc ceqb Hceqb as_num _ _ _ _ _ _ _ _ _ _ _ _ Ec Xc (A i j)) as (ca' & ct' & b' & l' & f' & E1 & E2 & E3 & _ & pk' & sk & s & X & Y & A1 & A2 & rr & E4 & E5 & E6 & E7 & E8 & E9 & _).
    cbn [cn_body cb_in cb_out cb_cp cb_root] in E1, E2, E3, E4, E5, E9. rewrite Ea in E1. apply Ok_inj in E1. rewrite Et in E2. apply Ok_inj in E2. subst ca' ct'.
    rewrite V in E3. apply Ok_inj in E3. apply pair_equal_spec in E3 as [<- <-]. exists (X, Y, A1, A2, rr, pk', sk, s).
    split; [exact E9|]. split; [exact E4|]. split; [exact E5|]. split; [now rewrite E6|]. now split.
Qed.

(** A move and an event agree on everything that is published, and on the amounts. *)
Definition agree (m : move) (e : event BLS) : Prop :=
  map (output_com BLS Hash) (makes e) = coms m /\ map (published BLS Hash) (takes e) = nulls m /\
  (forall pk sk r s, In (pk, sk, r, s) (takes e) -> root_at m = Some r /\ length (sp_path s) = 20%nat) /\ sound_event BLS Hash ft e /\
  forall t, shielded t [e] = moved_in t [m] /\ unshielded t [e] = moved_out t [m] /\ fees BLS ft t [e] = moved_fees t [m].

Lemma word_z x : (0 <= x < 2 ^ 64)%Z -> toZ (@fofZ BLS x) = x.
Proof. intros R. apply toZ_small. assert (2 ^ 64 < pchar BLS)%Z by (vm_compute; reflexivity). lia. Qed.

(** What the four runs of a conversion say about the known opening. *)
Lemma conversion start rec (r : runs G (Fi:=Fi) (Pf:=Pf)) x y u v (f : bool -> bool -> state BLS) : rewound G B H comp decomp Hdc ceqb Hceqb as_num start rec r ->
  opened G B H comp decomp Hdc ceqb Hceqb as_num rec (x, y, u, v) -> (forall i j, answers_run G r i j (f i j)) ->
  (exists i j, Exists (collide BLS Hash) (combine (opening_inputs (f i j)) (opening_inputs (f true true)))) \/
  relates G B H r (x, y, u, v) \/ (let '(x', y', _, _, _) := f true true in x' = x /\ y' = y).
Proof.
  intros (Q1 & Q2 & Q3 & Q4 & ca & ct & Ea & Et & V) (Rx & Ry & ca' & ct' & Ea' & Et' & Oa & Ot) A.
  rewrite Ea in Ea'. apply Ok_inj in Ea'. rewrite Et in Et'. apply Ok_inj in Et'. subst ca' ct'.
  destruct (C64_extraction G B H comp decomp Hdc as_num ca ct start (r_proof G r) (r_chal G r) (r_beta G r) (r_lambda G r) f (ds_comm (r_proof G r true)) (ds_rand (r_proof G r true))) as [K|(X & Y & A1 & A2 & rr & Eo & RX & RY & E1 & O1 & E2 & O2)]; try assumption.
  - intros [|]; now split.
  - intros i j. specialize (A i j). unfold answers_run in A. replace (ds_comm (r_proof G r true)) with (ds_comm (r_proof G r i)) by (destruct i; congruence). exact A.
  - now left.
  - right. rewrite (Eo true true). assert (RX' : (0 <= X < 2 ^ 240)%Z) by lia. assert (Rx' : (0 <= x < 2 ^ 240)%Z) by lia.
    destruct (C64_carried_value G B H comp decomp Hdc ceqb Hceqb _ _ _ _ _ RX' Rx' O1 Oa) as [->|[N1 N2]].
    2:{ left. unfold relates. left. rewrite E1. split; [now left|exact N2]. }
    destruct (C64_carried_value G B H comp decomp Hdc ceqb Hceqb _ _ _ _ _ RY Ry O2 Ot) as [->|[N1 N2]].
    2:{ left. unfold relates. right. rewrite E2. split; [now left|exact N2]. }
    right. now split.
Qed.

Lemma one_move m f : move_accepted m -> sized m -> found_in m f ->
  states_collide f \/ breaks_commitment m \/ agree m (event_of f).
Proof.
  intros A S Fd. destruct m as [n|rec out memo r op|nf out root version memo h r op], f as [e|f|root' f]; try contradiction Fd.
  - right. right. destruct Fd as (Sh & So & L). pose proof Sh as (S1 & S2 & S3 & _).
    split; [exact S1|]. split; [exact S2|]. split; [intros; split; eauto|]. split; [exact So|]. intros t.
    assert (X : Forall2 (shows BLS E code Hash) [n] [e]) by (constructor; [exact Sh|constructor]).
    destruct (shows_totals E code fold_verify plonk sig_verify ft pu t [n] [e] X) as (T1 & T2 & T3); [constructor; [exact S|constructor]|]. cbn [event_of].
    rewrite T1, T2, T3. unfold HistConfSpec.moved_in, HistConfSpec.moved_out, HistConfSpec.moved_fees, zsum. cbn [map fold_right]. lia.
  - destruct A as (RW & _). destruct op as [[[x y] u] v]. cbn [HistConfSpec.sized] in S. cbn [HistConfSpec.found_in] in Fd.
    assert (A : forall i j, answers_run G r i j (fst (fst (f i j)))).
    { intros i j. specialize (Fd i j). destruct (f i j) as [[[[[[X Y] ?] ?] ?] ?] ?]. apply Fd. }
    destruct (conversion _ _ _ _ _ _ _ (fun i j => fst (fst (f i j))) RW S A) as [(i & j & K)|[K|K]].
    + left. exists i, j, (fst (fst (f i j))), (fst (fst (f true true))). cbn [state_at]. destruct (f i j) as [[? ?] ?], (f true true) as [[? ?] ?]. now split.
    + right. left. exact K.
    + right. right. specialize (Fd true true). unfold agree. cbn [event_of]. destruct (f true true) as [[[[[[X Y] ?] ?] ?] pk] b]. cbn [fst] in K. destruct K as [-> ->].
      destruct Fd as [_ Eo]. cbn [makes takes map HistConfSpec.move_coms HistConfSpec.move_nulls sound_event ou_amount]. unfold output_com. cbn [ou_pk ou_blind ou_amount ou_type].
      split; [now rewrite Eo|]. split; [reflexivity|]. split; [intros ? ? ? ? []|]. destruct S as (RX & _). split; [unfold u64f; rewrite word_z; [apply RX|exact RX]|].
      intros t. unfold shielded, unshielded, fees, HistConfSpec.moved_in, HistConfSpec.moved_out, HistConfSpec.moved_fees, carries, zsum. cbn [map fold_right ftotal ou_type ou_amount].
      rewrite word_z by exact RX. split; [|now split]. destruct (f_dec t (fofZ y)); lia.
  - destruct A as (RW & _). destruct op as [[[x y] u] v]. cbn [HistConfSpec.sized] in S. cbn [HistConfSpec.found_in] in Fd. destruct Fd as [-> Fd].
    assert (A : forall i j, answers_run G r i j (fst (fst (fst (f i j))))).
    { intros i j. specialize (Fd i j). destruct (f i j) as [[[[[[[X Y] ?] ?] ?] ?] ?] ?]. apply Fd. }
    destruct (conversion _ _ _ _ _ _ _ (fun i j => fst (fst (fst (f i j)))) RW S A) as [(i & j & K)|[K|K]].
    + left. exists i, j, (fst (fst (fst (f i j)))), (fst (fst (fst (f true true)))). cbn [state_at]. destruct (f i j) as [[[? ?] ?] ?], (f true true) as [[[? ?] ?] ?]. now split.
    + right. left. exact K.
    + right. right. specialize (Fd true true). unfold agree. cbn [event_of]. destruct (f true true) as [[[[[[[X Y] ?] ?] ?] pk] sk] s]. cbn [fst] in K. destruct K as [-> ->].
      destruct Fd as (_ & En & HT & L & Es & Ey). cbn [makes takes map HistConfSpec.move_coms HistConfSpec.move_nulls HistConfSpec.move_root sound_event published].
      split; [reflexivity|]. split; [now rewrite En|]. split.
      { intros pk' sk' r' s' [I|[]]. apply pair_equal_spec in I as [I <-]. apply pair_equal_spec in I as [_ <-]. now split. }
      destruct S as (RX & _). split; [split; [exact HT|unfold u64f; rewrite Es, word_z; [apply RX|exact RX]]|].
      intros t. unfold shielded, unshielded, fees, HistConfSpec.moved_in, HistConfSpec.moved_out, HistConfSpec.moved_fees, carries, zsum. cbn [map fold_right ftotal].
      rewrite Es, Ey, word_z by exact RX. split; [reflexivity|]. split; [|reflexivity]. destruct (f_dec t (fofZ y)); lia.
Qed.

Lemma all_moves ms fs : Forall move_accepted ms -> Forall sized ms -> Forall2 found_in ms fs ->
  Exists (states_collide) fs \/ Exists breaks_commitment ms \/ Forall2 agree ms (map event_of fs).
Proof.
  intros A S Fd. induction Fd as [|m f ms fs Fm _ IH]; [right; right; constructor|].
  inversion A as [|? ? Am As]; subst. inversion S as [|? ? Sm Ss]; subst.
  destruct (IH As Ss) as [K|[K|K]]; [left; now right|right; left; now right|].
  destruct (one_move m f Am Sm Fm) as [L|[L|L]]; [left; now left|right; left; now left|]. right. right. now constructor.
Qed.
Lemma agree_coms ms l : Forall2 agree ms l -> commitments BLS Hash l = flat_map coms ms.
Proof.
  induction 1 as [|x e xs l S _ IH]; [reflexivity|]. unfold commitments, records in *. cbn [flat_map]. rewrite map_app, IH. f_equal. exact (proj1 S).
Qed.
Lemma agree_nulls ms l : Forall2 agree ms l -> map (published BLS Hash) (spends l) = flat_map nulls ms.
Proof.
  induction 1 as [|x e xs l S _ IH]; [reflexivity|]. unfold spends in *. cbn [flat_map]. rewrite map_app, IH. f_equal. exact (proj1 (proj2 S)).
Qed.
Lemma agree_admitted ms l : Forall2 agree ms l -> moves_ok ms -> admitted BLS Hash ft l.
Proof.
  intros M (R & N). split; [|split].
  - clear -M. induction M as [|x e xs l Mx _ IH]; constructor; [apply Mx|exact IH].
  - intros l1 e l2 pk sk r s El I. subst l. apply Forall2_app_inv_r in M as (xs1 & xs2 & M1 & M2 & ->). inversion M2 as [|x e' xs3 l3 Mx M3]; subst.
    destruct Mx as (_ & _ & P & _). destruct (P _ _ _ _ I) as [Rx L]. split; [exact L|].
    destruct (R xs1 x xs3 r eq_refl Rx) as [k Ek]. exists k. rewrite Ek. do 2 f_equal. symmetry. now apply agree_coms.
  - unfold fresh_nullifiers. now rewrite (agree_nulls _ _ M).
Qed.
Lemma zsum_cons a l : zsum (a :: l) = (a + zsum l)%Z. Proof. reflexivity. Qed.
Lemma agree_totals t ms l : Forall2 agree ms l ->
  shielded t l = moved_in t ms /\ unshielded t l = moved_out t ms /\ fees BLS ft t l = moved_fees t ms.
Proof.
  induction 1 as [|x e xs l S _ IH]; [now repeat split|]. destruct S as (_ & _ & _ & _ & T). specialize (T t). destruct T as (T1 & T2 & T3), IH as (I1 & I2 & I3).
  unfold shielded, unshielded, fees, HistConfSpec.moved_in, HistConfSpec.moved_out, HistConfSpec.moved_fees in *. cbn [map] in *. rewrite !zsum_cons in *. lia.
Qed.

(** C71 (partial: one secret key per public key as in C23): take any ledger of accepted
    moves, of any length, the runs of its conversions, and whatever was found in their
    proofs.  Either the hash failed on inputs met there, or the known opening of some
    confidential record and the responses of its conversion give a relation between the
    generators of the commitments, or for every asset type no more left the anonymous
    pool, transparently, in confidential records and in fees, than had entered it. *)
Theorem C71_conversions_create_nothing_partial :
  forall ms fs, Forall move_accepted ms -> Forall sized ms -> moves_ok ms -> Forall2 found_in ms fs ->
  let l := map event_of fs in one_secret l ->
  hash_broken BLS Hash l \/ Exists states_collide fs \/ Exists breaks_commitment ms \/
  forall t, (moved_out t ms + moved_fees t ms <= moved_in t ms)%Z.
Proof.
  intros ms fs A S O Fd l O1. destruct (all_moves ms fs A S Fd) as [K|[K|K]]; [right; now left|right; right; now left|].
  destruct (C70_no_history_creates_value_partial BLS Hash ft l (agree_admitted _ _ K O) O1) as [Bk|(rest & _ & T)]; [now left|].
  right. right. right. intros t. destruct (agree_totals t ms l K) as (T1 & T2 & T3). rewrite <- T1, <- T2, <- T3. apply T.
Qed.
End Ledger.
Print Assumptions C71_accepted_moves_have_findings_partial.
Print Assumptions C71_conversions_create_nothing_partial.

(** ** The hypotheses can be met *)
(** With the ideal proof system: an honestly opened confidential record is converted to
    the only record of the tree, and that record back to the confidential one. *)
Section Honest.
Context (G : Mod RFr) (B H : G) {C : Type} (comp : G -> C) (decomp : C -> option G) (Hdc : forall g, decomp (comp g) = Some g)
  (ceqb : C -> C -> bool) (Hceqb : forall a b, reflect (a = b) (ceqb a b)) (as_num : N -> N).
Notation E := (rgroup RFr G B H comp decomp Hdc ceqb Hceqb).
Notation sc := (fun t => fofN (F := RFr) (as_num t)).
Notation fv := (fun (_ : unit) (fi : list BLS) => Ok fi).
Notation runs := (runs G (Fi := list BLS) (Pf := nat -> BLS)).
Notation rewound := (rewound G B H comp decomp Hdc ceqb Hceqb as_num).
Context (o : oar E) (Ho : consistent E sc o) (Ht : (as_num (XfrModel.o_type E o) < 2 ^ 240)%N) (Hn : is_transparent E (o_bar E o) = false).
Notation am := (XfrModel.o_amount E o). Notation ty := (as_num (XfrModel.o_type E o)).

Definition bit (b : bool) : RFr := if b then 1 else 0.
Definition known : opening := (Z.of_N am, Z.of_N ty, o_blind_lo E o + o_blind_hi E o * fofZ (2 ^ 32), o_type_blind E o).
Lemma known_opens : opened G B H comp decomp Hdc ceqb Hceqb as_num (o_bar E o) known.
Proof.
  destruct (honest_coms RFr G B H comp decomp Hdc ceqb Hceqb as_num o Ho) as [Ca Ct]. assert (Ha : (am < 2 ^ 64)%N) by apply Ho.
  split; [lia|]. split; [lia|]. do 2 eexists. split; [exact Ca|]. split; [exact Ct|]. split; reflexivity.
Qed.
(** The bare equations of the four runs of the honest prover. *)
Lemma honest_rewound start (g : rng (F := RFr)) (r : N) : drawn RFr G start = false ->
  exists q ins, (forall i j : bool, conf_prove BLS RFr bls_rescue G B H comp decomp Hdc ceqb Hceqb as_num (case_chal RFr G i j) start g r o =
      Ok (q (bit i), ins, (bit i), (bit j))) /\
    forall (pf : bool -> bool -> nat -> BLS) (fo : bool -> bool -> list BLS), rewound start (o_bar E o) (mkRuns G (fun i => q (bit i)) pf fo (case_chal RFr G) bit (fun _ => bit)).
Proof.
  intros D0. destruct (rewind BLS RFr bls_rescue G B H comp decomp Hdc ceqb Hceqb as_num g r start o D0) as (q & ins & Q). exists q, ins.
  assert (Q0 : forall i j : bool, conf_prove BLS RFr bls_rescue G B H comp decomp Hdc ceqb Hceqb as_num (case_chal RFr G i j) start g r o =
      Ok (q (bit i), ins, (bit i), (bit j))) by (intros i j; exact (proj1 (Q i j))).
  split; [exact Q0|]. intros pf fo. destruct (Q true true) as (_ & Q1 & Q2). unfold HistConfSpec.rewound. cbn [r_proof r_chal r_beta r_lambda].
  split; [exact (Q1 (bit true))|]. split; [exact (Q2 (bit true))|].
  split; [exact (Field_theory.F_1_neq_0 (f_th RFr))|]. split; [intros _; exact (Field_theory.F_1_neq_0 (f_th RFr))|].
  destruct (honest_coms RFr G B H comp decomp Hdc ceqb Hceqb as_num o Ho) as [Ca Ct]. do 2 eexists. split; [exact Ca|]. split; [exact Ct|]. intros i j.
  destruct (honest_proof BLS RFr bls_rescue rfr_252 G B H comp decomp Hdc ceqb Hceqb as_num (case_chal RFr G i j) start g r o Ho Ht) as (p & ii & be & la & ca & ct & vs & E1 & E2 & E3 & E4 & _).
  rewrite Q0 in E1. apply Ok_inj in E1. apply pair_equal_spec in E1 as [E1 <-]. apply pair_equal_spec in E1 as [E1 <-]. apply pair_equal_spec in E1 as [<- _].
  rewrite Ca in E2. apply Ok_inj in E2. rewrite Ct in E3. apply Ok_inj in E3. subst ca ct. exact E4.
Qed.

Lemma from_case (g : rng (F := RFr)) (r : N) owner blinding pk cp : setup_from pk = Ok cp ->
  let out := commitment BLS Hash owner blinding (fofN am) (fofN ty) in
  exists rs : runs, rewound (from_start BLS RFr G out) (o_bar E o) rs /\ forall i j,
    from_conf_core BLS RFr G B H comp decomp Hdc ceqb Hceqb as_num (Memo := unit) (r_chal G rs i j) ideal cp (mkFb BLS E (o_bar E o) out (r_proof G rs i, r_pf G rs i j) tt) = Ok tt.
Proof.
  intros Ecp out. destruct (honest_rewound (from_start BLS RFr G out) g r eq_refl) as (q & ins & Q & R).
  destruct (four (fun i j w => from_conf_core BLS RFr G B H comp decomp Hdc ceqb Hceqb as_num (Memo := unit) (case_chal RFr G i j) ideal cp (mkFb BLS E (o_bar E o) out (q (bit i), w) tt) = Ok tt)) as [f Hf].
  { intros i j. destruct (from_run G B H comp decomp Hdc ceqb Hceqb as_num (Pf := nat -> BLS) (Vp := tcs BLS) (Memo := unit) (case_chal RFr G i j) g r o owner blinding Ho Ht Hn) as (p & ii & be & la & c & E1 & Ec & HI & K).
    fold out in E1. rewrite Q in E1. apply Ok_inj in E1. apply pair_equal_spec in E1 as [E1 <-]. apply pair_equal_spec in E1 as [E1 <-]. apply pair_equal_spec in E1 as [<- <-].
    destruct (proj1 C63_setup_fits_conf pk _ _ _ _ _ _ Ec) as [cp' [E2 Sc]]. rewrite Ecp in E2. apply Ok_inj in E2. subst cp'.
    exists (val c). apply K. exact (ideal_honest _ _ Sc HI). }
  exists (mkRuns G (fun i => q (bit i)) f (fun _ _ => []) (case_chal RFr G) bit (fun _ => bit)).
  split; [apply R|exact Hf].
Qed.

Lemma to_case depth (g : rng (F := RFr)) (r : N) (pay : payer_w BLS) k root x y skb rx ry rs fr fcomm x0 y0 k0 cp : setup_to x0 y0 depth k0 = Ok cp -> length (p_path BLS pay) = depth ->
  payer_ok BLS pay -> p_amount BLS pay = am -> p_type BLS pay = fofN ty -> in_tree BLS Hash (kp_pk BLS k) root (spend_val BLS pay) ->
  honest_keys k x y skb rx ry rs fr fcomm ->
  let nf := nullifier BLS Hash (kp_pk BLS k) (kp_sk BLS k) (spend_val BLS pay) in
  exists R : runs, rewound (to_start BLS RFr G nf) (o_bar E o) R /\ forall i j,
    verify_to_conf BLS E (to_conf_core BLS RFr G B H comp decomp Hdc ceqb Hceqb as_num (Memo := unit) (r_chal G R i j) fv ideal) cp
      (mkCn BLS E (mkCb BLS E nf (o_bar E o) (r_proof G R i) root 0 None) (r_pf G R i j) (r_fold G R i j)) root tt = Ok tt.
Proof.
  intros Ecp L P1 P2 P3 P4 HK nf. destruct (honest_rewound (to_start BLS RFr G nf) g r eq_refl) as (q & ins & Q & R).
  destruct (four (fun i j w => verify_to_conf BLS E (to_conf_core BLS RFr G B H comp decomp Hdc ceqb Hceqb as_num (Memo := unit) (case_chal RFr G i j) fv ideal) cp
      (mkCn BLS E (mkCb BLS E nf (o_bar E o) (q (bit i)) root 0 None) (fst w) (snd w)) root tt = Ok tt)) as [f Hf].
  { intros i j. destruct (to_run G B H comp decomp Hdc ceqb Hceqb as_num (D := unit) (Fi := list BLS) (Pf := nat -> BLS) (Vp := tcs BLS) (Memo := unit)
      (case_chal RFr G i j) g r o pay k root x y skb rx ry rs fr fcomm 0 0 Ho Ht Hn P1 P2 P3 P4 HK) as (p & ii & be & la & c & fi & E1 & _ & Ec & HI & K).
    fold nf in E1. rewrite Q in E1. apply Ok_inj in E1. apply pair_equal_spec in E1 as [E1 <-]. apply pair_equal_spec in E1 as [E1 <-]. apply pair_equal_spec in E1 as [<- <-].
    destruct (proj2 C63_setup_fits_conf x0 y0 depth k0 _ _ _ _ _ L Ec) as [cp' [E2 Sc]]. rewrite Ecp in E2. apply Ok_inj in E2. subst cp'.
    exists (val c, fi). cbn [fst snd]. apply K; [reflexivity|]. exact (ideal_honest _ _ Sc HI). }
  exists (mkRuns G (fun i => q (bit i)) (fun i j => fst (f i j)) (fun i j => snd (f i j)) (case_chal RFr G) bit (fun _ => bit)).
  split; [apply R|exact Hf].
Qed.
End Honest.

(** Generic forms, so that nothing unfolds the tree of the library. *)
Lemma lone_in_tree (K : PField) (H : K -> K -> K -> K -> K) pk (p : payer_w K) root : p_uid K p = 0%N ->
  map (step_val K) (p_path K p) = repeat (SLeft, 0, 0) 20 ->
  root = ledger_root K H [commitment K H pk (p_blind K p) (fofN (p_amount K p)) (p_type K p)] ->
  in_tree K H pk root (spend_val K p).
Proof. intros U S ->. rewrite <- lone_root, <- S, <- U. reflexivity. Qed.

Section Whole.
Context (G : Mod RFr) (B H : G) {C : Type} (comp : G -> C) (decomp : C -> option G) (Hdc : forall g, decomp (comp g) = Some g)
  (ceqb : C -> C -> bool) (Hceqb : forall a b, reflect (a = b) (ceqb a b)) (as_num : N -> N).
Notation E := (rgroup RFr G B H comp decomp Hdc ceqb Hceqb).
Notation move := (move G B H comp decomp Hdc ceqb Hceqb (D:=unit) (Fi:=list BLS) (Pf:=nat -> BLS) (Sig:=unit) (Memo:=unit)).
Lemma conv_ok (x y : move) c u : move_coms G B H comp decomp Hdc ceqb Hceqb x = [c] -> move_root G B H comp decomp Hdc ceqb Hceqb x = None ->
  move_nulls G B H comp decomp Hdc ceqb Hceqb x = [] -> move_root G B H comp decomp Hdc ceqb Hceqb y = Some (ledger_root BLS Hash [c]) ->
  move_nulls G B H comp decomp Hdc ceqb Hceqb y = [u] -> moves_ok G B H comp decomp Hdc ceqb Hceqb [x; y].
Proof.
  intros C1 R1 N1 R2 N2. split.
  - intros l1 z l2 r0 El Er. destruct l1 as [|a l1]; cbn [app] in El; injection El as <- El; [congruence|].
    destruct l1 as [|b l1]; cbn [app] in El; injection El as <- El; [|now destruct l1].
    exists 1%nat. cbn [flat_map app]. rewrite C1. cbn [app firstn]. congruence.
  - cbn [flat_map]. rewrite N1, N2. constructor; [intros []|constructor].
Qed.
(** With the ideal proof system, every honestly opened confidential record can be
    converted to an anonymous record of every honest key and back: the ledger of these two
    moves meets all hypotheses of the theorem above, and all that entered has left. *)
Theorem C71_honest_ledger :
  forall ft (o : oar E) x y skb rx ry rs fr fcomm k (blind : BLS) (g : rng (F := RFr)) (r : N) (sig_verify : N -> list N -> unit -> res unit),
  consistent E (fun t => fofN (F := RFr) (as_num t)) o -> (as_num (XfrModel.o_type E o) < 2 ^ 240)%N -> is_transparent E (o_bar E o) = false ->
  honest_keys k x y skb rx ry rs fr fcomm ->
  exists (ps pu pf pt : tcs BLS) (ms : list move),
    let px := fun _ _ => None in
    sound_with_conversions ideal ft ps pu pf pt px /\
    Forall (move_accepted G B H comp decomp Hdc ceqb Hceqb as_num (fun _ fi => Ok fi) ideal sig_verify (fun _ => Ok []) ps pu pf pt px) ms /\
    Forall (sized G B H comp decomp Hdc ceqb Hceqb as_num) ms /\ moves_ok G B H comp decomp Hdc ceqb Hceqb ms /\
    let t := code as_num (XfrModel.o_type E o) in
    moved_in G B H comp decomp Hdc ceqb Hceqb as_num t ms = Z.of_N (XfrModel.o_amount E o) /\
    moved_out G B H comp decomp Hdc ceqb Hceqb as_num t ms = Z.of_N (XfrModel.o_amount E o).
Proof.
  intros ft o x y skb rx ry rs fr fcomm k blind g r sig_verify Ho Ht Hn HK.
  destruct (proj1 C63_setup_conf_never_panics (kp_pk BLS k)) as [cf Ef].
  assert (Dp : exists d, d = 20%nat) by (eexists; reflexivity). destruct Dp as [d Ed].
  destruct (proj2 C63_setup_conf_never_panics x y d k) as [ct Et].
  remember (commitment BLS Hash (kp_pk BLS k) blind (fofN (XfrModel.o_amount E o)) (fofN (as_num (XfrModel.o_type E o)))) as com eqn:Hcom.
  remember (ledger_root BLS Hash [com]) as root eqn:Hroot.
  destruct (from_case G B H comp decomp Hdc ceqb Hceqb as_num o Ho Ht Hn g r (kp_pk BLS k) blind _ _ Ef) as (r1 & W1 & A1). rewrite <- Hcom in W1, A1.
  remember (mkPayer BLS (XfrModel.o_amount E o) (fofN (as_num (XfrModel.o_type E o))) 0 lone_path blind) as pay eqn:Hp.
  assert (P0 : length (p_path BLS pay) = d) by (subst; apply repeat_length).
  assert (P1 : payer_ok BLS pay).
  { rewrite Hp. split; [|apply Ho]. apply Forall_forall. intros n I. cbn [p_path] in I. apply repeat_spec in I. subst n. right. left. now split. }
  assert (P2 : p_amount BLS pay = XfrModel.o_amount E o) by now subst.
  assert (P3 : p_type BLS pay = fofN (as_num (XfrModel.o_type E o))) by now subst.
  assert (P4 : in_tree BLS Hash (kp_pk BLS k) root (spend_val BLS pay)).
  { clear A1 W1. assert (Q1 : p_uid BLS pay = 0%N) by (rewrite Hp; reflexivity).
    assert (Q2 : map (step_val BLS) (p_path BLS pay) = repeat (SLeft, 0, 0) 20) by (rewrite Hp; exact lone_steps).
    assert (Q3 : p_blind BLS pay = blind) by (rewrite Hp; reflexivity).
    refine (lone_in_tree BLS Hash (kp_pk BLS k) pay root Q1 Q2 _). rewrite Q3, P2, P3, <- Hcom. exact Hroot. }
  destruct (to_case G B H comp decomp Hdc ceqb Hceqb as_num o Ho Ht Hn d g r pay k root x y skb rx ry rs fr fcomm x y k ct Et P0 P1 P2 P3 P4 HK) as (r2 & W2 & A2).
  revert W2 A2. generalize (nullifier BLS Hash (kp_pk BLS k) (kp_sk BLS k) (spend_val BLS pay)). intros nf W2 A2.
  pose proof (known_opens G B H comp decomp Hdc ceqb Hceqb as_num o Ho Ht) as Kn.
  exists (setup_shield (kp_pk BLS k)), (setup_unshield x y d k), cf, ct.
  exists [MFrom G B H comp decomp Hdc ceqb Hceqb (o_bar E o) com tt r1 (known G B H comp decomp Hdc ceqb Hceqb as_num o);
          MTo G B H comp decomp Hdc ceqb Hceqb nf (o_bar E o) root 0 None tt r2 (known G B H comp decomp Hdc ceqb Hceqb as_num o)].
  cbv zeta. split; [|split; [|split; [|split]]].
  - split; [split; [|split]|split].
    + exists (kp_pk BLS k). apply ideal_extractable.
    + exists x, y, k. rewrite Ed. apply ideal_extractable.
    + intros n m p Y. discriminate Y.
    + exists (kp_pk BLS k), cf. split; [exact Ef|apply ideal_extractable].
    + exists x, y, k, ct. rewrite <- Ed. split; [exact Et|apply ideal_extractable].
  - constructor; [split; [exact W1|exact A1]|]. constructor; [split; [exact W2|exact A2]|constructor].
  - constructor; [exact Kn|]. constructor; [exact Kn|constructor].
  - eapply conv_ok; [reflexivity|reflexivity|reflexivity| |reflexivity]. cbn [move_root]. now rewrite Hroot.
  - unfold moved_in, moved_out, zsum, carries, known, code. cbn [map fold_right].
    unfold fofN. generalize (fofZ (F := BLS) (Z.of_N (as_num (XfrModel.o_type E o)))). intros c. destruct (f_dec c c) as [|Q]; [lia|]. exfalso. apply Q. reflexivity.
Qed.
End Whole.
Print Assumptions C71_honest_ledger.
