(** C50 and C75: records built from templates with identity openings, and records built
    without identities. *)
From Coq Require Import List NArith ZArith Bool Lia ZifyBool ZifyNat ZifyN.
From Verif Require Import Base Field UtilsModel XfrModel XfrSpec XfrProofs SigmaModel NoteModel KeyModel HybModel KeySpec RecordModel RecordSpec RecordProps TraceModel TraceSpec TraceProps HybProps Zp Primality XfrToy.
Import ListNotations.
Local Open Scope N_scope.

Section Build.
Context (H : hsuite) (X : schemes) (S : suite) (L : slink X S) (E : pgroup) (D : dhsuite S E).
Context (as_scalar : N -> PF E).
Context {BF : Field} {BG : Mod BF} (IP IDP : Type).
Local Notation policy := (policy E (BG := BG) IP).
Local Notation act := (act (BG := BG)).
Local Notation opening := (option (list act * IDP) * bytes)%type.
Local Notation template := (template X E (BG := BG) IP).
Local Notation arecord := (arecord E (BG := BG) IP IDP).
Local Notation build_input := (build_record_input H X S L E D as_scalar (BG := BG) IP IDP).
Local Notation no_identity := (ar_traced_no_identity H E as_scalar (BG := BG) IP IDP).
Local Notation build := (build_open_asset_record H X S L E D as_scalar (BG := BG) IP).

(** The openings [ids] fit the policies [ps]: one for each policy, and none where the
    policy asks for no identity. *)
Definition fits (ps : list policy) (ids : list opening) : Prop :=
  Forall2 (fun p i => p_ident E IP p = None -> fst i = None) ps ids.
(** The ciphertexts for the memos: each attribute with its ciphertext. *)
Definition attrs_of (ids : list opening) : list (list (N * act)) :=
  map (fun i => match fst i with None => [] | Some c => combine (snd i) (fst c) end) ids.

Lemma fits_iff ps ids : fits ps ids <->
  length ps = length ids /\ existsb (fun pi : policy * opening => match p_ident E IP (fst pi), fst (snd pi) with None, Some _ => true | _, _ => false end) (combine ps ids) = false.
Proof.
  unfold fits. revert ids. induction ps as [|p ps IH]; intros [|[i a] ids].
  - split; [intros; split; reflexivity|constructor].
  - split; [intros Q; inversion Q|intros [Q _]; discriminate].
  - split; [intros Q; inversion Q|intros [Q _]; discriminate].
  - cbn [length combine existsb fst snd]. split.
    + intros Q. inversion Q as [|? ? ? ? Q1 Q2]; subst. apply IH in Q2. destruct Q2 as [Q2 Q3]. split; [now rewrite Q2|]. rewrite Q3, orb_false_r. cbn [fst] in Q1.
      destruct (p_ident E IP p); [reflexivity|]. now rewrite (Q1 eq_refl).
    + intros [Q1 Q2]. injection Q1 as Q1. apply orb_false_iff in Q2. destruct Q2 as [Q2 Q3]. constructor; [|apply IH; now split]. cbn [fst]. intros Q4. rewrite Q4 in Q2. now destruct i.
Qed.

(** C75: a record is built from a template exactly if the openings fit the policies; it
    then has the template's policies and, policy by policy, the proofs of the openings. *)
Theorem C75_building_checks_identities :
  forall (t : template) r es ids,
  (~ fits (t_policies X E IP t) ids -> build_input t r es ids = Err) /\
  (fits (t_policies X E IP t) ids ->
   (forall a, build_input t r es ids = Ok a -> exists tm om, build t r es (attrs_of ids) = Ok (ar_open E IP IDP a, tm, om) /\
      ar_policies E IP IDP a = t_policies X E IP t /\ ar_memos E IP IDP a = tm /\ ar_owner E IP IDP a = om /\
      ar_idproofs E IP IDP a = map (fun i => option_map snd (fst i)) ids) /\
   (forall x, build t r es (attrs_of ids) = Ok x -> exists a, build_input t r es ids = Ok a)).
Proof.
  intros t r es ids. unfold build_record_input. split.
  - intros N. destruct (Nat.eqb_spec (length (t_policies X E IP t)) (length ids)) as [Q|]; [|reflexivity]. cbn [negb].
    match goal with |- context [existsb ?f ?l] => destruct (existsb f l) eqn:X1 end; [reflexivity|]. exfalso. apply N, fits_iff. now split.
  - intros F. apply fits_iff in F. destruct F as [F1 F2]. rewrite F1, Nat.eqb_refl, F2. cbn [negb]. fold (attrs_of ids). split.
    + intros a Q. apply bind_inv in Q. destruct Q as [[[o tm] om] [Q1 Q2]]. apply Ok_inj in Q2. subst a. exists tm, om. do 4 (split; [assumption || reflexivity|]).
      cbn [ar_idproofs]. apply map_ext. intros [[c|] l]; reflexivity.
    + intros [[o tm] om] Q. rewrite Q. cbn [bind]. eexists. reflexivity.
Qed.

(** C75: the builder without identities refuses exactly the policies that ask for one. *)
Theorem C75_building_without_identities :
  forall es o (ps : list policy),
  ((exists p, In p ps /\ p_ident E IP p <> None) <-> no_identity es o ps = Err) /\
  (forall a, no_identity es o ps = Ok a -> ar_open E IP IDP a = o /\ ar_policies E IP IDP a = ps /\ ar_idproofs E IP IDP a = repeat None (length ps)) /\
  no_identity es o ps <> Panic.
Proof.
  intros es o ps. unfold ar_traced_no_identity. match goal with |- context [existsb ?f ps] => destruct (existsb f ps) eqn:X1 end.
  - split; [|split; [discriminate|discriminate]]. split; [reflexivity|]. intros _. apply existsb_exists in X1. destruct X1 as [p [X1 X2]]. exists p. split; [exact X1|]. now destruct (p_ident E IP p).
  - split; [|split; [|discriminate]].
    + split; [|discriminate]. intros [p [P1 P2]]. exfalso. rewrite <- not_true_iff_false in X1. apply X1. apply existsb_exists. exists p. split; [exact P1|]. now destruct (p_ident E IP p).
    + intros a Q. apply Ok_inj in Q. subst a. do 2 (split; [reflexivity|]). cbn [ar_idproofs]. clear. induction ps as [|p ps IH]; [reflexivity|]. cbn [map length repeat]. now rewrite IH.
Qed.

(** C50: the records built from templates are honest, so the theorems about honest
    transfers apply to them. *)
Theorem C50_template_records :
  forall (t : template) r es ids a, is_u64 (t_amount X E IP t) -> build_input t r es ids = Ok a ->
  honest_record H E as_scalar IP IDP (mkHr E IP IDP a es (attrs_of ids)) /\ ar_policies E IP IDP a = t_policies X E IP t.
Proof.
  intros t r es ids a Ha Q. assert (F : fits (t_policies X E IP t) ids).
  { unfold build_record_input in Q. apply fits_iff. destruct (Nat.eqb_spec (length (t_policies X E IP t)) (length ids)) as [Q1|]; [|discriminate]. cbn [negb] in Q.
    match type of Q with context [existsb ?f ?l] => destruct (existsb f l) eqn:X1 end; [discriminate|]. now split. }
  destruct (C75_building_checks_identities t r es ids) as [_ T]. destruct (T F) as [T1 _]. destruct (T1 a Q) as (tm & om & B & P & M & O & I).
  split; [|exact P]. split; cbn [h_rec]; [exact (C51_built_records_are_consistent H X S L E D as_scalar IP t r es _ _ _ _ Ha B)|].
  unfold honest_memos. cbn [h_rec h_attrs h_es]. unfold h_policies. cbn [h_rec]. rewrite P. split.
  - unfold attrs_of. rewrite map_length. symmetry. exact (proj1 (proj1 (fits_iff _ _) F)).
  - rewrite M. clear -B. destruct t as [am ty pk rt ps]. unfold build_open_asset_record, sample_fields in B. cbn [t_rt t_amount t_type t_pk t_policies] in *.
    destruct rt; cbn [get_flags] in B; (apply bind_inv in B; destruct B as [[[[[am' tyf] ab] tb] omm] [B1 B]]; apply Ok_inj in B; injection B as Bo Bt Bm; rewrite <- Bo, <- Bt; clear Bo Bt Bm;
      cbn [o_bar o_amount o_type o_blind_lo o_blind_hi o_type_blind]).
    + apply bind_inv in B1. destruct B1 as [[m b] [_ B2]]. apply Ok_inj in B2. cbn [fst snd] in B2. injection B2 as <- <- <- <- <-. reflexivity.
    + apply bind_inv in B1. destruct B1 as [[m [b1 b2]] [_ B2]]. apply Ok_inj in B2. cbn [fst snd] in B2. injection B2 as <- <- <- <- <-. reflexivity.
    + apply bind_inv in B1. destruct B1 as [[[m [b1 b2]] tb'] [_ B2]]. apply Ok_inj in B2. cbn [fst snd] in B2. injection B2 as <- <- <- <- <-. reflexivity.
    + apply Ok_inj in B1. injection B1 as <- <- <- <- <-. reflexivity.
Qed.
End Build.
Print Assumptions C75_building_checks_identities.
Print Assumptions C75_building_without_identities.
Print Assumptions C50_template_records.

(** A hidden record traced under two policies, the second of which asks for an identity:
    it is built with openings that fit and refused with others. *)
Definition two_policies : template toy_x toy (BG := case_bg) unit :=
  mkTpl toy_x toy unit (2 ^ 40 + 7) (2 ^ 250 + 3) (pub_of toy_x (@SkEd toy_x true)) RT_ConfAmt_ConfType
    [mkPol toy unit (tk_enc toy case_key) true None; mkPol toy unit (tk_enc toy case_key) true (Some tt)].
Definition an_opening : option (list (case_bg * case_bg) * unit) * bytes := (Some ([((fofN 3 : RistrettoFr) : case_bg, (fofN 4 : RistrettoFr) : case_bg)], tt), [9]).
Definition built (ids : list (option (list (case_bg * case_bg) * unit) * bytes)) : res (nat * nat * list (option unit)) :=
  rmap (fun a => (length (ar_policies toy unit unit a), length (ar_memos toy unit unit a), ar_idproofs toy unit unit a))
    (build_record_input toy_h toy_x toy_s toy_l toy toy_d case_sc (BG := case_bg) unit unit two_policies (toy_rnd true) case_es ids).
Example C75_building_case :
  built [(None, []); an_opening] = Ok (2%nat, 2%nat, [None; Some tt]) /\ built [(None, []); (None, [])] = Ok (2%nat, 2%nat, [None; None]) /\
  built [an_opening; an_opening] = Err /\ built [(None, [])] = Err /\ built [(None, []); an_opening; (None, [])] = Err.
Proof. repeat split; vm_compute; reflexivity. Qed.
