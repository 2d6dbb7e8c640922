(** C60 for the notes between confidential and anonymous records: the challenges of the
    delegated Schnorr proof bind the direction and the anonymous side of the conversion. *)
From Coq Require Import List ZArith NArith Bool Lia.
From Verif Require Import Base Field PField UtilsModel TurboModel RescueModel XfrModel AxfrModel AxfrProps SigmaModel SigmaSpec BindProps NoteModel NoteProps AfoldModel AfoldProps
  InspModel InspSpec InspNotes InspProps ParamsProofs.
Import ListNotations.
Local Open Scope F_scope.

Lemma num_inj (x y : BLS) : scalar_num BLS x = scalar_num BLS y -> x = y.
Proof.
  unfold scalar_num. intros E. rewrite <- (fofZ_toZ BLS x), <- (fofZ_toZ BLS y). f_equal. pose proof (toZ_range BLS x). pose proof (toZ_range BLS y). apply Z2N.inj; lia.
Qed.
Section Conf.
Context (G : Mod RFr) (B H : G) {C : Type} (comp : G -> C) (decomp : C -> option G) (Hdc : forall g, decomp (comp g) = Some g)
  (ceqb : C -> C -> bool) (Hceqb : forall a b, reflect (a = b) (ceqb a b)) (as_num : N -> N) {D Fi Pf Vp Memo : Type}.
Notation E := (rgroup RFr G B H comp decomp Hdc ceqb Hceqb).
Notation amount_com := (com_amount RFr G B H comp decomp Hdc ceqb Hceqb).
Notation type_com := (com_type RFr G B H comp decomp Hdc ceqb Hceqb as_num).
Notation proof := (ds_proof (F := RFr) (G := G)).
Notation transcript := (transcript (F := RFr) (G := G)).
Notation oracle := (oracle (F := RFr) (G := G)).
Notation from_accepts chal plonk := (from_conf_core BLS RFr G B H comp decomp Hdc ceqb Hceqb as_num (Pf := Pf) (Vp := Vp) (Memo := Memo) chal plonk).
Notation to_core chal fv plonk := (to_conf_core BLS RFr G B H comp decomp Hdc ceqb Hceqb as_num (D := D) (Fi := Fi) (Pf := Pf) (Vp := Vp) (Memo := Memo) chal fv plonk).
Notation to_accepts chal fv plonk := (verify_to_conf BLS E (to_core chal fv plonk)).
Notation note_from := (from_body BLS E (Pf := Pf) (Memo := Memo) (Cproof := proof)).
Notation note_to := (conf_note BLS E (Fi := Fi) (Pf := Pf) (Memo := Memo) (Cproof := proof)).
(** There are two queries, injective together in the direction ([true]: towards the pool),
    the new record's commitment or the spent record's nullifier, the commitments of the
    confidential side, the inspector's commitment, the randomizers and (the second one) the
    responses; the verdict on a note depends on the hash function only at its two queries.  So
    a proof made for one conversion, other record or other direction has unrelated
    challenges in another one. *)
Theorem C60_conversion_challenges_bind :
  exists (q1 : bool -> BLS -> list G -> N -> list G -> transcript) (q2 : bool -> BLS -> list G -> N -> list G -> list (RFr * RFr) -> transcript),
  (forall d x coms comm rand d' x' coms' comm' rand', q1 d x coms comm rand = q1 d' x' coms' comm' rand' -> d = d' /\ x = x' /\ coms = coms' /\ comm = comm' /\ rand = rand') /\
  (forall d x coms comm rand resp d' x' coms' comm' rand' resp', q2 d x coms comm rand resp = q2 d' x' coms' comm' rand' resp' ->
     d = d' /\ x = x' /\ coms = coms' /\ comm = comm' /\ rand = rand' /\ resp = resp') /\
  (forall (chal chal' : oracle) plonk vp (b : note_from) ca ct, amount_com (fb_in BLS E b) = Ok ca -> type_com (fb_in BLS E b) = Ok ct ->
     let p := fst (fb_proof BLS E b) in
     let a1 := q1 true (fb_out BLS E b) [ca; ct] (ds_comm p) (ds_rand p) in let a2 := q2 true (fb_out BLS E b) [ca; ct] (ds_comm p) (ds_rand p) (ds_resp p) in
     chal a1 = chal' a1 -> chal a2 = chal' a2 -> from_accepts chal plonk vp b = from_accepts chal' plonk vp b) /\
  (forall (chal chal' : oracle) fv plonk vp (n : note_to) root h ca ct, let b := cn_body BLS E n in
     amount_com (cb_out BLS E b) = Ok ca -> type_com (cb_out BLS E b) = Ok ct ->
     let p := cb_cp BLS E b in
     let a1 := q1 false (cb_in BLS E b) [ca; ct] (ds_comm p) (ds_rand p) in let a2 := q2 false (cb_in BLS E b) [ca; ct] (ds_comm p) (ds_rand p) (ds_resp p) in
     chal a1 = chal' a1 -> chal a2 = chal' a2 -> to_accepts chal fv plonk vp n root h = to_accepts chal' fv plonk vp n root h).
Proof.
  destruct (C60_delegated_challenges_bind B H) as [q1 [q2 [I1 [I2 V]]]].
  set (start := fun (d : bool) (x : BLS) => if d then from_start BLS RFr G x else to_start BLS RFr G x).
  assert (SI : forall d x d' x', start d x = start d' x' -> d = d' /\ x = x').
  { intros [] x [] x' Q; unfold start, from_start, to_start in Q; injection Q; try discriminate; intros Y; split; auto; apply num_inj, Y. }
  exists (fun d x => q1 (start d x)), (fun d x => q2 (start d x)). split; [|split; [|split]].
  - intros d x coms comm rand d' x' coms' comm' rand' Q. apply I1 in Q. destruct Q as [Q R]. apply SI in Q. tauto.
  - intros d x coms comm rand resp d' x' coms' comm' rand' resp' Q. apply I2 in Q. destruct Q as [Q R]. apply SI in Q. tauto.
  - intros chal chal' plonk vp b ca ct Ea Et p a1 a2 E1 E2. unfold from_conf_core. destruct (is_transparent _ _); [reflexivity|]. rewrite Ea, Et. cbn [bind].
    rewrite (V chal chal' (from_start BLS RFr G (fb_out BLS E b)) [ca; ct] (fst (fb_proof BLS E b)) E1 E2). reflexivity.
  - intros chal chal' fv plonk vp n root h ca ct b Ea Et p a1 a2 E1 E2. unfold verify_to_conf, to_conf_core. fold b. rewrite Ea, Et. cbn [bind].
    rewrite (V chal chal' (to_start BLS RFr G (cb_in BLS E b)) [ca; ct] (cb_cp BLS E b) E1 E2). reflexivity.
Qed.
End Conf.
Print Assumptions C60_conversion_challenges_bind.
(** The queries exist for honest notes, and the two starts differ for equal scalars. *)
Example C60_case_directions (x : BLS) : from_start BLS RFr (self_mod RFr) x <> to_start BLS RFr (self_mod RFr) x.
Proof. discriminate. Qed.
