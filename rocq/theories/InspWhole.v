(** Inspection: honest runs of the circuits of the two notes, and their panics. *)
From Coq Require Import List ZArith NArith Bool Lia ZifyBool ZifyNat ZifyN Field.
From Verif Require Import Base Field PField UtilsModel TurboModel TurboSpec TurboProofs TurboHonest TurboKit TurboEmit Power RescueModel RescueSpec RescueProofs
  MixModel MixLemmas AxfrModel AxfrSpec AxfrProofs AxfrHonest FoldModel SimModel SimSpec SimProofs SimCircuit SimHonest SimAlloc
  NoteProofs AfoldModel AfoldEmit AfoldProofs AfoldHonest AfoldRun AfoldWhole InspModel InspSpec InspProofs InspRun.
Import ListNotations.
Local Open Scope F_scope.

Section Kit.
Context (F : PField).
Definition rhp {A} (m : CR F A) c (Q : A -> tcs F -> list F -> Prop) : Prop :=
  exists a c', m c = Ok (a, c') /\ Inv c' /\ extends c c' /\
  exists vs, pub_values (val c') c' = pub_values (val c) c ++ vs /\ Q a c' vs.
Lemma rh_lift {A} (m : CS F A) c Q : hp F m c Q -> rhp (lift m) c Q.
Proof. intros (H1 & H2 & H3). exists (fst (m c)), (snd (m c)). unfold lift. rewrite <- surjective_pairing. auto. Qed.
Lemma rh_bind {A B} (m : CR F A) (f : A -> CR F B) c Q1 Q :
  rhp m c Q1 -> (forall a c' v1, Inv c' -> extends c c' -> Q1 a c' v1 -> rhp (f a) c' (fun b c2 v2 => Q b c2 (v1 ++ v2))) ->
  rhp (rbnd m f) c Q.
Proof.
  intros (a & c1 & E1 & I1 & X1 & v1 & V1 & H1) Hf. destruct (Hf a c1 v1 I1 X1 H1) as (b & c2 & E2 & I2 & X2 & v2 & V2 & H2).
  exists b, c2. unfold rbnd. rewrite E1. split; [exact E2|]. split; [exact I2|]. split; [exact (extends_trans F _ _ _ X1 X2)|].
  exists (v1 ++ v2). split; [now rewrite V2, V1, app_assoc|exact H2].
Qed.
Lemma rh_of {A} (m : CR F A) c (Q : A -> tcs F -> Prop) (G : gate F -> Prop) QE : Inv c -> remits F G m QE -> (forall g, G g -> silent F g) -> har F m c Q ->
  rhp m c (fun a c' vs => vs = [] /\ Q a c').
Proof.
  intros HI HE HG (a & c' & E & I1 & X1 & H). exists a, c'. split; [exact E|]. split; [exact I1|]. split; [exact X1|]. exists []. split; [|auto].
  destruct (HE c a c' ltac:(apply HI) E) as (gs & G1 & G2 & _). rewrite (pub_values_app F c c' gs _ G1), silent_pub; [f_equal; now apply pub_same|].
  eapply Forall_impl; [|exact G2]. exact HG.
Qed.
End Kit.

Section Whole.
Context (F K : PField) (Hp : (2 ^ 254 < pchar F)%Z) (P : rescue_instance F) (HP : rescue_ok F P) (e : N) (He : exp_inv F 5 e).
Context (HK : pchar K = modulus ristretto).
Add Field Fiw : (f_th F).
Notation hash := (AxfrModel.hash F P).
Notation plain_sil := (plain_sil F).

Lemma rh_body w am ty (A T : F) vs c : Inv c -> insp_honest F K P w A T -> has F c am A -> has F c ty T ->
  insp_inputs F K (iw_comm w) (iw_resp w) (iw_beta w) (iw_lambda w) = Ok vs ->
  rhp F (insp_body F K P e w am ty) c (fun l c' v => v = [] /\ Forall2 (has F c') l vs).
Proof.
  intros HI HW HA HT EV. eapply (rh_of F _ _ _ (plain F any)); [exact HI|apply re_insp_body; unfold any; auto|exact plain_sil|].
  exact (hi_body F K Hp P HP e He HK w am ty A T vs c HI HW HA HT EV).
Qed.
Lemma from_complete amount ty blind pk w vs : insp_honest F K P w amount ty ->
  insp_inputs F K (iw_comm w) (iw_resp w) (iw_beta w) (iw_lambda w) = Ok vs ->
  rhp F (bar_to_abar_cs F K P e amount ty blind pk w) (cs_new F) (fun _ _ v => v = commitment F hash pk blind amount ty :: vs).
Proof.
  intros HW EV. unfold bar_to_abar_cs. pose proof (inv_new F) as I0.
  eapply rh_bind; [apply rh_lift, (hp_new F _ _ I0)|]. intros av c1 v1 I1 X1 [-> A1].
  eapply rh_bind; [apply rh_lift, (hp_new F _ _ I1)|]. intros tv c2 v2 I2 X2 [-> A2]. apply (has_mono F _ _ _ _ X2) in A1.
  eapply rh_bind; [apply rh_lift, (hp_new F _ _ I2)|]. intros bv c3 v3 I3 X3 [-> A3]. apply (has_mono F _ _ _ _ X3) in A1, A2.
  eapply rh_bind; [apply rh_lift; eapply (hp_of F _ _ _ (plain F any)); [exact I3|apply (e_new_pk F any any2)|exact plain_sil|apply (ha_new_pk F _ _ I3)]|].
  intros pkv c4 v4 I4 X4 [-> Hpk]. apply (has_mono F _ _ _ _ X4) in A1, A2, A3.
  eapply rh_bind; [eapply rh_body; [exact I4|exact HW|exact A1|exact A2|exact EV]|]. intros l c5 v5 I5 X5 [-> HL].
  apply (has_mono F _ _ _ _ X5) in A1, A2, A3. pose proof (has_pk_mono F _ _ _ _ X5 Hpk) as Hpk5.
  eapply rh_bind; [apply rh_lift; eapply (hp_of F _ _ _ (plain F any)); [exact I5|apply (e_commit F P e any any0 any2); [exact I..|apply okpk_any]|exact plain_sil|
    eapply (ha_commit F P HP e He); eassumption]|].
  intros com c6 v6 I6 X6 [-> Hc]. cbn beta in Hc. eapply (all_mono F _ _ _ _ X6) in HL.
  destruct (publish_hp F (com :: l) (commitment F hash pk blind amount ty :: vs) c6 I6) as (J1 & J2 & v7 & J3 & ->).
  { constructor; [destruct pk as [[p0 p1] p2]; exact Hc|exact HL]. }
  apply rh_lift. split; [exact J1|]. split; [exact J2|]. eexists. split; [exact J3|reflexivity].
Qed.
Context (fold : pk_v -> sk_v -> CR F unit) (k : keypair F) (fv : list F)
  (Hf : forall pk sk c, Inv c -> has_pk F c pk (kp_pk F k) -> has_sk F c sk (kp_sk F k) -> rhp F (fold pk sk) c (fun _ _ v => v = fv)).
Ltac lift_all E := cbn beta in *; repeat match type of E with extends ?c ?c' => match goal with
  | H : TurboProofs.has F c _ _ |- _ => apply (has_mono F c c' _ _ E) in H
  | H : has_pk F c _ _ |- _ => apply (has_pk_mono F c c' _ _ E) in H
  | H : has_sk F c _ _ |- _ => apply (has_sk_mono F c c' _ _ E) in H
  | H : has_payer F c _ _ |- _ => apply (has_payer_mono F c c' _ _ E) in H
  end end.
Lemma to_complete p w vs root : payer_ok F p -> in_tree F hash (kp_pk F k) root (spend_val F p) ->
  insp_honest F K P w (fofN (p_amount F p)) (p_type F p) ->
  insp_inputs F K (iw_comm w) (iw_resp w) (iw_beta w) (iw_lambda w) = Ok vs ->
  rhp F (abar_to_bar_cs F K P e fold p k w) (cs_new F)
  (fun _ _ v => v = nullifier F hash (kp_pk F k) (kp_sk F k) (spend_val F p) :: root :: vs ++ fv).
Proof.
  intros Hpay HT HW EV. unfold abar_to_bar_cs. pose proof (inv_new F) as I0.
  eapply rh_bind; [apply rh_lift; eapply (hp_of F _ _ _ (plain F any)); [exact I0|apply (e_add_payer F any any0 any2)|exact plain_sil|apply (ha_add_payer F _ _ I0 Hpay)]|].
  intros v c1 v1 I1 E1 [-> Hv]. lift_all E1.
  eapply rh_bind; [apply rh_lift; eapply (hp_of F _ _ _ (plain F any)); [exact I1|apply (e_new_pk F any any2)|exact plain_sil|apply (ha_new_pk F _ _ I1)]|].
  intros pk c2 v2 I2 E2 [-> Hpk]. lift_all E2.
  eapply rh_bind; [apply rh_lift; eapply (hp_of F _ _ _ (plain F any)); [exact I2|apply (e_new_sk F any any2)|exact plain_sil|apply (ha_new_sk F _ _ I2)]|].
  intros sk c3 v3 I3 E3 [-> Hsk]. lift_all E3.
  pose proof Hv as [V1 [V2 [V3 [V4 V5]]]].
  eapply rh_bind; [apply rh_lift; eapply (hp_of F _ _ _ (plain F any)); [exact I3|apply (e_commit F P e any any0 any2); [exact I..|apply okpk_any]|exact plain_sil|
    eapply (ha_commit F P HP e He); eassumption]|].
  intros com c4 v4 I4 E4 [-> Hc]. clear V1 V2 V3 V4 V5. lift_all E4. pose proof Hv as [V1 [V2 [V3 [V4 V5]]]].
  eapply rh_bind; [apply rh_lift; eapply (hp_of F _ _ _ (plain F any)); [exact I4|apply (e_lc F any any2); exact I|exact plain_sil|
    eapply (ha_linear_combine F c4); [exact I4|exact V1|exact V2|apply (has_zero F c4 I4)|apply (has_zero F c4 I4)]]|].
  intros ua c5 v5 I5 E5 [-> Hua]. clear V1 V2 V3 V4 V5. lift_all E5. pose proof Hv as [V1 [V2 [V3 [V4 V5]]]].
  eapply rh_bind; [apply rh_lift; eapply (hp_of F _ _ _ (plain F any)); [exact I5|apply (e_nullify F P e any any0 any2); [apply oksk_any|exact I|exact I|apply okpk_any]|exact plain_sil|
    eapply (ha_nullify_val F P HP e He); eassumption]|].
  intros nf c6 v6 I6 E6 [-> Hnf]. clear V1 V2 V3 V4 V5.
  assert (Hnf' : has F c6 nf (nullifier F hash (kp_pk F k) (kp_sk F k) (spend_val F p))).
  { unfold nullifier. destruct (kp_pk F k) as [[q0 q1] q2]. cbn [spend_val sp_uid sp_amount sp_type].
    set (z := fofZ (2 ^ 64)) in *. replace (fofN (p_uid F p) * z + fofN (p_amount F p)) with
      (z * fofN (p_uid F p) + 1 * fofN (p_amount F p) + 0 * 0 + 0 * 0) by ring. exact Hnf. }
  clear Hnf. lift_all E6. pose proof Hv as [V1 [V2 [V3 [V4 V5]]]]. destruct Hpay as [HF HA].
  eapply rh_bind; [apply rh_lift; eapply (hp_of F _ _ _ (plain F any)); [exact I6|apply (e_merkle F P e any any0 any2); [exact I..|apply oknodes_any]|exact plain_sil|
    eapply (ha_merkle F P HP e He); [exact I6|exact V1|exact Hc|exact V5|exact HF]]|].
  intros rt c7 v7 I7 E7 [-> Hr]. clear V1 V2 V3 V4 V5. lift_all E7. pose proof Hv as [V1 [V2 [V3 [V4 V5]]]].
  assert (Hr' : has F c7 rt root). { unfold in_tree in HT. cbn [spend_val sp_uid sp_path] in HT. unfold spend_com in HT. cbn [spend_val sp_blind sp_amount sp_type] in HT. rewrite <- HT. exact Hr. }
  clear Hr. eapply rh_bind; [eapply rh_body; [exact I7|exact HW|exact V2|exact V3|exact EV]|]. intros l c8 v8 I8 E8 [-> HL]. clear V1 V2 V3 V4 V5. lift_all E8.
  eapply rh_bind; [apply rh_lift, (publish_hp F (nf :: rt :: l) (nullifier F hash (kp_pk F k) (kp_sk F k) (spend_val F p) :: root :: vs) c8 I8)|].
  { constructor; [exact Hnf'|]. constructor; [exact Hr'|exact HL]. }
  intros u c9 v9 I9 E9 ->. lift_all E9. destruct (Hf pk sk c9 I9 Hpk Hsk) as (a & c' & Ea & Ia & Xa & va & Va & ->).
  exists a, c'. split; [exact Ea|]. split; [exact Ia|]. split; [exact Xa|]. exists fv. split; [exact Va|reflexivity].
Qed.
End Whole.

(** The circuits are built without a panic from every witness of two data, two
    responses and the combined equation. *)
Section Total.
Context (F K : PField) (Hp : (2 ^ 254 < pchar F)%Z) (P : rescue_instance F) (e : N) (HK : pchar K = modulus ristretto).
Lemma from_total amount ty blind pk w : insp_builds F K w -> rtot F (bar_to_abar_cs F K P e amount ty blind pk w) (fun _ => True).
Proof.
  intros HW. unfold bar_to_abar_cs. do 4 (eapply tt_bind; [apply (tt_any F)|]; intros ? _).
  eapply tt_bind; [apply (tr_body F K Hp P e HK); exact HW|]. intros l _. eapply tt_bind; [apply (tt_any F)|]. intros ? _. apply (tt_any F).
Qed.
Lemma to_total fold p k w : insp_builds F K w -> (forall pk sk, rtot F (fold pk sk) (fun _ => True)) ->
  rtot F (abar_to_bar_cs F K P e fold p k w) (fun _ => True).
Proof.
  intros HW Hf. unfold abar_to_bar_cs. do 7 (eapply tt_bind; [apply (tt_any F)|]; intros ? _).
  eapply tt_bind; [apply (tr_body F K Hp P e HK); exact HW|]. intros l _. eapply tt_bind; [apply (tt_any F)|]. intros ? _. apply Hf.
Qed.
End Total.
