(** Address folding: the gadget as a whole. *)
From Coq Require Import List ZArith NArith Bool Lia ZifyBool ZifyNat ZifyN Field.
From Verif Require Import Base Field PField UtilsModel TurboModel TurboSpec TurboProofs TurboHonest TurboKit TurboEmit Power RescueModel RescueSpec RescueProofs
  MixModel MixLemmas AxfrModel AxfrSpec AxfrProofs AxfrHonest FoldModel FoldProofs FoldLemmas SimModel SimSpec SimProofs SimZero SimCircuit SimHonest SimAlloc
  NoteProofs AfoldModel AfoldSpec AfoldEmit AfoldProofs AfoldHonest AfoldRun.
Import ListNotations.
Local Open Scope Z_scope.

Section Whole.
Context (F K : PField) (Hp : 2 ^ 254 < pchar F) (P : rescue_instance F) (HP : rescue_ok F P) (e : N) (He : exp_inv F 5 e).
Context (HK : pchar K = modulus secq256k1).
Local Open Scope F_scope.
Notation S := secq256k1.
Notation has := (has F).
Notation all c vs xs := (Forall2 (has c) vs xs).
Let Hp' : (2 ^ 254 <= pchar F)%Z. Proof. lia. Qed.
Let HS : facts S. Proof. apply valid_facts. now right. Qed.
Implicit Types (c : tcs F).
Notation fw := (fold_witness F K).

(** The gadget as a builder that never panics: a panic adds nothing. *)
Definition folding (w : fw) (pk : pk_v) (sk : sk_v) : CS F unit := fun c =>
  match prove_address_folding_in_cs F K P e pk sk w c with Ok p => p | _ => (tt, c) end.
Lemma folding_ok w pk sk : witness_builds F K w -> forall c, prove_address_folding_in_cs F K P e pk sk w c = Ok (folding w pk sk c).
Proof.
  intros Hw c. unfold folding. destruct (tt_fold_body F K Hp P e HK pk sk w Hw c) as (l & c1 & E & _).
  unfold prove_address_folding_in_cs, rbnd, lift. rewrite E. reflexivity.
Qed.
Lemma folding_eq w pk sk c p : prove_address_folding_in_cs F K P e pk sk w c = Ok p ->
  exists l c1, fold_body F K P e pk sk w c = Ok (l, c1) /\ p = publish F l c1.
Proof.
  unfold prove_address_folding_in_cs, rbnd, lift. destruct (fold_body F K P e pk sk w c) as [[l c1]| |]; try discriminate.
  intros H. apply Ok_inj in H. subst p. eauto.
Qed.
Lemma publish_sp l : soundp F (publish F l) (fun _ => True) (fun w _ vs => vs = map w l).
Proof.
  unfold publish. eapply (spb F _ _ (fun _ => True) (fun w _ vs => vs = map w l)).
  - induction l as [|v l IH]; cbn [RescueModel.mapM map]; [apply spr; auto|].
    eapply spb; [apply sp_pi|]. intros a _. eapply spb; [apply IH|]. intros os _. apply spr; [exact I|]. intros w v1 -> v0 ->. now rewrite app_nil_r.
  - intros os _. apply spr; [exact I|]. intros w v1 ->. now rewrite app_nil_r.
Qed.
Lemma publish_em l : Forall not1 l -> emits F (avoids_one F) (publish F l) (fun _ => True).
Proof.
  intros H. unfold publish. eapply (eb F _ _ _ (fun _ => True)); [|intros; apply er; exact I].
  induction H as [|v l Hv _ IH]; cbn [RescueModel.mapM]; [apply er; exact I|].
  eapply eb; [apply em_pi, Hv|]. intros a _. eapply eb; [apply IH|]. intros os _. apply er. exact I.
Qed.
Lemma any_okpk pk : okpk (fun _ => True) pk. Proof. destruct pk as [[a b] d]. cbn. auto. Qed.
Lemma any_oksk sk : oksk (fun _ => True) sk. Proof. split; exact I. Qed.
Lemma folding_avoids w pk sk : ok_pk not1 pk -> ok_sk not1 sk -> emits F (avoids_one F) (folding w pk sk) (fun _ => True).
Proof.
  intros H1 H2 c Hc. unfold folding. destruct (prove_address_folding_in_cs F K P e pk sk w c) as [p| |] eqn:E; cbn [fst snd].
  - apply folding_eq in E. destruct E as (l & c1 & E & ->).
    destruct (re_fold_body F K not1 not1_0 not1_2 P e pk sk w H1 H2 c l c1 Hc E) as (gs & G1 & G2 & G3 & G4).
    destruct (publish_em l G4 c1) as (gs' & G5 & G6 & G7 & _); [lia|].
    exists (gs' ++ gs). split; [rewrite G5, G1; apply app_assoc|]. split; [apply Forall_app; split; [exact G6|]|split; [lia|exact I]].
    eapply Forall_impl; [|exact G2]. apply plain_avoids.
  - exists []. repeat split; auto.
  - exists []. repeat split; auto.
Qed.
Lemma folding_adds w pk sk : emits F (fun _ => True) (folding w pk sk) (fun _ => True).
Proof.
  intros c Hc. unfold folding. destruct (prove_address_folding_in_cs F K P e pk sk w c) as [p| |] eqn:E; cbn [fst snd].
  - apply folding_eq in E. destruct E as (l & c1 & E & ->).
    destruct (re_fold_body F K (fun _ => True) I (fun _ _ => I) P e pk sk w (any_okpk pk) (any_oksk sk) c l c1 Hc E) as (gs & G1 & G2 & G3 & G4).
    assert (HE : emits F (fun _ => True) (publish F l) (fun _ => True)).
    { unfold publish. eapply (eb F _ _ _ (fun _ => True)); [|intros; apply er; exact I]. clear. induction l as [|v l IH]; cbn [RescueModel.mapM]; [apply er; exact I|].
      eapply (eb F _ _ _ (fun _ => True)); [unfold prepare_pi_variable; apply e_push; exact I|]. intros a _. eapply eb; [apply IH|]. intros os _. apply er. exact I. }
    destruct (HE c1) as (gs' & G5 & G6 & G7 & _); [lia|].
    exists (gs' ++ gs). split; [rewrite G5, G1; apply app_assoc|]. split; [apply Forall_forall; auto|split; [lia|exact I]].
  - exists []. repeat split; auto.
  - exists []. repeat split; auto.
Qed.

(** ** Soundness with the published values *)
Lemma canon_of w v z : inp F v -> map w (svar v) = limbs (sim_from F S z) -> (0 <= z < modulus S)%Z -> canon F w v /\ num F w v = z.
Proof.
  intros [L R] E Hz. destruct (from_represents F Hp' S z HS Hz) as (O & N & _). unfold canon, leaf_ok, num, wnumber. rewrite R.
  rewrite (wlimbs_map F w (svar v)), E. auto.
Qed.
Lemma app_split {A} n : forall (a b c d : list A), length a = n -> length c = n -> a ++ b = c ++ d -> a = c /\ b = d.
Proof.
  induction n as [|n IH]; intros [|x a] b [|y c] d L1 L2 E; try discriminate; [auto|]. cbn in *. injection E as -> E.
  destruct (IH a b c d) as [-> ->]; auto.
Qed.
Lemma says_folds w pk sk l comm resp beta lambda vs : fold_says F P w pk sk l -> prepare_verifier_input F K comm resp beta lambda = Ok vs -> map w l = vs ->
  folds F K P (vpk F w pk) (vsk F w sk) comm resp beta lambda.
Proof.
  intros (cv & l1 & l2 & b0 & b1 & b2 & rsp & x & y & s & rx & ry & rs & -> & I1 & I2 & I3 & I4 & I5 & I6 & HR & HKw & EP & ES & HO & (r & HC) & HE) EV EM.
  unfold prepare_verifier_input in EV. destruct (combined_response K resp lambda) as [z| |] eqn:Ez; try discriminate EV. cbn [rmap bind] in EV. apply Ok_inj in EV. subst vs.
  cbn [map lambda_series beta_lambda_series tl flat_map] in EM. rewrite !app_nil_r, <- !app_assoc in EM. rewrite !map_app in EM. pose proof (f_equal (hd 0) EM) as Ec. apply (f_equal (@tl F)) in EM. cbn [hd tl] in Ec, EM.
  assert (L : forall v : simvar F, inp F v -> length (map w (svar v)) = 6%nat) by (intros v [Lv _]; now rewrite map_length).
  apply (app_split 6) in EM; [destruct EM as [M1 EM]|now apply L|reflexivity]. apply (app_split 6) in EM; [destruct EM as [M2 EM]|now apply L|reflexivity].
  apply (app_split 6) in EM; [destruct EM as [M3 EM]|now apply L|reflexivity]. apply (app_split 6) in EM; [destruct EM as [M4 EM]|now apply L|reflexivity].
  apply (app_split 6) in EM; [destruct EM as [M5 M6]|now apply L|reflexivity].
  destruct (canon_of w l1 _ I1 M1 (of_range K HK _)) as [C1 N1]. destruct (canon_of w l2 _ I2 M2 (of_range K HK _)) as [C2 N2].
  destruct (canon_of w b0 _ I3 M3 (of_range K HK _)) as [C3 N3]. destruct (canon_of w b1 _ I4 M4 (of_range K HK _)) as [C4 N4].
  destruct (canon_of w b2 _ I5 M5 (of_range K HK _)) as [C5 N5]. destruct (canon_of w rsp _ I6 M6 (of_range K HK _)) as [C6 N6].
  specialize (HE C1 C2 C3 C4 C5 C6). rewrite N1, N2, N3, N4, N5, N6, <- HK in HE. apply (proj1 (equation_iff K _ _ _ _ _ _ _ _ _)) in HE.
  assert (EPk : pk_number (vpk F w pk) = (x + 2 ^ 256 * y)%Z) by (destruct pk as [[p0 p1] p2]; exact EP).
  assert (ESk : sk_number (vsk F w sk) = s) by exact ES.
  unfold folds. rewrite EPk, ESk. split; [destruct pk as [[p0 p1] p2]; cbn in *; tauto|]. split; [destruct pk as [[p0 p1] p2]; cbn in *; split; tauto|].
  exists x, y, rx, ry, rs, r. split; [inversion HR as [|? ? Q1 HR1]; inversion HR1 as [|? ? Q2 HR2]; inversion HR2 as [|? ? Q3 HR3]; subst; constructor; [exact Q1|constructor; [exact Q2|exact HR3]]|].
  split; [reflexivity|]. split; [exact HO|]. split; [rewrite HC; now rewrite Ec|]. exists z. split; [exact Ez|exact HE].
Qed.
Lemma fold_sound_pub w pk sk c p : prove_address_folding_in_cs F K P e pk sk w c = Ok p -> (2 <= nvars c)%nat ->
  (nvars c <= nvars (snd p))%nat /\ forall a, sat (snd p) a -> sat c a /\
  exists vs, pub_values a (snd p) = pub_values a c ++ vs /\
    (a 0%nat = 0 -> forall comm resp beta lambda, prepare_verifier_input F K comm resp beta lambda = Ok vs -> folds F K P (vpk F a pk) (vsk F a sk) comm resp beta lambda).
Proof.
  intros E Hc. apply folding_eq in E. destruct E as (l & c1 & E & ->).
  destruct (re_fold_body F K (fun _ => True) I (fun _ _ => I) P e pk sk w (any_okpk pk) (any_oksk sk) c l c1 Hc E) as (gs & G1 & G2 & G3 & _).
  destruct (publish_sp l c1) as (M1 & _ & M3); [lia|]. split; [lia|]. intros a Ha. destruct (M3 a Ha) as (H1 & vs & H2 & H3). cbn beta in H3.
  destruct (fold_body_sound F K Hp P HP e He pk sk w c l c1 E a H1) as [H4 H5]. split; [exact H4|]. exists vs. split.
  - rewrite H2. rewrite (pub_values_app F c c1 gs a G1), silent_pub; [now rewrite app_nil_r|]. eapply Forall_impl; [|exact G2]. intros g [Hg _]. exact Hg.
  - intros A0 comm resp beta lambda EV. eapply says_folds; [exact (H5 A0)|exact EV|now rewrite H3].
Qed.
Lemma folding_soundp w pk sk : witness_builds F K w -> soundp F (folding w pk sk) (fun _ => True) (fun a _ vs => a 0%nat = 0 ->
  forall comm resp beta lambda, prepare_verifier_input F K comm resp beta lambda = Ok vs -> folds F K P (vpk F a pk) (vsk F a sk) comm resp beta lambda).
Proof.
  intros Hw c Hc. destruct (fold_sound_pub w pk sk c _ (folding_ok w pk sk Hw c) Hc) as [H1 H2]. split; [exact H1|]. split; [exact I|]. exact H2.
Qed.

(** ** Honest runs *)
Lemma publish_hp l xs c : Inv c -> all c l xs -> hp F (publish F l) c (fun _ _ vs => vs = xs).
Proof.
  intros HI H. unfold publish. eapply (hpb F _ _ _ (fun _ _ vs => vs = xs)).
  - revert c HI H. induction l as [|v l IH] in xs |- *; intros c HI H; inversion H as [|? x ? xs' H1 H2]; subst; cbn [RescueModel.mapM].
    + split; [exact HI|]. split; [apply extends_refl|]. exists []. split; [symmetry; apply app_nil_r|reflexivity].
    + eapply hpb; [apply hp_pi; eassumption|]. intros a c1 v1 I1 X1 ->. eapply hpb; [apply (IH xs' c1 I1); eapply all_mono; eassumption|].
      intros os c2 v2 I2 X2 ->. split; [exact I2|]. split; [apply extends_refl|]. exists []. split; [symmetry; apply app_nil_r|]. cbn. now rewrite app_nil_r.
  - intros os c1 v1 I1 X1 ->. split; [exact I1|]. split; [apply extends_refl|]. exists []. split; [symmetry; apply app_nil_r|apply app_nil_r].
Qed.
Lemma skipn_twice {A} m n : forall l : list A, skipn m (skipn n l) = skipn (n + m) l.
Proof. induction n as [|n IH]; intros l; [reflexivity|]. destruct l as [|a l]; [now rewrite !skipn_nil|exact (IH l)]. Qed.
(** The three scalars of a public key hold the numbers of its coordinates. *)
Lemma public_scalars_value bx by_ (p : F * F * F) : length bx = 32%nat -> length by_ = 32%nat -> Forall (fun b => b < 256)%N bx -> Forall (fun b => b < 256)%N by_ ->
  get_public_key_scalars F bx by_ = Ok p -> pk_packed p /\ pk_number p = (Z.of_N (le_value bx) + 2 ^ 256 * Z.of_N (le_value by_))%Z.
Proof.
  intros L1 L2 B1 B2 E. unfold get_public_key_scalars in E. set (bs := bx ++ by_) in *.
  assert (L : length bs = 64%nat) by (unfold bs; rewrite app_length; lia). assert (B : Forall (fun b => b < 256)%N bs) by (apply Forall_app; auto).
  rewrite L in E. cbn [Nat.ltb Nat.leb] in E. unfold scalar_from_bytes in E.
  assert (La : length (firstn 31 bs) = 31%nat) by (rewrite firstn_length; lia). assert (Lb : length (firstn 31 (skipn 31 bs)) = 31%nat) by (rewrite firstn_length, skipn_length; lia).
  assert (Lc : length (skipn 62 bs) = 2%nat) by (rewrite skipn_length; lia). rewrite La, Lb, Lc in E. cbn [Nat.ltb Nat.leb bind] in E. apply Ok_inj in E. subst p. cbn [pk_packed pk_number].
  pose proof (le_value_lt _ (firstn_F _ 31 _ B)) as V1. pose proof (le_value_lt _ (firstn_F _ 31 _ (skipn_F _ 31 _ B))) as V2. pose proof (le_value_lt _ (skipn_F _ 62 _ B)) as V3.
  rewrite La in V1. rewrite Lb in V2. rewrite Lc in V3.
  assert (W1 : (0 <= Z.of_N (le_value (firstn 31 bs)) < 2 ^ 248)%Z) by (change (2 ^ 248)%Z with (Z.of_N (256 ^ N.of_nat 31)); lia).
  assert (W2 : (0 <= Z.of_N (le_value (firstn 31 (skipn 31 bs))) < 2 ^ 248)%Z) by (change (2 ^ 248)%Z with (Z.of_N (256 ^ N.of_nat 31)); lia).
  assert (W3 : (0 <= Z.of_N (le_value (skipn 62 bs)) < 2 ^ 16)%Z) by (change (2 ^ 16)%Z with (Z.of_N (256 ^ N.of_nat 2)); lia).
  assert (T : (2 ^ 248 < 2 ^ 254 /\ 2 ^ 16 < 2 ^ 254)%Z) by (split; reflexivity).
  unfold fofN. rewrite !toZ_small by lia. split; [lia|].
  assert (EB : le_value bs = (le_value (firstn 31 bs) + 256 ^ 31 * (le_value (firstn 31 (skipn 31 bs)) + 256 ^ 31 * le_value (skipn 62 bs)))%N).
  { rewrite <- (firstn_skipn 31 bs) at 1. rewrite le_value_app, La. f_equal. f_equal. rewrite <- (firstn_skipn 31 (skipn 31 bs)) at 1. rewrite le_value_app, Lb. f_equal. f_equal.
    now rewrite skipn_twice. }
  assert (EB2 : le_value bs = (le_value bx + 256 ^ 32 * le_value by_)%N) by (unfold bs; rewrite le_value_app, L1; reflexivity).
  change (2 ^ 256)%Z with (Z.of_N (256 ^ 32)). change (2 ^ 248)%Z with (Z.of_N (256 ^ 31)). rewrite <- !N2Z.inj_mul, <- !N2Z.inj_add, <- !N2Z.inj_mul, <- !N2Z.inj_add. now rewrite <- EB, EB2.
Qed.
(** An honest witness for the keys [p], [s]. *)
Definition honest_witness (w : fw) (p : F * F * F) (s : F * F) : Prop :=
  witness_builds F K w /\ get_secret_key_scalars F (fw_sk w) = Ok s /\
  pk_packed p /\ pk_number p = (toZ (fw_x w) + 2 ^ 256 * toZ (fw_y w))%Z /\
  inspection_comm F P [toZ (fw_x w); toZ (fw_y w); ssk F K w] (map toZ (firstn 3 (fw_rhos w))) (fw_r w) = Ok (fw_comm w).
Lemma folding_honest w p s pk sk c : honest_witness w p s -> Inv c -> has_pk F c pk p -> has_sk F c sk s ->
  exists c' vs, prove_address_folding_in_cs F K P e pk sk w c = Ok (tt, c') /\ Inv c' /\ extends c c' /\
    prepare_verifier_input F K (fw_comm w) (fw_resp w) (fw_beta w) (fw_lambda w) = Ok vs /\ pub_values (val c') c' = pub_values (val c) c ++ vs.
Proof.
  intros (Hw & ES & PP & EP & EC) HI Hpk Hsk. destruct p as [[P0 P1] P2], s as [S0 S1].
  assert (EV : exists vs, prepare_verifier_input F K (fw_comm w) (fw_resp w) (fw_beta w) (fw_lambda w) = Ok vs).
  { pose proof Hw as (_ & ? & ? & ? & ? & resp & _ & E2 & _). unfold prepare_verifier_input. rewrite E2. cbn [rmap bind]. eauto. }
  destruct EV as [vs EV].
  destruct (h_fold_body F K Hp P HP e He HK pk sk w c P0 P1 P2 S0 S1 vs) as (l & c1 & E & I1 & X1 & HA); try assumption.
  { apply PP. } { apply PP. } { apply PP. } { apply Hsk. } { apply Hsk. }
  destruct (publish_hp l vs c1 I1 HA) as (I2 & X2 & vs' & EQ & ->). exists (snd (publish F l c1)), vs.
  split; [unfold prove_address_folding_in_cs, rbnd, lift; rewrite E; destruct (publish F l c1) as [[] c2]; reflexivity|]. split; [exact I2|]. split; [exact (extends_trans F _ _ _ X1 X2)|]. split; [exact EV|].
  rewrite EQ. f_equal. destruct (re_fold_body F K (fun _ => True) I (fun _ _ => I) P e pk sk w (any_okpk pk) (any_oksk sk) c l c1 ltac:(apply HI) E) as (gs & G1 & G2 & G3 & _).
  rewrite (pub_values_app F c c1 gs _ G1), silent_pub; [rewrite app_nil_r; now apply pub_same|]. eapply Forall_impl; [|exact G2]. intros g [Hg _]. exact Hg.
Qed.
End Whole.
